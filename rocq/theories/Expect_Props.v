(* C121: the energy estimate of expect.py.  It does not depend on the chunk size; its mean, variance
   and error are those of the samples taken chain by chain over all ranks; for independent samples of
   |psi|^2 the mean is an unbiased estimate of the Rayleigh quotient, the squared error and the
   variance have the expected values of the theory; for an eigenstate the mean is the eigenvalue
   whatever the samples, with variance and error 0. *)
From Verif Require Import Base Fock_Spec Fock_Proofs Occ_Model Occ_Spec Update_Proto Fast_Contract Unique_Model Expect_Model.
From Verif Require Import Hubbard_Model Hubbard_Props AbInitio_Model AbInitioOtf_Model AbInitio_Props.
Import Num.Theory.
Local Open Scope ring_scope.

Section Lists.
Variables (T V : Type).

Lemma chunk_all (c k : nat) (l : seq T) : (k * c <= size l)%N ->
  flatten [seq take c (drop (i * c) l) | i <- iota 0 k] = take (k * c) l.
Proof.
elim: k => [|k IH] Hk; first by rewrite mul0n take0.
have Hk' : (k * c <= size l)%N by lia.
rewrite -addn1 iotaD map_cat flatten_cat IH // add0n /= cats0 mulnDl mul1n.
by rewrite -{2}(cat_take_drop (k * c) l) takeD cat_take_drop.
Qed.

Lemma chunksE (ch : option nat) (l : seq T) : flatten (chunks ch l) = l.
Proof.
case: ch => [c|] /=; last by rewrite cats0.
case: leqP => Hc /=; first by rewrite cats0.
by rewrite flatten_rcons chunk_all ?leq_trunc_div // cat_take_drop.
Qed.

Lemma vmap_chunkedE (ch : option nat) (f : T -> V) (l : seq T) : vmap_chunked ch f l = map f l.
Proof. by rewrite /vmap_chunked -map_flatten chunksE. Qed.

Lemma rows_flatten (w : nat) (L : seq (seq T)) : all (fun l => size l == w) L ->
  [seq take w (drop (i * w) (flatten L)) | i <- iota 0 (size L)] = L.
Proof.
elim: L => // a L IH /= /andP[/eqP Ha HL].
rewrite mul0n drop0 take_size_cat //; congr (_ :: _).
rewrite -[RHS](IH HL) (iotaDl 1 0) -map_comp; apply: eq_map => i /=.
by rewrite mulnDl mul1n addnC -drop_drop drop_size_cat.
Qed.

Lemma size_flatten_rect (w : nat) (L : seq (seq T)) : all (fun l => size l == w) L ->
  size (flatten L) = (size L * w)%N.
Proof. by elim: L => // a L IH /= /andP[/eqP Ha HL]; rewrite size_cat IH // Ha mulSn. Qed.
End Lists.

(* every rank has m chains of w samples *)
Definition rect (T : Type) (m w : nat) (ls : seq (seq (seq T))) : bool :=
  all (fun chains => (size chains == m) && all (fun l => size l == w) chains) ls.

(* the sum of f over the samples of all chains of all ranks *)
Definition total (T : Type) (C : numClosedFieldType) (f : T -> C) (ls : seq (seq (seq T))) : C :=
  \sum_(chains <- ls) \sum_(chain <- chains) \sum_(x <- chain) f x.

Section Stats.
Variables (T : Type) (C : numClosedFieldType) (loc : T -> C).

Lemma expect_rows_chains ch m w (chains : seq (seq T)) : (0 < m)%N ->
  (size chains == m) && all (fun l => size l == w) chains ->
  expect_rows loc ch (Chains chains) = map (map loc) chains.
Proof.
move=> Hm /andP[/eqP Hs Hw]; rewrite /expect_rows /reshape_chains /local_values vmap_chunkedE /= map_flatten.
have Hw' : all (fun l => size l == w) (map (map loc) chains).
  by rewrite all_map; apply: sub_all Hw => l /=; rewrite size_map.
rewrite (size_flatten_rect Hw') size_map mulKn ?Hs //.
by have := rows_flatten Hw'; rewrite size_map Hs.
Qed.

Lemma sum_flatten (A : Type) (L : seq (seq A)) (g : A -> C) :
  \sum_(x <- flatten L) g x = \sum_(l <- L) \sum_(x <- l) g x.
Proof. by elim: L => [|a L IH]; rewrite /= ?big_nil // big_cat big_cons IH. Qed.

Lemma mpi_mean_rect n (ls : seq (seq C)) : all (fun l => size l == n) ls ->
  mpi_mean ls = (\sum_(l <- ls) \sum_(x <- l) x) / (size ls * n)%:R.
Proof.
move=> H; rewrite /mpi_mean /amean size_map big_map natrM invfM mulrCA mulrC; congr (_ * _).
rewrite mulr_suml; elim: ls H => [|a l IH] /=; first by rewrite !big_nil.
by case/andP=> /eqP Ha Hl; rewrite !big_cons IH // Ha.
Qed.

Lemma size_sum n (A : Type) (ls : seq (seq A)) : all (fun l => size l == n) ls -> (\sum_(l <- ls) size l)%N = (size ls * n)%N.
Proof. by elim: ls => [|a l IH] /=; rewrite ?big_nil // big_cons => /andP[/eqP -> /IH ->]. Qed.

Theorem C121_statistics min_chains ch m w (ls : seq (seq (seq T))) : (0 < m)%N -> rect m w ls ->
  let N := (size ls * (m * w))%N in let M := (size ls * m)%N in
  let mean := total loc ls / N%:R in
  expect min_chains loc ch [seq Chains chains | chains <- ls]
  = (mean, total (fun x => `|loc x - mean| ^+ 2) ls / N%:R,
     if (min_chains < M)%N then
       Some (\sum_(chains <- ls) \sum_(chain <- chains) `|(\sum_(x <- chain) loc x) / w%:R - mean| ^+ 2 / M%:R ^+ 2)
     else None).
Proof.
move=> Hm Hr N M mean; rewrite /expect -map_comp.
have -> : [seq (expect_rows loc ch \o (@Chains T)) i | i <- ls] = [seq map (map loc) chains | chains <- ls].
  move: Hr; rewrite /rect; elim: (ls) => //= a l IH /andP[Ha Hl]; congr (_ :: _); last exact: IH.
  exact: (expect_rows_chains _ Hm Ha).
rewrite /statistics -!map_comp.
set data := map _ ls; set b := map _ ls.
have Hdata : all (fun l => size l == (m * w)%N) data.
  rewrite all_map; apply: sub_all Hr => chains /= /andP[/eqP Hs Hw].
  rewrite -map_flatten size_map (size_flatten_rect Hw) Hs eqxx; done.
have Hb : all (fun l => size l == m) b.
  by rewrite all_map; apply: sub_all Hr => chains /= /andP[Hs _]; rewrite !size_map.
have Sdata : size data = size ls by rewrite size_map.
have Sb : size b = size ls by rewrite size_map.
have Emean : mpi_mean data = mean.
  rewrite (mpi_mean_rect Hdata) Sdata /mean /total; congr (_ / _).
  rewrite big_map; apply: eq_bigr => chains _ /=; rewrite sum_flatten big_map.
  by apply: eq_bigr => l _; rewrite big_map.
have Ebmean : mpi_mean b = mean.
  rewrite (mpi_mean_rect Hb) Sb /mean /total /N.
  rewrite [in RHS]mulnA [in RHS](natrM _ _ w) invfM [X in _ = _ * X]mulrC [RHS]mulrA; congr (_ / _).
  rewrite mulr_suml big_map; move: Hr; rewrite /rect; elim: (ls) => [|a l IH] /=; first by rewrite !big_nil.
  case/andP=> /andP[_ Ha] Hl; rewrite !big_cons IH //; congr (_ + _).
  rewrite big_map big_map mulr_suml; elim: (a) Ha => [|c d IHd] /=; first by rewrite !big_nil.
  by case/andP=> /eqP Hc Hd; rewrite !big_cons IHd // /amean size_map big_map Hc.
rewrite Emean; congr (_, _, _).
  rewrite /mpi_var Emean (size_sum Hdata) Sdata /total; congr (_ / _).
  rewrite big_map; apply: eq_bigr => chains _ /=; rewrite sum_flatten big_map.
  by apply: eq_bigr => l _; rewrite big_map.
rewrite (size_sum Hb) Sb -/M; case: ifP => // _; congr Some.
rewrite /mpi_var Ebmean (size_sum Hb) Sb -/M -mulrA -invfM -expr2 mulr_suml big_map.
move: Hr; rewrite /rect; elim: (ls) => [|a l IH] /=; first by rewrite !big_nil.
case/andP=> /andP[_ Ha] Hl; rewrite !big_cons IH //; congr (_ + _).
rewrite big_map big_map mulr_suml; elim: (a) Ha => [|c d IHd] /=; first by rewrite !big_nil.
by case/andP=> /eqP Hc Hd; rewrite !big_cons IHd // /amean size_map big_map Hc.
Qed.

(* two-dimensional samples: every sample counts as a chain of its own *)
Theorem C121_batch min_chains ch n (ls : seq (seq T)) : (0 < n)%N -> all (fun l => size l == n) ls ->
  let N := (size ls * n)%N in
  let mean := (\sum_(l <- ls) \sum_(x <- l) loc x) / N%:R in
  let var := (\sum_(l <- ls) \sum_(x <- l) `|loc x - mean| ^+ 2) / N%:R in
  expect min_chains loc ch [seq Batch l | l <- ls]
  = (mean, var, if (min_chains < N)%N then Some (var / N%:R) else None).
Proof.
move=> Hn Hs N mean var.
have E1 : forall f : T -> C, total f (map (map (fun x => [:: x])) ls) = \sum_(l <- ls) \sum_(x <- l) f x.
  move=> f; rewrite /total big_map; apply: eq_bigr => l _; rewrite big_map.
  by apply: eq_bigr => x _; rewrite big_seq1.
have Hr : rect n 1 (map (map (fun x => [:: x])) ls).
  rewrite /rect all_map; apply: sub_all Hs => l /= Hl; rewrite size_map Hl /= all_map.
  by elim: (l).
have -> : expect min_chains loc ch [seq Batch l | l <- ls]
  = expect min_chains loc ch [seq Chains chains | chains <- map (map (fun x => [:: x])) ls].
  rewrite /expect -!map_comp; congr statistics; apply: eq_map => l /=.
  rewrite /expect_rows /= size_map; congr (reshape_chains _ (local_values _ _ _)).
  by elim: l => //= x l <-.
rewrite (C121_statistics _ _ Hn Hr) size_map muln1 -/N !E1 -/mean -/var; congr (_, _, _).
case: ifP => // _; congr Some; rewrite /var -mulrA -invfM -expr2 mulr_suml big_map.
apply: eq_bigr => l _; rewrite big_map mulr_suml; apply: eq_bigr => x _.
by rewrite big_seq1 divr1.
Qed.

(* the chunk size is irrelevant, for samples of any shape *)
Theorem C121_chunks min_chains ch (ranks : seq (samples T)) :
  expect min_chains loc ch ranks = expect min_chains loc None ranks.
Proof.
rewrite /expect; congr statistics; apply: eq_map => s.
by rewrite /expect_rows /local_values !vmap_chunkedE.
Qed.

(* samples with the same local energy: variance and error vanish *)
Theorem C121_zero_variance min_chains ch m w E (ls : seq (seq (seq T))) : (0 < size ls)%N -> (0 < m)%N -> (0 < w)%N ->
  rect m w ls -> (forall chains chain x, List.In chains ls -> List.In chain chains -> List.In x chain -> loc x = E) ->
  expect min_chains loc ch [seq Chains chains | chains <- ls]
  = (E, 0, if (min_chains < size ls * m)%N then Some 0 else None).
Proof.
move=> Hl Hm Hw Hr HE; rewrite (C121_statistics _ _ Hm Hr).
have sumIn : forall (A : Type) (l : seq A) (f g : A -> C), (forall x, List.In x l -> f x = g x) ->
    \sum_(x <- l) f x = \sum_(x <- l) g x.
  move=> A; elim=> [|a l IH] f g H; rewrite ?big_nil // !big_cons H /=; last by left.
  by congr (_ + _); apply: IH => x Hx; apply: H; right.
have sumc : forall (A : Type) (l : seq A) (v : C), \sum_(x <- l) v = v *+ size l.
  by move=> A l v; elim: l => [|a l IH]; rewrite ?big_nil // big_cons IH -mulrS.
have rsz : forall chains, List.In chains ls -> size chains = m /\ forall chain, List.In chain chains -> size chain = w.
  move: Hr; rewrite /rect; elim: (ls) => //= a l IH /andP[/andP[/eqP Ha Hc] Hl'] chains [<-|H]; last exact: IH.
  split=> //; elim: (a) Hc => //= c d IHd /andP[/eqP Hc Hd] chain [<-|H] //; exact: IHd.
have tot : forall (f : T -> C) v, (forall chains chain x, List.In chains ls -> List.In chain chains -> List.In x chain -> f x = v) ->
   total f ls = v *+ (size ls * (m * w)).
  move=> f v Hf; rewrite /total.
  rewrite (sumIn _ _ _ (fun _ => v *+ w *+ m)) ?sumc; first by rewrite -!mulrnA; congr (_ *+ _); lia.
  move=> chains Hc; have [<- Hch] := rsz _ Hc; rewrite -sumc; apply: (sumIn) => chain Hch'.
  by rewrite -(Hch _ Hch') -sumc; apply: sumIn => x Hx; apply: (Hf chains chain).
have N0 : ((size ls * (m * w))%N%:R : C) != 0 by rewrite pnatr_eq0 -lt0n !muln_gt0 Hl Hm.
have Emean : total loc ls / (size ls * (m * w))%N%:R = E by rewrite (tot _ _ HE) -[E *+ _]mulr_natr mulfK.
rewrite /= Emean; congr (_, _, _).
  by rewrite (tot _ 0) ?mul0rn ?mul0r // => chains chain x H1 H2 H3; rewrite (HE _ _ _ H1 H2 H3) subrr normr0 expr0n.
case: ifP => // _; congr Some; rewrite (sumIn _ _ _ (fun _ => 0)) ?sumc ?mul0rn // => chains Hc.
rewrite (sumIn _ _ _ (fun _ => 0)) ?sumc ?mul0rn // => chain Hch.
rewrite (sumIn _ _ _ (fun _ => E)) => [|x Hx]; last exact: (HE chains chain).
by rewrite sumc (proj2 (rsz _ Hc) _ Hch) -[E *+ _]mulr_natr mulfK ?pnatr_eq0 -?lt0n // subrr normr0 expr0n mul0r.
Qed.
End Stats.
Print Assumptions C121_statistics.
Print Assumptions C121_batch.
Print Assumptions C121_chunks.
Print Assumptions C121_zero_variance.

(* the state of unique samples: weighted mean, variance and gradient (C43, C111) for every chunk size *)
Theorem C121_unique (T : eqType) (C : numClosedFieldType) (loc oks : T -> C) ch (ranks : seq (seq T * seq C)) :
  grad_expect_hermitian_chunked ch loc (fun x => (oks x)^*) ranks
  = (expect_mean loc ranks, expect_variance loc ranks, expect_grad conjC loc oks ranks).
Proof.
rewrite /grad_expect_hermitian_chunked /local_values.
have zipE : forall (r : seq T * seq C) (g : C -> C -> C),
    \sum_(p <- zip r.2 (vmap_chunked ch loc r.1)) g p.1 p.2 = \sum_(p <- zip r.1 r.2) g p.2 (loc p.1).
  move=> [xs cs] g /=; rewrite vmap_chunkedE; elim: xs cs => [|x xs IH] [|c cs] /=; rewrite ?big_nil // !big_cons IH //.
have E1 : \sum_(r <- ranks) \sum_(p <- zip r.2 (vmap_chunked ch loc r.1)) p.1 * p.2 = expect_mean loc ranks.
  by rewrite /expect_mean /weighted; apply: eq_bigr => r _; rewrite (zipE r (fun a b => a * b)).
rewrite E1; congr (_, _, _).
  by rewrite /expect_variance /weighted; apply: eq_bigr => r _; rewrite (zipE r (fun a b => a * `|b - expect_mean loc ranks| ^+ 2)).
rewrite /expect_grad /weighted; apply: eq_bigr => r _.
have vE : forall l : seq (T * C), vjp_chunked ch (fun x => (oks x)^*) l = \sum_(p <- l) p.2 * (oks p.1)^*.
  move=> l; rewrite -[in RHS](chunksE ch l) sum_flatten /vjp_chunked.
  have foldE : forall (L : seq (seq (T * C))) a,
      foldl (fun acc c => acc + \sum_(p <- c) p.2 * (oks p.1)^*) a L = a + \sum_(c <- L) \sum_(p <- c) p.2 * (oks p.1)^*.
    by elim=> [|c L IH] a /=; rewrite ?big_nil ?addr0 // IH big_cons addrA.
  by rewrite foldE add0r.
rewrite vE; case: r => xs cs /=; rewrite vmap_chunkedE.
by elim: xs cs => [|x xs IH] [|c cs] /=; rewrite ?big_nil // !big_cons IH /= mulrA.
Qed.
Print Assumptions C121_unique.

(* independent samples: the samples of R ranks with m chains of w samples each are drawn
   independently from a distribution p (the direct samplers, C26) *)
Lemma norm2B (C : numClosedFieldType) (a b : C) : `|a - b| ^+ 2 = `|a| ^+ 2 - a * b^* - a^* * b + `|b| ^+ 2.
Proof. by rewrite !normCK rmorphB mulrBl !mulrBr opprB [b * a^*]mulrC addrA addrAC. Qed.

Section Independent.
Variables (X : finType) (C : numClosedFieldType) (p : X -> C).
Hypothesis p_sum : \sum_x p x = 1.
Variables (R m w : nat).
Hypotheses (R0 : (0 < R)%N) (m0 : (0 < m)%N) (w0 : (0 < w)%N).

Let I := ('I_R * 'I_m * 'I_w)%type.
(* the arrays of samples on all ranks *)
Definition arrays (s : {ffun 'I_R * 'I_m * 'I_w -> X}) : seq (seq (seq X)) :=
  [seq [seq [seq s (r, c, l) | l <- enum 'I_w] | c <- enum 'I_m] | r <- enum 'I_R].
(* the expected value over independent samples *)
Definition ex_iid (g : {ffun 'I_R * 'I_m * 'I_w -> X} -> C) : C := \sum_(s : {ffun 'I_R * 'I_m * 'I_w -> X}) (\prod_i p (s i)) * g s.

Lemma rect_arrays s : rect m w (arrays s).
Proof.
rewrite /rect all_map; apply/allP => r _ /=; rewrite size_map size_enum_ord eqxx all_map.
by apply/allP => c _ /=; rewrite size_map size_enum_ord.
Qed.

Lemma total_arrays (f : X -> C) s : total f (arrays s) = \sum_i f (s i).
Proof.
rewrite /total /arrays big_map big_enum /=.
transitivity (\sum_r \sum_c \sum_l f (s (r, c, l))); last first.
  rewrite pair_bigA pair_bigA /=; apply: eq_bigr => -[[r c] l] _; done.
apply: eq_bigr => r _; rewrite big_map big_enum /=; apply: eq_bigr => c _.
by rewrite big_map big_enum.
Qed.

Lemma ex_iid_prod (h : I -> X -> C) : ex_iid (fun s => \prod_i h i (s i)) = \prod_i \sum_x p x * h i x.
Proof.
rewrite bigA_distr_bigA; apply: eq_bigr => s _; by rewrite big_split.
Qed.

Lemma ex_iid_add g1 g2 : ex_iid (fun s => g1 s + g2 s) = ex_iid g1 + ex_iid g2.
Proof. by rewrite /ex_iid -big_split; apply: eq_bigr => s _; rewrite mulrDr. Qed.
Lemma ex_iid_scale a g : ex_iid (fun s => a * g s) = a * ex_iid g.
Proof. by rewrite /ex_iid big_distrr; apply: eq_bigr => s _ /=; rewrite mulrCA. Qed.
Lemma ex_iid_sum (J : finType) (g : J -> _ -> C) : ex_iid (fun s => \sum_j g j s) = \sum_j ex_iid (g j).
Proof. by rewrite /ex_iid exchange_big; apply: eq_bigr => s _; rewrite big_distrr. Qed.
Lemma ex_iid_eq g1 g2 : g1 =1 g2 -> ex_iid g1 = ex_iid g2.
Proof. by move=> H; apply: eq_bigr => s _; rewrite H. Qed.

Lemma ex_iid_const a : ex_iid (fun _ => a) = a.
Proof.
have E1 : ex_iid (fun _ => \prod_(i : I) 1) = 1.
  rewrite (ex_iid_prod (fun _ _ => 1)) big1 // => i _.
  by rewrite -[RHS]p_sum; apply: eq_bigr => x _; rewrite mulr1.
rewrite -[RHS]mulr1 -[X in _ = _ * X]E1 -ex_iid_scale; apply: ex_iid_eq => s.
by rewrite big1 ?mulr1.
Qed.

Lemma ex_iid_1 (f : X -> C) (i : I) : ex_iid (fun s => f (s i)) = \sum_x p x * f x.
Proof.
have := ex_iid_prod (fun j x => if j == i then f x else 1).
rewrite (bigD1 i) //= eqxx [X in _ = _ * X]big1 ?mulr1 => [<-|j /negPf Hj]; last first.
  by rewrite Hj -[RHS]p_sum; apply: eq_bigr => x _; rewrite mulr1.
apply: ex_iid_eq => s; rewrite (bigD1 i) //= eqxx big1 ?mulr1 // => j /negPf Hj; by rewrite Hj.
Qed.

Lemma ex_iid_2 (f g : X -> C) (i j : I) : i != j ->
  ex_iid (fun s => f (s i) * g (s j)) = (\sum_x p x * f x) * (\sum_x p x * g x).
Proof.
move=> Hij; have Hji : (j == i) = false by rewrite eq_sym (negPf Hij).
pose h (k : I) x := if k == i then f x else if k == j then g x else 1.
have E2 : forall s : {ffun I -> X}, \prod_k h k (s k) = f (s i) * g (s j).
  move=> s; rewrite (bigD1 i) // (bigD1 j) ?Hji //= /h !eqxx Hji big1 ?mulr1 //.
  by move=> k /andP[/negPf Hk1 /negPf Hk2]; rewrite Hk1 Hk2.
rewrite -(ex_iid_eq E2) ex_iid_prod (bigD1 i) // (bigD1 j) ?Hji //= /h !eqxx Hji [X in _ * (_ * X)]big1 ?mulr1 //.
by move=> k /andP[/negPf Hk1 /negPf Hk2]; rewrite Hk1 Hk2 -[RHS]p_sum; apply: eq_bigr => x _; rewrite mulr1.
Qed.

Variable (loc : X -> C).
Let mu := \sum_x p x * loc x.
Let var := \sum_x p x * `|loc x - mu| ^+ 2.
Let d x := loc x - mu.

Lemma d_mean : \sum_x p x * d x = 0.
Proof.
rewrite (eq_bigr (fun x => p x * loc x - p x * mu)) => [|x _]; last by rewrite mulrBr.
by rewrite sumrB -mulr_suml p_sum mul1r subrr.
Qed.

(* covariance of two samples *)
Lemma cov (i j : I) : ex_iid (fun s => d (s i) * (d (s j))^*) = if i == j then var else 0.
Proof.
case: eqP => [<-|/eqP Hij].
  rewrite (ex_iid_eq (g2 := fun s => `|d (s i)| ^+ 2)) => [|s]; last by rewrite normCK.
  exact: (ex_iid_1 (fun x => `|d x| ^+ 2)).
by rewrite (ex_iid_2 d (fun x => (d x)^*) Hij) d_mean mul0r.
Qed.

(* the squared modulus of a sum of deviations over a set of samples *)
Lemma ex_norm2 (P : pred I) : ex_iid (fun s => `|\sum_(i | P i) d (s i)| ^+ 2) = #|P|%:R * var.
Proof.
rewrite (ex_iid_eq (g2 := fun s => \sum_i \sum_j (if P i && P j then d (s i) * (d (s j))^* else 0))) => [|s]; last first.
  rewrite normCK rmorph_sum mulr_suml big_mkcond; apply: eq_bigr => i _ /=.
  case: (P i) => /=; last by rewrite big1.
  by rewrite mulr_sumr [LHS]big_mkcond.
rewrite ex_iid_sum (eq_bigr (fun i => if P i then var else 0)) => [|i _].
  by rewrite -big_mkcond sumr_const mulr_natl.
rewrite ex_iid_sum (eq_bigr (fun j => if i == j then (if P i then var else 0) else 0)) => [|j _].
  by rewrite -big_mkcond (big_pred1 i) // => j; rewrite /= eq_sym.
case HP: (P i && P j).
  by rewrite cov; case/andP: HP => ->.
rewrite (ex_iid_const 0); case: eqP HP => // <-; by rewrite andbb => ->.
Qed.

Let N := (R * (m * w))%N.
Lemma N_neq0 : (N%:R : C) != 0. Proof. by rewrite pnatr_eq0 -lt0n !muln_gt0 R0 m0 w0. Qed.
Lemma card_I : #|{: I}| = N. Proof. by rewrite !card_prod !card_ord /N mulnA. Qed.

Lemma sum_d (s : {ffun I -> X}) : \sum_i loc (s i) = \sum_i d (s i) + N%:R * mu.
Proof.
have -> : N%:R * mu = \sum_(i : I) mu by rewrite sumr_const card_I mulr_natl.
by rewrite -big_split; apply: eq_bigr => i _ /=; rewrite /d subrK.
Qed.

Lemma mean_d (s : {ffun I -> X}) : (\sum_i loc (s i)) / N%:R = (\sum_i d (s i)) / N%:R + mu.
Proof. by rewrite sum_d mulrDl [N%:R * _]mulrC mulfK // N_neq0. Qed.

Variables (min_chains : nat) (ch : option nat).
Let estimate s := expect min_chains loc ch [seq Chains chains | chains <- arrays s].

Lemma size_arrays s : size (arrays s) = R. Proof. by rewrite size_map size_enum_ord. Qed.

Lemma estimate_mean s : (estimate s).1.1 = (\sum_i loc (s i)) / N%:R.
Proof. by rewrite /estimate (C121_statistics _ _ _ m0 (rect_arrays s)) size_arrays /= total_arrays. Qed.

Lemma estimate_var s : (estimate s).1.2 = (\sum_i `|loc (s i) - (estimate s).1.1| ^+ 2) / N%:R.
Proof.
by rewrite /estimate (C121_statistics _ _ _ m0 (rect_arrays s)) size_arrays /= !total_arrays.
Qed.

Theorem C121_unbiased : ex_iid (fun s => (estimate s).1.1) = mu.
Proof.
rewrite (ex_iid_eq (g2 := fun s => N%:R^-1 * \sum_i loc (s i))) => [|s]; last by rewrite estimate_mean mulrC.
rewrite ex_iid_scale ex_iid_sum (eq_bigr (fun _ => mu)) => [|i _]; last exact: ex_iid_1.
by rewrite sumr_const card_I -[mu *+ _]mulr_natl mulKf // N_neq0.
Qed.

Theorem C121_spread : ex_iid (fun s => `|(estimate s).1.1 - mu| ^+ 2) = var / N%:R.
Proof.
rewrite (ex_iid_eq (g2 := fun s => (N%:R ^+ 2)^-1 * `|\sum_(i | predT i) d (s i)| ^+ 2)) => [|s].
  by rewrite ex_iid_scale ex_norm2 card_I mulrA expr2 invfM mulfVK ?N_neq0 // mulrC.
rewrite estimate_mean mean_d addrK normrM exprMn mulrC normfV ger0_norm ?ler0n // exprVn.
by [].
Qed.

Theorem C121_variance : ex_iid (fun s => (estimate s).1.2) = (1 - N%:R^-1) * var.
Proof.
have N0 := N_neq0.
rewrite (ex_iid_eq (g2 := fun s => N%:R^-1 * (\sum_i `|d (s i)| ^+ 2) + (-1) * `|(estimate s).1.1 - mu| ^+ 2)) => [|s].
  rewrite ex_iid_add !ex_iid_scale ex_iid_sum C121_spread (eq_bigr (fun _ => var)) => [|i _]; last first.
    exact: (ex_iid_1 (fun x => `|d x| ^+ 2)).
  by rewrite sumr_const card_I -[var *+ _]mulr_natl mulKf // mulrBl mul1r mulN1r [_^-1 * _]mulrC.
rewrite estimate_var; set e := (estimate s).1.1.
have Ee : e - mu = (\sum_i d (s i)) / N%:R by rewrite /e estimate_mean mean_d addrK.
rewrite (eq_bigr (fun i => `|d (s i)| ^+ 2 - d (s i) * (e - mu)^* - (d (s i))^* * (e - mu) + `|e - mu| ^+ 2)) => [|i _].
  rewrite !big_split /= sumr_const card_I !sumrN -!mulr_suml -rmorph_sum.
  have -> : \sum_i d (s i) = N%:R * (e - mu) by rewrite Ee mulrC mulfVK.
  rewrite rmorphM conjC_nat -!mulrA [(e - mu)^* * _]mulrC -normCK.
  set q := `|e - mu| ^+ 2; have -> : q *+ N = N%:R * q by rewrite mulr_natl.
  by rewrite subrK mulrBl [N%:R * q]mulrC mulfK // mulN1r [_^-1 * _]mulrC.
have -> : loc (s i) - e = d (s i) - (e - mu) by rewrite /d opprB addrA subrK.
exact: norm2B.
Qed.

(* the reported squared error: the variance of the chain means over the number of chains *)
Theorem C121_error : (min_chains < R * m)%N ->
  exists err : {ffun 'I_R * 'I_m * 'I_w -> X} -> C,
  (forall s, (estimate s).2 = Some (err s)) /\ ex_iid err = (1 - (R * m)%:R^-1) * (var / N%:R).
Proof.
move=> Hmin; set M := (R * m)%N.
have M0 : (M%:R : C) != 0 by rewrite pnatr_eq0 -lt0n muln_gt0 R0.
have W0 : (w%:R : C) != 0 by rewrite pnatr_eq0 -lt0n.
pose D (rc : 'I_R * 'I_m) (s : {ffun I -> X}) := (\sum_(l < w) d (s (rc, l))) / w%:R.
exists (fun s : {ffun I -> X} => \sum_rc `|D rc s - ((estimate s).1.1 - mu)| ^+ 2 / M%:R ^+ 2); split.
  move=> s; rewrite /estimate (C121_statistics _ _ _ m0 (rect_arrays s)) size_arrays Hmin /=; congr Some.
  rewrite total_arrays; set e := _ / _ : C.
  transitivity (\sum_r \sum_c `|D (r, c) s - (e - mu)| ^+ 2 / M%:R ^+ 2); last first.
    by rewrite pair_bigA /=; apply: eq_bigr => -[r c] _.
  rewrite {1}/arrays big_map big_enum /=.
  apply: eq_bigr => r _; rewrite big_map big_enum /=; apply: eq_bigr => c _.
  rewrite big_map big_enum /=; congr (`|_| ^+ 2 / _); rewrite /D /d sumrB sumr_const card_ord mulrBl.
  by rewrite -[mu *+ _]mulr_natr mulfK // opprB addrA subrK.
have Emean : forall s, (estimate s).1.1 - mu = (\sum_rc D rc s) / M%:R.
  move=> s; rewrite estimate_mean mean_d addrK /D -mulr_suml pair_bigA /= -mulrA -invfM -natrM.
  by rewrite /N /M mulnA [(w * _)%N]mulnC; congr (_ / _); apply: eq_bigr => -[[r c] l] _.
have Ex : forall s, \sum_rc `|D rc s - ((estimate s).1.1 - mu)| ^+ 2 / M%:R ^+ 2
    = (M%:R ^+ 2)^-1 * (\sum_rc `|D rc s| ^+ 2) + (- M%:R^-1) * `|(estimate s).1.1 - mu| ^+ 2.
  move=> s; rewrite -mulr_suml; set e := (estimate s).1.1 - mu.
  have ES : \sum_rc D rc s = M%:R * e by rewrite /e Emean mulrC mulfVK.
  set q := `|e| ^+ 2.
  have E1 : \sum_rc D rc s * e^* = M%:R * q by rewrite /q normCK mulrA -ES mulr_suml.
  have E2 : \sum_rc (D rc s)^* * e = M%:R * q.
    have -> : M%:R * q = (M%:R * e)^* * e by rewrite rmorphM conjC_nat /q normCK [e * _]mulrC mulrA.
    by rewrite -ES rmorph_sum mulr_suml.
  rewrite (eq_bigr _ (fun rc _ => norm2B (D rc s) e)) !big_split /= sumr_const card_prod !card_ord -/M -/q !sumrN E1 E2.
  have -> : q *+ M = M%:R * q by rewrite mulr_natl.
  rewrite subrK mulrBl [M%:R * q]mulrC -mulrA expr2 invfM [M%:R * (_ * _)]mulrA mulfV // mul1r mulNr [q * _]mulrC.
  by congr (_ - _); rewrite mulrC.
rewrite (ex_iid_eq Ex) ex_iid_add !ex_iid_scale C121_spread ex_iid_sum.
rewrite (eq_bigr (fun _ => var / w%:R)) => [|rc _]; last first.
  rewrite (ex_iid_eq (g2 := fun s => (w%:R ^+ 2)^-1 * `|\sum_(i | i.1 == rc) d (s i)| ^+ 2)) => [|s]; last first.
    rewrite /D normrM exprMn normfV normr_nat exprVn mulrC; congr (_ * `|_| ^+ 2).
    transitivity (\sum_(a | a == rc) \sum_(l < w) d (s (a, l))); first by rewrite big_pred1_eq.
    by rewrite pair_big /=; apply: eq_big => [[a l]|[a l] _] //=; rewrite andbT.
  rewrite ex_iid_scale ex_norm2.
  have -> : #|[pred i : I | i.1 == rc]| = w.
    rewrite -sum1_card; transitivity (\sum_(a | a == rc) \sum_(l < w) 1)%N.
      by rewrite pair_big /=; apply: eq_bigl => -[a l] /=; rewrite !inE /= andbT.
    by rewrite big_pred1_eq sum1_card card_ord.
  by rewrite expr2 invfM -mulrA mulKf // mulrC.
rewrite sumr_const card_prod !card_ord -/M -[(var / _) *+ M]mulr_natl expr2 invfM -mulrA mulKf //.
have -> : var / w%:R = M%:R * (var / N%:R) by rewrite /N mulnA -/M natrM invfM mulrCA mulVKf.
by rewrite mulKf // mulrBl mul1r mulNr.
Qed.
End Independent.
Print Assumptions C121_unbiased.
Print Assumptions C121_spread.
Print Assumptions C121_variance.
Print Assumptions C121_error.

(* samples of |psi|^2 and local energies of a matrix H: the expected value of the mean is the
   Rayleigh quotient, also for states with zeros *)
Theorem C121_rayleigh (X : finType) (C : numClosedFieldType) (H : X -> X -> C) (psi : X -> C) R m w min_chains ch :
  (0 < R)%N -> (0 < m)%N -> (0 < w)%N -> (exists x, psi x != 0) ->
  let norm2 := \sum_x `|psi x| ^+ 2 in
  let loc x := (\sum_y H x y * psi y) / psi x in
  ex_iid (R := R) (m := m) (w := w) (fun x => `|psi x| ^+ 2 / norm2)
    (fun s => (expect min_chains loc ch [seq Chains chains | chains <- arrays s]).1.1)
  = (\sum_x (psi x)^* * \sum_y H x y * psi y) / norm2.
Proof.
move=> R0 m0 w0 [x0 Hx0] norm2 loc.
have N0 : norm2 != 0.
  rewrite /norm2 (bigD1 x0) //= paddr_eq0 ?exprn_ge0 ?normr_ge0 //; last by apply: sumr_ge0 => x _; rewrite exprn_ge0.
  by rewrite expf_eq0 /= normr_eq0 (negPf Hx0).
rewrite C121_unbiased //; last by rewrite -mulr_suml mulfV.
rewrite mulr_suml; apply: eq_bigr => x _; rewrite /loc mulrAC; congr (_ / _).
have [->|Hx] := eqVneq (psi x) 0; first by rewrite normr0 expr0n mul0r conjC0 mul0r.
by rewrite normCK [psi x * _]mulrC -mulrA; congr (_ * _); rewrite mulrCA mulfV ?mulr1.
Qed.
Print Assumptions C121_rayleigh.

(* the Hubbard model: an eigenstate has no statistical error, whatever the samples and chunks *)
Theorem C121_hubbard (C : numClosedFieldType) (U : C) L edges (t : seq C)
    (fast : cfg -> option (seq nat -> seq nat -> C)) (psi : cfg -> C) E min_chains ch m w (ls : seq (seq (seq cfg))) :
  (0 < size ls)%N -> (0 < m)%N -> (0 < w)%N -> rect m w ls ->
  all (fun e => [&& (e.1 < L)%N, (e.2 < L)%N & e.1 != e.2]) edges -> size t = size edges ->
  (forall chains chain x, List.In chains ls -> List.In chain chains -> List.In x chain ->
     [/\ valid x, size x = L, psi x != 0 & fast_ok_uniq (fast x) psi x]) ->
  (forall x, valid x -> size x = L -> hubbard L (zip edges t) U (fun f => psi (cfg_of f)) (fock_of x) = E * psi x) ->
  expect min_chains (fun x => hub_otf U edges t (fast x) psi x) ch [seq Chains chains | chains <- ls]
  = (E, 0, if (min_chains < size ls * m)%N then Some 0 else None).
Proof.
move=> Hl Hm Hw Hr He Ht Hs HE; apply: (C121_zero_variance _ _ Hl Hm Hw Hr) => chains chain x H1 H2 H3.
have [Hv Hsz Hp Hf] := Hs _ _ _ H1 H2 H3.
apply: (mulIf Hp); rewrite -HE // -Hsz; apply: C07_hubbard_on_the_fly_hamiltonian_partial => //.
  by apply: sub_all He => e /and3P[E1 E2 _]; rewrite Hsz E1.
by apply: sub_all He => e /and3P[].
Qed.
Print Assumptions C121_hubbard.

(* molecules *)
Theorem C121_ab_initio (C : numClosedFieldType) (half : C) h eri L n_elecs
    (fast : cfg -> option (seq nat -> seq nat -> C)) (psi : cfg -> C) E min_chains ch m w (ls : seq (seq (seq cfg))) :
  half + half = 1 -> (0 < size ls)%N -> (0 < m)%N -> (0 < w)%N -> rect m w ls ->
  (forall p q r s, (p < L)%N -> (q < L)%N -> (r < L)%N -> (s < L)%N -> eri p q r s = eri r s p q) ->
  (forall chains chain x, List.In chains ls -> List.In chain chains -> List.In x chain ->
     [/\ valid x, size x = L, (n_spin Up x, n_spin Dn x) = n_elecs, psi x != 0 & fast_ok (fast x) psi x]) ->
  (forall x, valid x -> size x = L -> (n_spin Up x, n_spin Dn x) = n_elecs ->
     molecular L half h eri (fun f => psi (cfg_of f)) (fock_of x) = E * psi x) ->
  expect min_chains (fun x => ab_otf half n_elecs (t_mat half L h eri) eri (fast x) psi x) ch [seq Chains chains | chains <- ls]
  = (E, 0, if (min_chains < size ls * m)%N then Some 0 else None).
Proof.
move=> Hh Hl Hm Hw Hr Hs Hx HE; apply: (C121_zero_variance _ _ Hl Hm Hw Hr) => chains chain x H1 H2 H3.
have [Hv Hsz Hn Hp Hf] := Hx _ _ _ H1 H2 H3.
by apply: (mulIf Hp); rewrite -HE //; apply: C10_ab_initio_on_the_fly_hamiltonian.
Qed.
Print Assumptions C121_ab_initio.

(* two ranks with two chains of three samples and a chunk size that does not divide the batch *)
Example C121_example (C : numClosedFieldType) :
  let loc (x : nat) : C := x%:R in
  let ls := [:: [:: [:: 1; 2; 3]; [:: 4; 5; 6]]; [:: [:: 1; 1; 1]; [:: 7; 3; 2]]]%N in
  [/\ rect 2 3 ls, vmap_chunked (Some 4%N) loc [:: 1; 2; 3; 4; 5; 6]%N = [:: 1%:R; 2%:R; 3%:R; 4%:R; 5%:R; 6%:R] &
      (expect 1 loc (Some 4%N) [seq Chains c | c <- ls]).1.1 = 3%:R].
Proof.
move=> loc ls; split=> //.
rewrite (C121_statistics loc 1 (Some 4%N) (m := 2) (w := 3)) //= /total !big_cons !big_nil /loc !addr0 -!natrD.
by rewrite (_ : (_ + _)%N = (3 * 12)%N) // natrM mulfK // pnatr_eq0.
Qed.
