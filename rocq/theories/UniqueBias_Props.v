(* C128: is the mean over unique samples an unbiased estimate? *)
From Verif Require Import Base Numq Unique_Model Unique_Props UniqueBias_Model.
Import Order.Theory Num.Theory GRing.Theory.
Local Open Scope ring_scope.

Section Cut.
Variable X : eqType.
Implicit Types (s c r seen : seq X).
(* the draws up to the n-th different one *)
Fixpoint cut (n : nat) seen s : seq X :=
  if s is x :: s' then
    x :: (if (n <= size (undup (rcons seen x)))%N then [::] else cut n (rcons seen x) s')
  else [::].

Lemma cutE n seen c r : (size (undup seen) < n)%N ->
  (forall j, (j < size c)%N -> (size (undup (seen ++ take j c)) < n)%N) ->
  (n <= size (undup (seen ++ c)))%N \/ r = [::] -> cut n seen (c ++ r) = c.
Proof.
elim: c seen => [|x c IH] seen hs hj hend /=.
  by case: hend => [|-> //]; rewrite cats0 leqNgt hs.
congr cons; rewrite -cat_rcons in hend.
case: leqP => hx; last first.
  apply: IH => // j lj; have := hj j.+1 lj; by rewrite /= -cat_rcons.
case: c {IH} hj hend => // y c hj _.
by have := hj 1%N isT; rewrite /= cats1 ltnNge hx.
Qed.

Lemma consumed_cut n M (batches : seq (seq (seq X))) c : (0 < n)%N -> size batches = M ->
  consumed n (Some M) batches c -> cut n [::] (flatten (map (@flatten X) batches)) = c.
Proof.
move=> n0 sM [m [k [ec /andP[hm hk] hj hend]]].
have e : flatten (map (@flatten X) batches) = c ++
    (drop k (nth [::] (map (@flatten X) batches) m) ++ flatten (drop m.+1 (map (@flatten X) batches))).
  rewrite ec -!catA [X in _ = _ ++ X]catA cat_take_drop -[in LHS](cat_take_drop m (map _ _)).
  by rewrite flatten_cat (drop_nth [::] hm).
rewrite e; apply: cutE => //; case: hend => [->|[[eM] ek]]; [by left | right].
by rewrite ek drop_size drop_oversize // size_map sM eM.
Qed.
End Cut.

Section C128.
Variables (F : realFieldType) (X : finType) (p : X -> F).
Hypothesis p1 : \sum_x p x = 1.
Notation E := (iid_ex p).
Add Ring F_ring : (r_theory (Num.RealField.comRingType F)).

Lemma E_eq N G1 G2 : (forall s, size s = N -> G1 s = G2 s) -> E N G1 = E N G2.
Proof.
elim: N G1 G2 => [|N IH] G1 G2 h /=; first exact: h.
by apply: eq_bigr => x _; congr (_ * _); apply: IH => s hs; apply: h; rewrite /= hs.
Qed.
Lemma E_add N G1 G2 : E N (fun s => G1 s + G2 s) = E N G1 + E N G2.
Proof.
elim: N G1 G2 => [|N IH] G1 G2 //=; rewrite -big_split; apply: eq_bigr => x _ /=.
by rewrite IH mulrDr.
Qed.
Lemma E_scale N a G : E N (fun s => a * G s) = a * E N G.
Proof.
elim: N G => [|N IH] G //=; rewrite mulr_sumr; apply: eq_bigr => x _.
by rewrite IH mulrCA.
Qed.
Lemma E_const N a : E N (fun _ => a) = a.
Proof. by elim: N => [|N IH] //=; rewrite IH -mulr_suml p1 mul1r. Qed.

Lemma E_sum N (f : X -> F) : E N (fun s => \sum_(x <- s) f x) = N%:R * \sum_x p x * f x.
Proof.
elim: N => [|N IH] /=; first by rewrite big_nil mul0r.
transitivity (\sum_x (p x * f x + p x * (N%:R * \sum_y p y * f y))).
  apply: eq_bigr => x _; rewrite -mulrDr; congr (_ * _).
  rewrite -IH -[in RHS](E_const N (f x)) -E_add; apply: E_eq => s _.
  by rewrite big_cons.
by rewrite big_split /= -mulr_suml p1 mul1r -[N.+1]addn1 natrD mulrDl mul1r addrC.
Qed.

Section Mean.
Variables (per_rank n_nodes M B : nat).
Let n := (per_rank * n_nodes)%N.
Let N := n_draws n_nodes M B.
Hypotheses (n0 : (0 < n)%N) (M0 : (0 < M)%N) (B0 : (0 < B)%N).
Notation avg f l := ((\sum_(x <- l) f x) / (size l)%:R).

Lemma nodes0 : (0 < n_nodes)%N.
Proof. by move: n0; rewrite /n; case: (n_nodes) => //; rewrite muln0. Qed.

Lemma flat_batches (s : seq X) : size s = N ->
  flatten (map (@flatten X) (as_batches n_nodes M B s)) = s
  /\ all (fun b => flatten b != [::] :> seq X) (as_batches n_nodes M B s).
Proof.
move=> hs; rewrite /as_batches.
have hsh : sumn (nseq M (n_nodes * B)%N) = size s by rewrite sumn_nseq mulnC hs.
have hall b : b \in reshape (nseq M (n_nodes * B)%N) s -> size b = (n_nodes * B)%N.
  move=> hb; have : size b \in shape (reshape (nseq M (n_nodes * B)%N) s) by exact: map_f.
  by rewrite reshapeKl ?hsh // mem_nseq => /andP[_ /eqP].
have hf b : b \in reshape (nseq M (n_nodes * B)%N) s -> flatten (reshape (nseq n_nodes B) b) = b.
  by move=> hb; rewrite reshapeKr // sumn_nseq hall // mulnC.
split.
  rewrite -map_comp (_ : map _ _ = reshape (nseq M (n_nodes * B)%N) s) ?reshapeKr ?hsh //.
  by rewrite -[RHS]map_id; apply/eq_in_map => b hb; exact: hf.
apply/allP => q /mapP[b hb ->]; rewrite hf // -size_eq0 hall // -lt0n muln_gt0 B0.
by rewrite nodes0.
Qed.

Lemma unique_meanE f : unique_mean p per_rank n_nodes M B f = E N (fun s => avg f (cut n [::] s)).
Proof.
rewrite /unique_mean -/N; apply: E_eq => s hs.
have [fl al] := flat_batches hs.
have sb : size (as_batches n_nodes M B s) = M by rewrite size_map size_reshape size_nseq.
case e : samples_with_counts => [ranks|]; last first.
  suff: samples_with_counts F per_rank n_nodes (Some M) (as_batches n_nodes M B s) <> None by rewrite e.
  by apply: C43_defined => //; left; exists M => //; rewrite M0 sb leqnn.
have [c [hc _ _ _ hw]] := C43 e n0.
by rewrite /expect_mean hw -fl (consumed_cut n0 sb hc).
Qed.

(* C128, what holds: unbiased if the draws are never cut short *)
Theorem C128_unbiased_partial f : ((#|X| < n) || (N <= n))%N ->
  unique_mean p per_rank n_nodes M B f = \sum_x p x * f x.
Proof.
move=> hn; rewrite unique_meanE.
have N0 : (N%:R != 0 :> F) by rewrite pnatr_eq0 -lt0n /N /n_draws !muln_gt0 M0 B0 nodes0.
rewrite -[RHS](mulKf N0) -E_sum -E_scale; apply: E_eq => s hs.
rewrite mulrC; have -> : cut n [::] s = s; last by rewrite hs.
rewrite -[in LHS](cats0 s); apply: cutE => //; last by right.
move=> j hj /=; case/orP: hn => hn.
  by apply: leq_ltn_trans hn; rewrite -(card_uniqP (undup_uniq _)) max_card.
apply: leq_ltn_trans (size_undup _) _; rewrite size_take hj.
by apply: leq_trans hn; rewrite -hs.
Qed.

(* the sum over the raw samples that are used is right on average (Wald); its division by their
   number is not *)
Theorem C128_raw_sums f :
  E N (fun s => (size (cut n [::] s))%:R * (avg f (cut n [::] s) - \sum_x p x * f x)) = 0.
Proof.
set m := \sum_x _.
have wald N' seen : E N' (fun s => \sum_(x <- cut n seen s) (f x - m)) = 0.
  elim: N' seen => [|N' IH] seen /=; first by rewrite big_nil.
  transitivity (\sum_x p x * (f x - m)).
    apply: eq_bigr => x _; congr (_ * _).
    rewrite -[RHS]addr0 -[in RHS](E_const N' (f x - m)).
    case: (n <= size (undup (rcons seen x)))%N; first by rewrite addr0; apply: E_eq => s _; rewrite big_seq1.
    by rewrite -[X in _ = _ + X](IH (rcons seen x)) -E_add; apply: E_eq => s _; rewrite big_cons.
  under eq_bigr do rewrite mulrBr.
  by rewrite sumrB -mulr_suml p1 mul1r subrr.
rewrite -[RHS](wald N [::]); apply: E_eq => s hs.
have [e|e] := eqVneq (size (cut n [::] s)) 0%N.
  by rewrite e mul0r (size0nil e) big_nil.
rewrite mulrBr mulrCA divff ?pnatr_eq0 // mulr1 sumrB; congr (_ - _).
by rewrite big_const_seq count_predT iter_addr_0 -[RHS]mulr_natl.
Qed.
End Mean.

(* exact expectation for n_samples = 2, any configuration space and any number of draws *)
Definition spread (m : nat) (q : F) : F := \sum_(j < m) q ^+ j / j.+2%:R.

Lemma two_from x k m f seen : undup seen = [:: x] -> (0 < k)%N ->
  E m (fun s => (k%:R * f x + \sum_(y <- cut 2 seen s) f y) / (k + size (cut 2 seen s))%:R)
  = f x + (\sum_y p y * f y - f x) * \sum_(j < m) p x ^+ j / (k + j.+1)%:R.
Proof.
elim: m k seen => [|m IH] k seen hx k0 /=.
  by rewrite big_nil !addr0 addn0 big_ord0 mulr0 addr0 mulrC mulKf // pnatr_eq0 -lt0n.
set mu := \sum_y p y * f y in IH *.
have ux y : undup (rcons seen y) = if y == x then [:: x] else [:: x; y].
  by rewrite undup_rcons hx /= eq_sym; case: eqP => [->|].
have k1 : k.+1%:R != 0 :> F by rewrite pnatr_eq0.
transitivity (\sum_y p y * ((k%:R * f x + f y) / k.+1%:R) +
    p x * (f x + (mu - f x) * (\sum_(j < m) p x ^+ j / (k.+1 + j.+1)%:R) - (k%:R * f x + f x) / k.+1%:R)).
  rewrite (bigD1 x) //= [X in _ = X + _](bigD1 x) //= ux eqxx /= [RHS]addrAC; congr (_ + _); last first.
    apply: eq_bigr => y /negbTE yx; congr (_ * _); rewrite ux yx /=.
    by rewrite -[RHS](E_const m); apply: E_eq => s _; rewrite big_seq1 addn1.
  rewrite -mulrDr; congr (_ * _); rewrite addrC subrK.
  have hs : undup (rcons seen x) = [:: x] by rewrite ux eqxx.
  rewrite -(IH k.+1 (rcons seen x) hs isT); apply: E_eq => s _.
  rewrite big_cons addrA -addSnnS; congr ((_ + _) / _).
  by rewrite -[k.+1]addn1 natrD mulrDl mul1r.
have e1 : (k%:R * f x + f x) / k.+1%:R = f x.
  by rewrite -[X in _ + X]mul1r -mulrDl -[1](mulr1n) -natrD addn1 mulrC mulKf.
have -> : \sum_y p y * ((k%:R * f x + f y) / k.+1%:R) = f x + (mu - f x) / k.+1%:R.
  transitivity ((\sum_y (p y * (k%:R * f x) + p y * f y)) / k.+1%:R).
    by rewrite mulr_suml; apply: eq_bigr => y _; rewrite mulrA mulrDr.
  rewrite big_split /= -mulr_suml p1 mul1r -/mu -[X in _ = X + _]e1 -mulrDl.
  by rewrite addrA addrAC addrK.
rewrite e1 addrAC subrr add0r -addrA; congr (_ + _).
rewrite big_ord_recl expr0 addn1 mulrDr; congr (_ + _); first by rewrite mul1r.
rewrite mulrCA mulr_sumr; congr (_ * _); apply: eq_bigr => j _.
by rewrite mulrA -exprS addSnnS.
Qed.

Variables (per_rank n_nodes M B : nat).
Hypotheses (two : (per_rank * n_nodes = 2)%N) (M0 : (0 < M)%N) (B0 : (0 < B)%N).
Let N := n_draws n_nodes M B.

(* C128, what happens for n_samples = 2: the mean is off by the covariance of the estimator with
   an increasing function of the probability *)
Theorem C128_two f : let mu := \sum_x p x * f x in
  unique_mean p per_rank n_nodes M B f = mu + \sum_x p x * ((mu - f x) * spread N.-1 (p x)).
Proof.
move=> mu; rewrite unique_meanE ?two // -/N.
have : (0 < N)%N.
  rewrite /N /n_draws !muln_gt0 M0 B0 andbT /=.
  by case: (n_nodes) two; rewrite ?muln0.
case: (N) => // m _; rewrite -[m.+1.-1]/m [LHS]/=.
rewrite /mu -[X in _ = X + _]/mu -big_split; apply: eq_bigr => x _.
rewrite /= -mulrDr; congr (_ * _); rewrite /spread.
rewrite -(@two_from x 1 m f [:: x] erefl isT); apply: E_eq => s _.
by rewrite big_cons mul1r add1n.
Qed.

Lemma spread_le m q1 q2 : 0 <= q1 -> q1 <= q2 -> spread m q1 <= spread m q2.
Proof.
move=> h0 h; apply: ler_sum => j _; rewrite ler_pmul2r ?invr_gt0 ?ltr0n //.
by apply: ler_expn2r; rewrite ?nnegrE // (le_trans h0).
Qed.

(* rare configurations get too much weight: an estimator that grows with the probability is
   underestimated *)
Theorem C128_rare_overweighted f : (forall x, 0 <= p x) -> (forall x y, p x <= p y -> f x <= f y) ->
  unique_mean p per_rank n_nodes M B f <= \sum_x p x * f x.
Proof.
move=> p0 hf; rewrite C128_two /=; set mu := \sum_x _; set S := fun x => spread N.-1 (p x).
rewrite -[X in _ <= X]addr0 ler_add2l -(@pmulr_rle0 _ 2%:R) ?ltr0n //.
suff -> : 2%:R * (\sum_x p x * ((mu - f x) * S x))
    = - \sum_x \sum_y p x * p y * ((f x - f y) * (S x - S y)).
  rewrite oppr_le0; apply: sumr_ge0 => x _; apply: sumr_ge0 => y _.
  apply: mulr_ge0; first exact: mulr_ge0.
  case: (leP (p x) (p y)) => h.
    by apply: mulr_le0; rewrite subr_le0 ?hf //; apply: spread_le.
  by apply: mulr_ge0; rewrite subr_ge0; [apply: hf | apply: spread_le => //]; exact: ltW.
have A : \sum_x \sum_y p x * p y * ((f x - f y) * S x) = - \sum_x p x * ((mu - f x) * S x).
  rewrite -sumrN; apply: eq_bigr => x _.
  transitivity (p x * S x * \sum_y (p y * f x - p y * f y)).
    by rewrite mulr_sumr; apply: eq_bigr => y _; rewrite -mulrBr; mring (Num.RealField.comRingType F).
  by rewrite sumrB -mulr_suml p1 mul1r -/mu; mring (Num.RealField.comRingType F).
have Bq : \sum_x \sum_y p x * p y * ((f x - f y) * S y) = \sum_x p x * ((mu - f x) * S x).
  rewrite exchange_big -[RHS]opprK -A -sumrN; apply: eq_bigr => x _; rewrite -sumrN.
  by apply: eq_bigr => y _ /=; mring (Num.RealField.comRingType F).
transitivity (- (\sum_x \sum_y p x * p y * ((f x - f y) * S x)
                 - \sum_x \sum_y p x * p y * ((f x - f y) * S y))).
  by rewrite A Bq -opprD opprK mulr_natl mulr2n.
congr (- _); rewrite -sumrB; apply: eq_bigr => x _; rewrite -sumrB.
by apply: eq_bigr => y _; rewrite -mulrBr -mulrBr.
Qed.
End C128.

(* C128 fails: two configurations with probabilities 2/3 and 1/3, two unique samples out of at
   most three draws: the first gets the weight 52/81 < 2/3 on average *)
Definition p_ex (F : realFieldType) (b : bool) : F := if b then 2%:R / 3%:R else 1 / 3%:R.
Lemma p_ex1 (F : realFieldType) : \sum_x p_ex F x = 1.
Proof. rewrite big_bool /p_ex /=; numq F. Qed.

Theorem C128_weight_ex (F : realFieldType) :
  unique_mean (p_ex F) 2 1 1 3 (fun b => if b then 1 else 0) = 52%:R / 81%:R.
Proof.
rewrite (C128_two (p_ex1 F)) //; rewrite !big_bool /spread.
rewrite -[(n_draws 1 1 3).-1]/2%N !big_ord_recr !big_ord0.
rewrite -[nat_of_ord _]/0%N -[nat_of_ord (@ord_max 1)]/1%N.
cbv [p_ex]; rewrite /=.
numq F.
Qed.

Lemma weight_neq (F : realFieldType) :
  unique_mean (p_ex F) 2 1 1 3 (fun b => if b then 1 else 0)
  != \sum_x p_ex F x * (if x then 1 else 0).
Proof. rewrite C128_weight_ex big_bool /p_ex /=; numq F. Qed.
Lemma p_ex_gt0 (F : realFieldType) x : 0 < p_ex F x.
Proof. case: x; rewrite /p_ex; numq F. Qed.

Theorem C128_unbiased_refuted : exists (F : realFieldType) (X : finType) (p : X -> F) f per_rank n_nodes M B,
  [/\ \sum_x p x = 1, (forall x, 0 < p x), (0 < per_rank * n_nodes)%N && (0 < M)%N && (0 < B)%N &
      unique_mean p per_rank n_nodes M B f != \sum_x p x * f x].
Proof.
exists rat_realFieldType, bool_finType, (p_ex _), (fun b => if b then 1 else 0), 2%N, 1%N, 1%N, 3%N.
by split; [exact: p_ex1 | exact: p_ex_gt0 | by [] | exact: weight_neq].
Qed.
