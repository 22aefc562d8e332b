(* C124: the exchange sampler on a connected set of clusters reaches every rearrangement of its
   configuration, |psi|^2 is its only stationary distribution there, and its averages converge. *)
From Verif Require Import Base Choice_Model Rule_Model Rule_Props Metropolis_Inst Markov Exchange_Chain_Model.
From mathcomp Require Import fingroup perm.
Import Order.Theory Num.Theory GRing.Theory.
Local Open Scope ring_scope.

(* two sites joined by a cluster *)
Definition joined (clusters : seq (nat * nat)) (L : nat) (a b : 'I_L) : bool :=
  ((val a, val b) \in clusters) || ((val b, val a) \in clusters).

Section Chain.
Variables (F : realFieldType) (T : finType) (d : T) (clusters : seq (nat * nat)) (w : seq T -> F) (L : nat) (x0 : seq T).
Notation X := (arr L x0).
Notation P := (exch_step d clusters w (L := L) (x0 := x0)).
Notation e := (@joined clusters L).
Hypothesis Hcl : all (fun c => (c.1 < L)%N && (c.2 < L)%N) clusters.
Hypothesis Hne : clusters != [::].
Hypothesis Hw : forall z, perm_eq z x0 -> 0 < w z.

Lemma vals_inj : injective (@vals T L x0).
Proof. by move=> x y E; apply/val_inj/val_inj. Qed.
Lemma vals_perm (x : X) : perm_eq (vals x) x0. Proof. exact: (valP x). Qed.
Lemma size_vals (x : X) : size (vals x) = L. Proof. exact: size_tuple. Qed.
Lemma vals_onto z : size z = L -> perm_eq z x0 -> exists x : X, vals x = z.
Proof.
move=> Hs Hz; have Hs' : size z == L by apply/eqP.
by exists (exist (fun t : L.-tuple T => perm_eq t x0) (Tuple Hs') Hz).
Qed.
Lemma w_vals (x : X) : 0 < w (vals x). Proof. exact/Hw/vals_perm. Qed.

Lemma act_perm (x : X) (p : 'S_L) : perm_eq [tuple tnth (val x) (p i) | i < L] x0.
Proof. by apply: perm_trans (valP x); apply/tuple_permP; exists p. Qed.
Definition act (x : X) (p : 'S_L) : X :=
  exist (fun t : L.-tuple T => perm_eq t x0) [tuple tnth (val x) (p i) | i < L] (act_perm x p).
Lemma tnth_act x p i : tnth (val (act x p)) i = tnth (val x) (p i).
Proof. by rewrite tnth_mktuple. Qed.
Lemma act_ext (x y : X) : (forall i, tnth (val x) i = tnth (val y) i) -> x = y.
Proof. by move=> H; apply/val_inj/eq_from_tnth. Qed.
Lemma act1 x : act x 1%g = x.
Proof. by apply: act_ext => i; rewrite tnth_act perm1. Qed.
Lemma actM x p q : act x (q * p)%g = act (act x p) q.
Proof. by apply: act_ext => i; rewrite !tnth_act permM. Qed.
Lemma actP (x y : X) : exists p, y = act x p.
Proof.
have : perm_eq (val (val y)) (val (val x)) by apply: perm_trans (valP y) _; rewrite perm_sym (valP x).
case/tuple_permP => p Ep; exists p; apply/val_inj/val_inj; exact: Ep.
Qed.

(* the proposal made by cluster c *)
Lemma moveE (x : X) (c : 'I_(size clusters)) a b : nth (0, 0)%N clusters c = (val a, val b) ->
  (exchange_update d clusters (vals x) c).1.1 = vals (act x (tperm a b)).
Proof.
move=> Ec; have Hn := nth_exchange d clusters (vals x) c.
have Hz := @size_exchange _ d clusters (vals x) c.
move: Hn Hz; rewrite /= Ec /= size_vals => Hn Hz.
apply: (@eq_from_nth _ d); first by rewrite Hz ?size_vals ?ltn_ord.
move=> i; rewrite Hz ?ltn_ord // => Hi; rewrite Hn.
rewrite -[i]/(val (Ordinal Hi)) /vals -!tnth_nth tnth_act.
case: tpermP => [->|->|/eqP Ha /eqP Hb].
- by case: eqP => [/val_inj->|_] //; rewrite eqxx.
- by rewrite eqxx.
- by rewrite !val_eqE (negbTE Ha) (negbTE Hb).
Qed.
Lemma cluster_sites (c : 'I_(size clusters)) : exists a b : 'I_L, nth (0, 0)%N clusters c = (val a, val b).
Proof.
have /andP[Ha Hb] := allP Hcl _ (mem_nth (0, 0)%N (ltn_ord c)).
by exists (Ordinal Ha), (Ordinal Hb); rewrite /= -surjective_pairing.
Qed.
Lemma move_onto (x : X) (c : 'I_(size clusters)) : exists z : X, (exchange_update d clusters (vals x) c).1.1 = vals z.
Proof. by have [a [b Ec]] := cluster_sites c; exists (act x (tperm a b)); exact: moveE. Qed.
Lemma k_gt0 : 0 < (size clusters)%:R :> F.
Proof. by rewrite ltr0n lt0n size_eq0. Qed.
Lemma accept01 (x z : X) : 0 < accept_prob (w (vals z) / w (vals x)) /\ 0 <= 1 - accept_prob (w (vals z) / w (vals x)).
Proof.
by rewrite /accept_prob subr_ge0 le_minl lexx lt_minr ltr01 divr_gt0 ?w_vals.
Qed.

Lemma term_ge0 (x : X) y (c : 'I_(size clusters)) :
  let x' := (exchange_update d clusters (vals x) c).1.1 in
  let acc : F := accept_prob (w x' / w (vals x)) in
  0 <= (size clusters)%:R^-1 * (acc * (x' == y)%:R + (1 - acc) * (vals x == y)%:R).
Proof.
cbv zeta; have [z ->] := move_onto x c; have [H1 H2] := accept01 x z.
by rewrite mulr_ge0 ?invr_ge0 ?ler0n // addr_ge0 // mulr_ge0 ?ler0n // ltW.
Qed.

Lemma exch_stochastic : stochastic P.
Proof.
split=> [x y|x]; first by apply: sumr_ge0 => c _; exact: term_ge0.
rewrite /exch_step /exch_step_prob exchange_big.
have H1 (u : X) : \sum_(y : X) (vals u == vals y)%:R = 1 :> F.
  rewrite (bigD1 u) //= eqxx big1 ?addr0 // => y /negbTE; rewrite (inj_eq vals_inj) eq_sym => ->; by [].
rewrite (eq_bigr (fun=> (size clusters)%:R^-1)) => [|c _]; last first.
  cbv zeta; have [z ->] := move_onto x c.
  by rewrite -mulr_sumr big_split /= -!mulr_sumr !H1 !mulr1 addrCA subrr addr0 mulr1.
by rewrite sumr_const card_ord -(mulr_natl (_^-1)) divff // gt_eqF ?k_gt0.
Qed.

Lemma exch_off (x y : X) : x != y ->
  P x y = exchange_prob F d clusters (vals x) (vals y) * accept_prob (w (vals y) / w (vals x)).
Proof.
move=> Hxy; rewrite /exch_step /exch_step_prob /exchange_prob mulr_suml; apply: eq_bigr => c _; cbv zeta.
rewrite (inj_eq vals_inj) (negbTE Hxy) mulr0 addr0 -mulrA [_ * accept_prob _]mulrC.
by case: eqP => [->//|_]; rewrite !mulr0.
Qed.

Lemma exch_reversible : reversible (fun x => w (vals x)) P.
Proof.
move=> x y; case: (eqVneq x y) => [->//|Hxy]; rewrite !exch_off // 1?eq_sym //.
have -> : exchange_prob F d clusters (vals x) (vals y) = exchange_prob F d clusters (vals y) (vals x).
  by apply: C23_exchange_symmetric; rewrite ?size_vals.
rewrite mulrCA [RHS]mulrCA; congr (_ * _).
have Hx := w_vals x; have Hy := w_vals y.
by rewrite /accept_prob !minr_pmulr ?ltW // !mulr1 !(mulrC (w _) (_ / _)) !divfK ?gt_eqF // minC.
Qed.

Lemma edge_pos (x : X) a b : e a b -> 0 < P x (act x (tperm a b)).
Proof.
move=> He; have [c Ec] : exists c : 'I_(size clusters),
    (exchange_update d clusters (vals x) c).1.1 = vals (act x (tperm a b)).
  case/orP: He => /(nthP (0, 0)%N)[c Hc Ec]; exists (Ordinal Hc); first exact: moveE.
  by rewrite tpermC; exact: moveE.
rewrite /exch_step /exch_step_prob (bigD1 c) //=; apply: ltr_paddr.
  by apply: sumr_ge0 => c' _; exact: term_ge0.
move: Ec => /= ->; have [H1 H2] := accept01 x (act x (tperm a b)).
by rewrite eqxx mulr1 mulr_gt0 ?invr_gt0 ?k_gt0 // ltr_paddr // mulr_ge0 ?ler0n.
Qed.

Lemma reach_refl x : exists n, 0 < pw P n x x.
Proof. by exists 0%N; rewrite pw0 eqxx ltr01. Qed.
Lemma reach_trans x y z : (exists n, 0 < pw P n x y) -> (exists n, 0 < pw P n y z) -> exists n, 0 < pw P n x z.
Proof. by move=> [m Hm] [n Hn]; exists (m + n)%N; apply: pw_pos Hm Hn; exact: exch_stochastic. Qed.
Lemma reach_edge x a b : e a b -> exists n, 0 < pw P n x (act x (tperm a b)).
Proof. by move=> He; exists 1%N; rewrite pw1; exact: edge_pos. Qed.

Lemma reach_swap a b : connect e a b -> forall x, exists n, 0 < pw P n x (act x (tperm a b)).
Proof.
case/connectP => p; elim: p a => [|c p IH] a /=.
  by move=> _ -> x; rewrite tperm1 act1; exact: reach_refl.
case/andP => Hac Hp Eb x.
have {}IH := IH c Hp Eb.
case: (eqVneq a b) => [->|Hab]; first by rewrite tperm1 act1; exact: reach_refl.
case: (eqVneq c b) => [<-|Hcb]; first exact: reach_edge.
case: (eqVneq a c) => [->|Hne']; first exact: IH.
have -> : tperm a b = (tperm a c * (tperm c b * tperm a c))%g.
  by rewrite -{1}(tpermV a c) -/(conjg _ _) tpermJ tpermR tpermD // eq_sym.
rewrite !actM; apply: reach_trans (reach_edge _ Hac).
by apply: reach_trans (IH _); exact: reach_edge.
Qed.

Hypothesis Hconn : forall a b : 'I_L, connect e a b.
Lemma exch_irreducible : irreducible P.
Proof.
move=> x y; have [p ->] := actP x y; have [ts -> _] := prod_tpermP p.
elim: ts x => [|t ts IH] x; first by rewrite big_nil act1; exact: reach_refl.
rewrite big_cons actM; apply: reach_trans (IH x) _; exact: reach_swap.
Qed.

(* two equal entries: somewhere the chain can stay *)
Lemma exch_loop : size x0 = L -> ~~ uniq x0 -> exists z : X, 0 < P z z.
Proof.
move=> Hs /(uniqPn d)[i0 [j0 [Hij Hj Eij]]].
have Hi : (i0 < L)%N by rewrite -Hs; exact: ltn_trans Hij Hj.
rewrite Hs in Hj; pose i := Ordinal Hi; pose j := Ordinal Hj.
have [t Et] := vals_onto Hs (perm_refl x0).
have Etij : tnth (val t) i = tnth (val t) j by rewrite !(tnth_nth d) -/(vals t) Et.
have Hne' : i != j by rewrite -val_eqE /= ltn_eqF.
have [[|c p] /= Hp El] := connectP (Hconn i j); first by rewrite El eqxx in Hne'.
have {Hp El} Hic : e i c by case/andP: Hp.
case: (eqVneq i c) => [E|Hic'].
  by exists t; rewrite -{2}[t]act1 -(tperm1 i); apply: edge_pos; rewrite {2}E.
exists (act t (tperm j c)); set z := act _ _.
suff Ez : z = act z (tperm i c) by rewrite {2}Ez; exact: edge_pos.
have Ezic : tnth (val z) i = tnth (val z) c by rewrite !tnth_act tpermR tpermD // eq_sym.
apply: act_ext => k; rewrite [RHS]tnth_act; by case: tpermP => [->|->|//].
Qed.
End Chain.

Section Theorems.
Variables (F : realFieldType) (T : finType) (d : T) (clusters : seq (nat * nat)) (w : seq T -> F) (L : nat) (x0 : seq T).
Notation X := (arr L x0).
Notation P := (exch_step d clusters w (L := L) (x0 := x0)).
Hypothesis Hcl : all (fun c => (c.1 < L)%N && (c.2 < L)%N) clusters.
Hypothesis Hne : clusters != [::].
Hypothesis Hw : forall z, perm_eq z x0 -> 0 < w z.

(* every rearrangement is reached from every other one *)
Theorem C124_reaches : size x0 = L -> (forall a b : 'I_L, connect (@joined clusters L) a b) ->
  forall x y : seq T, perm_eq x x0 -> perm_eq y x0 ->
  exists n (x' y' : X), [/\ vals x' = x, vals y' = y & 0 < pw P n x' y'].
Proof.
move=> Hs Hc x y Hx Hy.
have [x' Ex] := vals_onto (etrans (perm_size Hx) Hs) Hx; have [y' Ey] := vals_onto (etrans (perm_size Hy) Hs) Hy.
have [n Hp] := exch_irreducible d Hcl Hne Hw Hc x' y'.
by exists n, x', y'.
Qed.

(* one step gives probabilities, and the only distribution it leaves alone is w / sum of w *)
Theorem C124_stationary : (forall a b : 'I_L, connect (@joined clusters L) a b) ->
  [/\ forall x y, 0 <= P x y, forall x, \sum_y P x y = 1 &
      forall mu : X -> F, \sum_x mu x = 1 ->
        ((forall y, \sum_x mu x * P x y = mu y) <-> (forall x, mu x = w (vals x) / \sum_(y : X) w (vals y)))].
Proof.
move=> Hc; have HS := exch_stochastic d Hcl Hne Hw; have HR := exch_reversible d Hcl Hw.
have Hwo := w_vals (L := L) Hw.
split; [exact: (proj1 HS) | exact: (proj2 HS) |] => mu Hmu; split.
  by move=> Hst x; apply: (stationary_unique HS Hwo HR (exch_irreducible d Hcl Hne Hw Hc)).
move=> E y; rewrite E; apply: etrans (stationary_w HS HR y); apply: eq_bigr => x _.
by rewrite E.
Qed.

(* n samples, one per sweep, after d discarded ones *)
Theorem C124_averages_partial (sweep_size : nat) (f : X -> F) :
  size x0 = L -> (forall a b : 'I_L, connect (@joined clusters L) a b) ->
  (0 < sweep_size)%N -> ~~ uniq x0 || odd sweep_size ->
  exists C : F, forall discard n (x : X), (0 < n)%N ->
    ex (exch_sweep d clusters w sweep_size) (discard + n) x
       (fun s => (avg f (drop discard s) - (\sum_(y : X) w (vals y) * f y) / \sum_(y : X) w (vals y)) ^+ 2) <= C / n%:R.
Proof.
move=> Hs Hc Hm Ho; have HS := exch_stochastic d Hcl Hne Hw; have HR := exch_reversible d Hcl Hw.
have Hwo := w_vals (L := L) Hw; have HI := exch_irreducible d Hcl Hne Hw Hc.
have HSm := pw_stochastic HS sweep_size.
have HIm : irreducible (pw P sweep_size).
  case/orP: Ho => Ho; last exact: (irreducible_pw_odd HS Hwo HR HI Ho).
  have [z Hz] := exch_loop d Hcl Hne Hw Hc Hs Ho.
  apply: irreducible_pw => // x y; apply: (eventually (k := 1) (x0 := z) HS Hwo HR HI) => //; by rewrite pw1.
have [C HC] := ergodic_mean_square f HSm Hwo (reversible_pw sweep_size HS HR) HIm.
exists C => dd n x Hn0.
by apply: (ex_drop_le dd x (G := fun s => (avg f s - wmean (fun y => w (vals y)) f) ^+ 2) HSm) => z; apply: HC.
Qed.

(* sites a and b not joined, even indirectly, and two different entries u, v: some rearrangement is
   never reached *)
Theorem C124_disconnected (a b : 'I_L) (u v : T) : size x0 = L ->
  ~~ connect (@joined clusters L) a b -> u \in x0 -> v \in x0 -> u != v ->
  exists x y : X, forall n, pw P n x y = 0.
Proof.
move=> Hs Hab /(nthP d)[p0 Hp Ep] /(nthP d)[q0 Hq Eq] Huv.
have Hxy : p0 != q0 by apply: contraNneq Huv => E; rewrite -Ep -Eq E.
rewrite Hs in Hp Hq; pose p := Ordinal Hp; pose q := Ordinal Hq.
have Hpq : p != q by rewrite -val_eqE.
have Hab' : a != b by apply: contraNneq Hab => ->; exact: connect0.
have [t Et] := vals_onto Hs (perm_refl x0).
have Tp : tnth (val t) p = u by rewrite (tnth_nth d) -/(vals t) Et.
have Tq : tnth (val t) q = v by rewrite (tnth_nth d) -/(vals t) Et.
pose r : 'S_L := (tperm b (tperm a p q) * tperm a p)%g.
have Hr : tperm a p q != a by rewrite -[X in _ != X](tpermR a p) (inj_eq perm_inj) eq_sym.
have Ra : r a = p.
  rewrite permM (_ : tperm b _ a = a) ?tpermL //; apply: tpermD => //; by rewrite eq_sym.
have Rb : r b = q by rewrite permM tpermL tpermK.
pose x := act t r; pose y := act x (tperm a b).
have Xa : tnth (val x) a = u by rewrite tnth_act Ra.
have Xb : tnth (val x) b = v by rewrite tnth_act Rb.
pose N (z : X) := (\sum_(k | connect (@joined clusters L) a k) (tnth (val z) k == u))%N.
have Hjoin c1 c2 : joined clusters c1 c2 -> connect (@joined clusters L) a c1 = connect (@joined clusters L) a c2.
  move=> H12; have H21 : joined clusters c2 c1 by rewrite /joined orbC.
  by apply/idP/idP => H; apply: connect_trans H _; exact: connect1.
have N1 (z z' : X) : P z z' != 0 -> N z' = N z.
  move=> HP; case: (eqVneq z z') => [->//|Hne'].
  have [c Hc] : exists c : 'I_(size clusters), (exchange_update d clusters (vals z) c).1.1 == vals z'.
    apply/existsP; apply: contraNT HP; rewrite negb_exists => /forallP H.
    rewrite exch_off // /exchange_prob big1 ?mul0r // => c _; by rewrite (negbTE (H c)) mulr0.
  have [c1 [c2 Ec]] := cluster_sites Hcl c.
  have Ez : z' = act z (tperm c1 c2) by apply: vals_inj; rewrite -(eqP Hc); exact: moveE.
  have H12 : joined clusters c1 c2 by rewrite /joined -Ec mem_nth.
  rewrite /N (reindex_inj (@perm_inj _ (tperm c1 c2))); apply: eq_big => k.
    by case: tpermP => [->|->|//]; rewrite (Hjoin _ _ H12).
  by rewrite Ez tnth_act tpermK.
have Nn n (z z' : X) : pw P n z z' != 0 -> N z' = N z.
  elim: n z => [|n IH] z; first by rewrite pw0; case: (eqVneq z z') => [->//|_]; rewrite eqxx.
  move=> Hpw; have [z1 Hz] : exists z1, P z z1 * pw P n z1 z' != 0.
    apply/existsP; apply: contraNT Hpw; rewrite negb_exists => /forallP H.
    by rewrite pwS big1 // => z1 _; apply/eqP; have := H z1; rewrite negbK.
  by move: Hz; rewrite mulf_eq0 negb_or => /andP[Hz1 Hz2]; rewrite (IH _ Hz2) (N1 _ _ Hz1).
have Ya : tnth (val y) a = v by rewrite tnth_act tpermL.
have Yk k : connect (@joined clusters L) a k -> k != a -> tnth (val y) k = tnth (val x) k.
  move=> Hk Ha; rewrite tnth_act tpermD // 1?eq_sym //; by apply: contraNneq Hab => <-.
exists x, y => n; apply/eqP; apply: contraT => /Nn; rewrite /N.
move: Xa Ya Yk; clearbody x y => Xa Ya Yk.
rewrite (bigD1 a) ?connect0 // [RHS](bigD1 a) ?connect0 // Xa Ya eqxx eq_sym (negbTE Huv).
rewrite (eq_bigr (fun k => (tnth (val x) k == u) : nat)) => [|k /andP[Hk Ha]]; last by rewrite Yk.
by move/eqP; rewrite -{1}[X in X == _]/(0 + _)%N eqn_add2r.
Qed.
End Theorems.

(* spins 1/2: every configuration with the same magnetisation is reached *)
Corollary C124_spins (F : realFieldType) (clusters : seq (nat * nat)) (w : seq bool -> F) (L : nat) (x y : L.-tuple bool) :
  all (fun c => (c.1 < L)%N && (c.2 < L)%N) clusters -> clusters != [::] -> (forall z, 0 < w z) ->
  (forall a b : 'I_L, connect (@joined clusters L) a b) -> count id x = count id y ->
  exists n (x' y' : arr L x), [/\ vals x' = x, vals y' = y & 0 < pw (exch_step false clusters w (L := L) (x0 := x)) n x' y'].
Proof.
move=> Hcl Hne Hw Hc Exy; apply: (C124_reaches false Hcl Hne (fun z _ => Hw z)) => //; first by rewrite size_tuple.
apply/allP => -[] _ /=; first by rewrite -!(eq_count (a1 := id) (a2 := pred1 true)) ?Exy // => -[].
have E (t : L.-tuple bool) : count (pred1 false) t = (L - count id t)%N.
  rewrite -{2}(size_tuple t) -(count_predC id t) addKn; by apply: eq_count => -[].
by rewrite !E Exy.
Qed.

(* two sites with different spins *)
Section Dimer.
Let x01 : seq bool := [:: false; true].
Notation Y := (arr 2 x01).
Notation cl := [:: (0, 1)%N].
Definition wone : seq bool -> rat := fun=> 1.
Notation P := (exch_step false cl wone (L := 2) (x0 := x01)).
Lemma pair_cases z : perm_eq z x01 -> z = [:: false; true] \/ z = [:: true; false].
Proof.
move=> H; have := perm_size H; case: z H => [|a [|b [|]]] // H _.
by case: a b H => -[]; [| right | left |]; vm_compute.
Qed.
Lemma pair_step (x y : Y) : P x y = (x != y)%:R.
Proof.
rewrite /exch_step /exch_step_prob big_ord_recl big_ord0 addr0 /= /wone divr1 /accept_prob minxx subrr mul0r addr0 invr1 !mul1r.
rewrite -(inj_eq (@vals_inj _ 2 x01)).
by case: (pair_cases (vals_perm x)) => ->; case: (pair_cases (vals_perm y)) => ->.
Qed.
Lemma pair_two (x y z : Y) : x != y -> z != x -> z = y.
Proof.
move=> Hxy Hzx; apply: vals_inj; move: Hxy Hzx; rewrite -!(inj_eq (@vals_inj _ 2 x01)).
by case: (pair_cases (vals_perm x)) => ->; case: (pair_cases (vals_perm y)) => ->; case: (pair_cases (vals_perm z)) => ->.
Qed.
Lemma pair_other (x : Y) : exists y : Y, x != y.
Proof.
have [y Ey] : exists y : Y, vals y = rev (vals x).
  by apply: vals_onto; rewrite ?size_rev ?size_vals //; case: (pair_cases (vals_perm x)) => ->.
exists y; rewrite -(inj_eq (@vals_inj _ 2 x01)) Ey; by case: (pair_cases (vals_perm x)) => ->.
Qed.
Lemma pair_returns (x y : Y) : pw P 2 x y = (x == y)%:R.
Proof.
have [u Hu] := pair_other x; rewrite (pwS P 1) (bigD1 u) // pw1 !pair_step Hu mul1r big1 => [|z Hz].
  rewrite [LHS]addr0; case: (eqVneq x y) => [<-|Hxy]; first by rewrite eq_sym Hu.
  by rewrite (pair_two Hu (z := y)) ?eqxx // eq_sym.
rewrite pair_step; case: (eqVneq x z) => [_|Hxz]; first exact: mul0r.
by move: Hz; rewrite (pair_two Hu (z := z)) ?eqxx // eq_sym.
Qed.
Lemma pair_even k (x y : Y) : pw P (k * 2) x y = (x == y)%:R.
Proof.
elim: k x => [|k IH] x; first by rewrite mul0n pw0.
rewrite mulSn (pwD P) (bigD1 x) // pair_returns eqxx mul1r IH big1 => [|z Hz]; first exact: addr0.
by rewrite pair_returns eq_sym (negbTE Hz) mul0r.
Qed.
Lemma pair_path (Q : Y -> Y -> rat) n x G : (forall u v, Q u v = (u == v)%:R) -> ex Q n x G = G (nseq n x).
Proof.
move=> HQ; elim: n x G => [//|n IH] x G /=.
rewrite (bigD1 x) //= HQ eqxx mul1r IH big1 ?addr0 // => z; rewrite HQ eq_sym => /negbTE->.
by rewrite mul0r.
Qed.

(* two different spins on two sites with equal weights and an even number of steps per sweep
   (NetKet's default is the number of sites, here 2): the samples never leave the start *)
Theorem C124_dimer_refuted : exists (x : Y) (f : Y -> rat), forall sweep_size n, ~~ odd sweep_size -> (0 < n)%N ->
  ex (exch_sweep false cl wone sweep_size) n x
     (fun s => (avg f s - (\sum_(y : Y) wone (vals y) * f y) / \sum_(y : Y) wone (vals y)) ^+ 2) = 1 / 4%:R.
Proof.
have [x Ex] : exists x : Y, vals x = [:: true; false] by apply: vals_onto.
have [x' Hne] := pair_other x.
have Hsum (G : Y -> rat) : \sum_y G y = G x + G x'.
  rewrite (bigD1 x) //= (bigD1 x') 1?eq_sym //= big1 ?addr0 // => z /andP[Hz Hz'].
  by move: Hz'; rewrite (pair_two Hne Hz) eqxx.
exists x, (fun z => (x == z)%:R) => m n Ho Hn.
have Hm : m = (m./2 * 2)%N by rewrite muln2 -[LHS]odd_double_half (negbTE Ho).
rewrite pair_path => [|u v]; last by rewrite /exch_sweep {1}Hm pair_even.
rewrite /avg size_nseq big_nseq iter_addr addr0 eqxx Hsum /wone eqxx (negbTE Hne) Hsum.
have N0 : n%:R != 0 :> rat by rewrite pnatr_eq0 -lt0n.
by rewrite divff // mulr0 mulr1 addr0; apply/eqP; vm_compute.
Qed.
End Dimer.

(* three spins on an open chain with one spin up, weights 2, 1, 1 *)
Definition w3 (z : seq bool) : rat := (nth false z 0).+1%:R.
Definition chain3 : seq (nat * nat) := [:: (0, 1); (1, 2)]%N.
Lemma chain3_connected (a b : 'I_3) : connect (@joined chain3 3) a b.
Proof.
have H (i : 'I_3) : connect (@joined chain3 3) i (inord 1) && connect (@joined chain3 3) (inord 1) i.
  case: (eqVneq i (inord 1)) => [->|Hi]; first by rewrite connect0.
  have Hj : joined chain3 i (inord 1) && joined chain3 (inord 1) i.
    rewrite /joined /= inordK //; move: Hi; rewrite -val_eqE /= inordK //.
    by case: i => -[|[|[|]]].
  by case/andP: Hj => H1 H2; rewrite !connect1.
by have /andP[Ha _] := H a; have /andP[_ Hb] := H b; exact: connect_trans Ha Hb.
Qed.
Example C124_example :
  (exists n (x y : arr 3 [:: true; false; false]), [/\ vals x = [:: true; false; false], vals y = [:: false; false; true] &
     0 < pw (exch_step false chain3 w3 (L := 3) (x0 := [:: true; false; false])) n x y]) /\
  (exists C : rat, forall discard n (x : arr 3 [:: true; false; false]), (0 < n)%N ->
    ex (exch_sweep false chain3 w3 4) (discard + n) x
       (fun s => (avg (fun y => (nth false (vals y) 2)%:R) (drop discard s) -
          (\sum_(y : arr 3 [:: true; false; false]) w3 (vals y) * (nth false (vals y) 2)%:R) /
           \sum_(y : arr 3 [:: true; false; false]) w3 (vals y)) ^+ 2) <= C / n%:R).
Proof.
have Hw z : 0 < w3 z by exact: ltr0Sn.
split; first by apply: C124_reaches => // ? ?; exact: chain3_connected.
by apply: C124_averages_partial => // ? ?; exact: chain3_connected.
Qed.

