(* C119 for driver/minSR.py: the update dp is a descent direction if Re <F, dp> > 0, where F, the covariance of the
   conjugated log-derivatives with the local energies, is the gradient of the energy (C111: twice its parts are
   the derivatives with respect to the real and imaginary parts of the parameters, twice its real part the
   derivative with respect to real parameters). *)
From Verif Require Import Base MinSR_Model MinSR_Proofs MinSR_Props MinSR_SR.
Import Num.Theory Order.TTheory.
Local Open Scope ring_scope.

Section Quadratic.
Variables (C : numFieldType) (conj : {rmorphism C -> C}) (T : eqType) (P : nat) (oks : T -> 'rV[C]_P) (eloc : T -> C).
Hypothesis conjK : involutive conj.
Hypothesis conj_ge0 : forall x, 0 <= x * conj x.
Variables (ws : seq (T * C)) (w : C).
Hypothesis Hw : forall p, p \in ws -> p.2 = w.
Hypothesis Hw0 : 0 < w.
Hypothesis Hwc : conj w = w.
Definition hdot (u v : 'cV[C]_P) : C := \sum_a conj (u a 0) * v a 0.
Let S := S_matrix conj oks ws.
Let row (p : T * C) (d : 'cV[C]_P) : C := \sum_a (oks p.1 0 a - O_bar oks ws a) * d a 0.

Lemma S_row (d : 'cV[C]_P) a : (S *m d) a 0 = w * \sum_(p <- ws) conj (oks p.1 0 a - O_bar oks ws a) * row p d.
Proof.
rewrite mxE; under eq_bigr do rewrite mxE mulr_suml; rewrite exchange_big /= mulr_sumr.
rewrite big_seq [RHS]big_seq; apply: eq_bigr => p Hp; rewrite mulrA mulr_sumr; apply: eq_bigr => b _.
by rewrite (Hw Hp) -!mulrA.
Qed.
Lemma quad_S (d : 'cV[C]_P) : hdot (S *m d) d = w * \sum_(p <- ws) row p d * conj (row p d).
Proof.
rewrite /hdot; under eq_bigr do rewrite S_row rmorphM Hwc rmorph_sum -mulrA mulr_suml; rewrite -mulr_sumr; congr (_ * _).
rewrite exchange_big /=; apply: eq_bigr => p _.
transitivity (\sum_a (oks p.1 0 a - O_bar oks ws a) * d a 0 * conj (row p d)); last by rewrite -mulr_suml.
by apply: eq_bigr => a _; rewrite rmorphM conjK mulrAC.
Qed.
Lemma quad_ge0 (d : 'cV[C]_P) : 0 <= hdot (S *m d) d.
Proof. by rewrite quad_S mulr_ge0 ?(ltW Hw0) // sumr_ge0. Qed.
Lemma quad_eq0 (d : 'cV[C]_P) : hdot (S *m d) d = 0 -> S *m d = 0.
Proof.
rewrite quad_S => /eqP; rewrite mulf_eq0 gt_eqF //= psumr_eq0 // => /allP H0.
apply/matrixP => a j; rewrite (ord1 j) S_row mxE big_seq big1 ?mulr0 // => p Hp.
by have := H0 p Hp; rewrite /= mulf_eq0 (fmorph_eq0 conj) orbb => /eqP ->; rewrite mulr0.
Qed.
Lemma descent_exact (d F : 'cV[C]_P) : S *m d = F -> F != 0 -> 0 < hdot F d.
Proof.
move=> <- HF; rewrite lt_def quad_ge0 andbT; apply: contraNneq HF => H0.
by rewrite quad_eq0.
Qed.
Lemma descent_shift (lam : C) (d F : 'cV[C]_P) : 0 < lam -> conj lam = lam -> (S + lam%:M) *m d = F -> F != 0 -> 0 < hdot F d.
Proof.
move=> Hl Hc <- HF; have Hd : d != 0 by apply: contraNneq HF => ->; rewrite mulmx0.
have -> : hdot ((S + lam%:M) *m d) d = hdot (S *m d) d + lam * sqnorm conj d.
  rewrite /hdot /sqnorm mulr_sumr -big_split; apply: eq_bigr => a _.
  have -> : ((S + lam%:M) *m d) a 0 = (S *m d) a 0 + lam * d a 0.
    by rewrite mulmxDl mul_scalar_mx; move: (S *m d) => u; rewrite !mxE.
  by rewrite rmorphD rmorphM Hc mulrDl -mulrA [conj (d a 0) * _]mulrC.
apply: ltr_paddl; first exact: quad_ge0.
rewrite mulr_gt0 // lt_def sqnorm_ge0 // andbT; apply: contraNneq Hd => H0; apply/eqP; exact: sqnorm_eq0 H0.
Qed.
End Quadratic.

(* equal weights (samples without counts): with a least-squares solver of the tangent kernel the update is a
   descent direction, unless the gradient is zero *)
Theorem C119_minsr (C : numFieldType) (conj : {rmorphism C -> C}) (sqrt : C -> C) (T : eqType) (P : nat)
    (oks : T -> 'rV[C]_P) (eloc : T -> C) (ranks : seq (rank_state C T)) (c s N : nat)
    (solver : 'M[C]_N -> 'cV[C]_N -> 'cV[C]_N) (w : C) :
  involutive conj -> (forall x, 0 <= x * conj x) ->
  (0 < s)%N -> well_shaped ranks c s -> N = (size ranks * (c * s))%N ->
  (forall p, p \in weighted_samples ranks -> p.2 = w) -> 0 < w -> sqrt w * sqrt w = w -> conj (sqrt w) = sqrt w ->
  (forall M b, adjoint conj M *m (M *m solver M b - b) = 0) ->
  let F := forces conj oks eloc (weighted_samples ranks) in
  let dp := dense_update conj sqrt (netket_jac sqrt true oks) eloc true ranks c s solver in
  F != 0 -> 0 < \sum_a conj (F a 0) * dp 0 a.
Proof.
move=> HK Hg Hs Hsh HN Hw Hw0 Hq Hc Hsol F dp HF.
have [HS _] := C46_partial oks eloc HK Hg Hs Hsh HN Hw (lt0r_neq0 Hw0) Hq Hc Hsol.
have Hwc : conj w = w by rewrite -Hq rmorphM Hc.
have := descent_exact HK Hg Hw Hw0 Hwc HS HF; congr (_ < _).
rewrite /hdot -/F -/dp; move: F dp {HF HS} => F dp; by apply: eq_bigr => a _; rewrite mxE.
Qed.
(* with a diagonal shift added to the kernel *)
Theorem C119_minsr_shift (C : numFieldType) (conj : {rmorphism C -> C}) (sqrt : C -> C) (T : eqType) (P : nat)
    (oks : T -> 'rV[C]_P) (eloc : T -> C) (ranks : seq (rank_state C T)) (c s N : nat)
    (solver : 'M[C]_N -> 'cV[C]_N -> 'cV[C]_N) (w lam : C) :
  involutive conj -> (forall x, 0 <= x * conj x) ->
  (0 < s)%N -> well_shaped ranks c s -> N = (size ranks * (c * s))%N ->
  (forall p, p \in weighted_samples ranks -> p.2 = w) -> 0 < w -> sqrt w * sqrt w = w -> conj (sqrt w) = sqrt w ->
  0 < lam -> conj lam = lam ->
  (forall (A : 'M[C]_(N, P)) b, (A *m adjoint conj A + lam%:M) *m solver (A *m adjoint conj A) b = b) ->
  let F := forces conj oks eloc (weighted_samples ranks) in
  let dp := dense_update conj sqrt (netket_jac sqrt true oks) eloc true ranks c s solver in
  F != 0 -> 0 < \sum_a conj (F a 0) * dp 0 a.
Proof.
move=> HK Hg Hs Hsh HN Hw Hw0 Hq Hc Hl Hlc Hsol F dp HF.
have HS := C46_shift_partial oks eloc HK Hs Hsh HN Hw (lt0r_neq0 Hw0) Hq Hc Hsol.
have Hwc : conj w = w by rewrite -Hq rmorphM Hc.
have := descent_shift HK Hg Hw Hw0 Hwc Hl Hlc HS HF; congr (_ < _).
rewrite /hdot -/F -/dp; move: F dp {HF HS} => F dp; by apply: eq_bigr => a _; rewrite mxE.
Qed.

(* the four samples of C46_example: force and update have the same sign *)
Example C119_minsr_example (solver : 'M[rat]_4 -> 'cV[rat]_4 -> 'cV[rat]_4) :
  (forall M b, adjoint q_conj M *m (M *m solver M b - b) = 0) ->
  let oks x := (const_mx x%:R : 'rV[rat]_1) in let eloc (x : nat) : rat := 2%:R * x%:R in
  let ranks := two_chains (4%:R^-1 : rat) in
  is_true (0 < \sum_a q_conj (forces q_conj oks eloc (weighted_samples ranks) a 0)
      * dense_update q_conj (fun _ => 2%:R^-1) (netket_jac (C := rat_numFieldType) (fun _ => 2%:R^-1) true oks) eloc true ranks 2 2 solver 0 a).
Proof.
move=> Hsol oks eloc ranks.
have Hu p : p \in weighted_samples ranks -> p.2 = 4%:R^-1 by rewrite weighted_two_chains => /mapP[x _ ->].
have Hq : 2%:R^-1 * 2%:R^-1 = 4%:R^-1 :> rat by apply/eqP; vm_compute.
have Hge (x : rat_numFieldType) : 0 <= x * q_conj x := sqr_ge0 (x : rat).
apply: (@C119_minsr rat_numFieldType q_conj (fun _ => 2%:R^-1) nat_eqType 1 oks eloc
  ranks 2 2 4 solver 4%:R^-1 (fun _ => erefl) Hge isT isT erefl Hu isT Hq erefl Hsol).
apply/eqP => /matrixP /(_ 0 0); rewrite [LHS]mxE [RHS]mxE.
have Eo (y : nat) : oks y 0 0 = y%:R :> rat by rewrite mxE.
have -> : O_bar oks (weighted_samples ranks) 0 = \sum_(p <- weighted_samples ranks) p.2 * p.1%:R.
  by apply: eq_bigr => p _; rewrite Eo.
under eq_bigr do rewrite Eo.
by rewrite /E_bar unlock => /eqP; vm_compute.
Qed.

(* Weights of MCStateUniqueSamples (1/9, 4/9, 4/9), one real parameter, either convention for the jacobian: the
   update points uphill. *)
Definition u_state : seq (rank_state rat_numFieldType nat_eqType) :=
  [:: RankState [:: [:: 0; 1; 2]]%N [:: 9%:R^-1; 4%:R / 9%:R; 4%:R / 9%:R : rat]].
Definition u_ok (scaled : bool) (x : nat) : rat := nth 0 (if scaled then [:: 20; 19; 19] else [:: - 4; 7; - 6]) x.
Definition u_en (scaled : bool) (x : nat) : rat := nth 0 (if scaled then [:: 1; 0; 0] else [:: 4; 0; - 1]) x.
Theorem C119_minsr_counts_refuted : forall scaled : bool,
  exists (ranks : seq (rank_state rat_numFieldType nat_eqType)) (sqrt : rat -> rat)
         (oks : nat -> 'rV[rat]_1) (eloc : nat -> rat),
  [/\ well_shaped ranks 1 3, \sum_(p <- weighted_samples ranks) p.2 = 1,
      forall p, p \in weighted_samples ranks -> sqrt p.2 * sqrt p.2 = p.2 &
      forall solver : 'M[rat]_3 -> 'cV[rat]_3 -> 'cV[rat]_3,
        (forall M b, adjoint q_conj M *m (M *m solver M b - b) = 0) ->
        forces q_conj oks eloc (weighted_samples ranks) 0 0
        * dense_update q_conj sqrt (netket_jac (C := rat_numFieldType) sqrt scaled oks) eloc true ranks 1 3 solver 0 0 < 0].
Proof.
move=> scaled; exists u_state, q_sqrt, (fun x => const_mx (u_ok scaled x)), (u_en scaled); split.
- by [].
- by rewrite unlock; apply/eqP; vm_compute.
- by move=> p; rewrite !inE => /or3P[]/eqP ->; apply/eqP; vm_compute.
move=> solver Hsol; set oks := fun x => _.
pose j (x : nat) (w : rat) : rat := (if scaled then q_sqrt w else 1) * u_ok scaled x.
have Hj x w : netket_jac (C := rat_numFieldType) q_sqrt scaled oks x w 0 0 = j x w.
  by rewrite /netket_jac /j /oks; case: (scaled); rewrite !mxE ?mul1r.
have := one_parameter (c := 1) (s := 3) (N := 3) q_sqrt (u_en scaled) (ranks := u_state) Hj isT isT erefl Hsol.
move: (dense_update _ _ _ _ _ _ _ _ _) => d /= H; rewrite mxE; move: {d}(d 0 0) H => x.
have Eo (y : nat) : oks y 0 0 = u_ok scaled y by rewrite mxE.
have Eb : O_bar oks (weighted_samples u_state) 0 = \sum_(p <- weighted_samples u_state) p.2 * u_ok scaled p.1.
  by apply: eq_bigr => p _; rewrite Eo.
rewrite Eb; under [X in _ -> X * _ < _]eq_bigr do rewrite Eo.
set F := \sum_(p <- _) _ * _; set A2 := \sum_(p <- _) _; set Ae := \sum_(p <- _) _.
move=> H1; have HA : 0 < A2 by rewrite /A2 /j; case: (scaled); rewrite unlock; vm_compute.
rewrite -(pmulr_rlt0 _ HA) mulrCA H1.
have HF : 0 < F by rewrite /F /E_bar; case: (scaled); rewrite unlock; vm_compute.
by rewrite pmulr_rlt0 // /Ae /j; case: (scaled); rewrite unlock; vm_compute.
Qed.

(* Real parameters and complex amplitudes (the real part of the update is taken, L226-230): four samples of equal
   weight, two parameters, log-derivatives +-(1, i), +-(1, 0), local energies +-i, +-3i: the energy gradient is
   (0, 1) but the update (0, -2). *)
Section RealParameters.
Variable C : numClosedFieldType.
Definition r_sign (x : nat) : C := if odd x then -1 else 1.
Definition r_oks (x : nat) : 'rV[C]_2 := \row_a (r_sign x * (if a == 0 then 1 else if (x < 2)%N then 'i else 0)).
Definition r_eloc (x : nat) : C := r_sign x * ((if (x < 2)%N then 1 else 3%:R) * 'i).
Definition r_state : seq (rank_state C nat_eqType) := [:: RankState [:: [:: 0; 1; 2; 3]]%N (nseq 4 4%:R^-1)].
Theorem C119_minsr_real_refuted :
  exists (ranks : seq (rank_state C nat_eqType)) (oks : nat -> 'rV[C]_2) (eloc : nat -> C),
  [/\ well_shaped ranks 1 4, (forall p, p \in weighted_samples ranks -> p.2 = 4%:R^-1) &
  forall solver : 'M[C]_4 -> 'cV[C]_4 -> 'cV[C]_4,
    (forall M b, adjoint conjC M *m (M *m solver M b - b) = 0) ->
    let dp := cast_update (@c_re C) false (dense_update conjC sqrtC (netket_jac sqrtC true oks) eloc true ranks 1 4 solver) in
    \sum_a 'Re (forces conjC oks eloc (weighted_samples ranks) a 0) * dp 0 a < 0].
Proof.
exists r_state, r_oks, r_eloc.
have Hu p : p \in weighted_samples r_state -> p.2 = 4%:R^-1 by rewrite !inE => /or4P[]/eqP ->.
split=> [//|//|solver Hsol]; cbv zeta.
have H4 : 0 < 4%:R^-1 :> C by rewrite invr_gt0 ltr0n.
have Hq : sqrtC 4%:R^-1 * sqrtC 4%:R^-1 = 4%:R^-1 :> C by rewrite -expr2 sqrtCK.
have Hr : conjC (sqrtC 4%:R^-1) = sqrtC 4%:R^-1 :> C.
  by apply/CrealP; rewrite ger0_real // sqrtC_ge0 ltW.
have [HS _] := @C46_partial C [rmorphism of @conjC C] sqrtC nat_eqType 2 r_oks r_eloc r_state 1 4 4
  solver 4%:R^-1 (@conjCK C) (@mul_conjC_ge0 C) isT isT erefl Hu (lt0r_neq0 H4) Hq Hr Hsol.
move: (dense_update _ _ _ _ _ _ _ _ _) HS => d; rewrite /=.
have Ebar a : O_bar r_oks (weighted_samples r_state) a = 0.
  rewrite /O_bar /weighted_samples /= !big_cons big_nil !mxE /r_sign /= !mul1r !mulN1r !mulrN addr0.
  by rewrite addNKr subrr.
have EE : E_bar r_eloc (weighted_samples r_state) = 0.
  rewrite /E_bar /weighted_samples /= !big_cons big_nil /r_eloc /r_sign /= !mul1r !mulN1r !mulrN addr0.
  by rewrite addNKr subrr.
pose u (a : 'I_2) : C := if a == 0 then 1 else 'i.
pose v (a : 'I_2) : C := if a == 0 then 1 else 0.
have half (y z : C) : 4%:R^-1 * y + (4%:R^-1 * y + (4%:R^-1 * z + 4%:R^-1 * z)) = 2%:R^-1 * (y + z).
  have -> : 2%:R^-1 = 4%:R^-1 * 2%:R :> C by rewrite (natrM _ 2 2) invfM -mulrA mulVf ?mulr1 // pnatr_eq0.
  by rewrite addrA -!mulrDr -!mulr2n -mulrnDl -mulrA mulr_natl.
have ES a b : S_matrix conjC r_oks (weighted_samples r_state) a b = 2%:R^-1 * (conjC (u a) * u b + conjC (v a) * v b).
  rewrite mxE !Ebar /weighted_samples /= !big_cons big_nil /= !subr0 !mxE /r_sign /=.
  by rewrite !mul1r !mulN1r !rmorphN !mulrNN addr0 half.
have EF a : forces conjC r_oks r_eloc (weighted_samples r_state) a 0 = 2%:R^-1 * (conjC (u a) * 'i + conjC (v a) * (3%:R * 'i)).
  rewrite mxE !Ebar EE /weighted_samples /= !big_cons big_nil /= !subr0 !mxE /r_eloc /r_sign /=.
  by rewrite !mul1r !mulN1r !rmorphN !mulrNN addr0 half.
move=> HS; have H0 := congr1 (fun M : 'cV_2 => M 0 0) HS; have H1 := congr1 (fun M : 'cV_2 => M (lift 0 0) 0) HS.
move: H0 H1; rewrite /= EF mxE EF [in X in _ -> X -> _]mxE !big_ord_recl !big_ord0 !ES ![d^T _ _]mxE /u /v /=.
rewrite !rmorph1 !rmorph0 !(mul1r, mulr1, mul0r, mulr0, addr0).
have Hi : 'i^* * 'i = 1 :> C by rewrite mulrC -normCK normCi expr1n.
have H2 : 2%:R^-1 != 0 :> C by rewrite invr_eq0 pnatr_eq0.
rewrite !Hi -!mulrA -!mulrDr mul1r => /(mulfI H2) E1 /(mulfI H2) E2.
have Ey : d 0 (lift ord0 ord0) = - 2%:R.
  have B : 2%:R * ('i^* * d 0 ord0) + d 0 (lift ord0 ord0) = 4%:R.
    transitivity ('i^* * ((1 + 1) * d 0 ord0 + 'i * d 0 (lift ord0 ord0))).
      by rewrite mulrDr (mulrA _ 'i) Hi mul1r -(natrD _ 1 1) (mulrCA _ 2%:R).
    rewrite E1 -{2}['i]mul1r -mulrDl mulrCA Hi mulr1; exact: esym (natrD _ 1 3).
  have -> : d 0 (lift ord0 ord0) = 2%:R * ('i^* * d 0 ord0 + d 0 (lift ord0 ord0))
      - (2%:R * ('i^* * d 0 ord0) + d 0 (lift ord0 ord0)).
    by rewrite mulrDr opprD addrACA subrr add0r mulr_natl mulr2n addrK.
  rewrite E2 B mulr1 (natrD _ 2 2) opprD addrA subrr add0r //.
have R2 : (2%:R^-1 : C) \is Num.real by rewrite rpredV realn.
have -> : 'Re (forces conjC r_oks r_eloc (weighted_samples r_state) ord0 0) = 0.
  have -> : forces conjC r_oks r_eloc (weighted_samples r_state) ord0 0 = 2%:R^-1 * (1 + 3%:R) * 'i.
    by rewrite EF /u /v /= rmorph1 !mul1r -mulrA mulrDl mul1r.
  by rewrite ReMl ?Re_i ?mulr0 // rpredM // rpredD ?rpred1 // realn.
have -> : 'Re (forces conjC r_oks r_eloc (weighted_samples r_state) (lift ord0 ord0) 0) = 2%:R^-1.
  rewrite EF /u /v /= rmorph0 mul0r addr0 Hi mulr1; exact/Creal_ReP.
rewrite mul0r add0r mxE Ey /c_re (Creal_ReP _ _) ?rpredN ?realn // mulrN mulVf ?pnatr_eq0 // oppr_lt0; exact: ltr01.
Qed.
End RealParameters.
