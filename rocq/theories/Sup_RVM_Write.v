(* GPSKet/supervised/supervised_qgps.py, fit_step_growing_RVM L1017-1066 as inherited by
   QGPSLogSpaceFit, real parameters: setup_fit (L1112-1138) subtracts the prior mean from the targets,
   the loop of L1058-1061 changes the precisions, and L1063-1064 write the weights into epsilon
   without the argument prior_mean.  C70. *)
From Coq Require Import FunctionalExtensionality.
From Verif Require Import Base Sup_Model Sup_Fit_Model Sup_Fit_Proofs Sup_Fit_Props Sup_Fit_Step Sup_RVM_Model Sup_RVM_Core.
Import Num.Theory Order.TTheory.
Local Open Scope ring_scope.

(* np.linalg.pinv of a Hermitian matrix: a generalised inverse *)
Definition pinvh_gen (R : realFieldType) (pinvh : forall m, 'M[R]_m -> 'M[R]_m) : Prop :=
  forall m (A : 'M[R]_m), A^T = A -> A *m pinvh m A *m A = A.

Section Write.
Variables (R : realFieldType) (ln : R -> R) (D M l : nat) (b : bool).
Variables (chol : forall m, 'M[R]_m -> option 'M[R]_m) (pinvh : forall m, 'M[R]_m -> 'M[R]_m).
Notation N := (M * D)%N.
Notation epsilons := {ffun 'I_D * 'I_M * 'I_l.+1 -> R}.
Notation refs := {ffun 'I_M -> 'I_l.+1}.
Notation feats := {ffun 'I_M * 'I_D -> R}.
Notation idc := [rmorphism of @idfun R].
Variables (acut kcut beta : R) (i0 : 'I_(N + b)) (eps32 : R) (iterations : nat) (alpha : 'I_(N + b) -> R) (pm : 'rV[R]_N).
Variables (data : seq (seq (feats * R * R))) (e : epsilons) (r : refs) (bias : R).

(* L1026-1032 *)
Definition g_KtK : 'M[R]_(N + b) := fit_KtK idc b pm data.
Definition g_y : 'cV[R]_(N + b) := y_of idc (fit_rows b pm data).
(* L1034-1061: the precisions, and the weights of the last setup_fit_alpha_dep *)
Definition g_alpha : 'I_(N + b) -> R := growing_alpha ln chol pinvh false acut kcut beta g_KtK g_y i0 eps32 iterations alpha.
Definition g_weights : 'cV[R]_(N + b) := weights chol pinvh false acut kcut beta g_KtK g_y g_alpha.
(* L1063-1064: update_epsilon_with_weights() with its default prior_mean = 0.0 *)
Definition growing_epsilon : epsilons := update_epsilon (fit_valid idc kcut pm data) g_weights 0 e r.
Definition growing_bias : R := update_bias g_weights bias.
End Write.

Section Solver.
Variable R : realFieldType.
Variables (chol : forall m, 'M[R]_m -> option 'M[R]_m) (pinvh : forall m, 'M[R]_m -> 'M[R]_m).
Hypotheses (Hchol : chol_ok chol) (Hpinvh : pinvh_gen pinvh).
Definition solve1 m (A : 'M[R]_m) (v : 'cV[R]_m) : 'cV[R]_m :=
  if A^T == A then
    match chol A with Some L => (invmx L)^T *m (invmx L *m v) | None => pinvh A *m v end
  else (v^T *m pinvmx A^T)^T.
Lemma solve1P : exact_solver solve1.
Proof.
move=> m A v [x Hx]; rewrite /solve1; case: eqP => [HA|_]; last first.
  apply: trmx_inj; rewrite trmx_mul trmxK mulmxKpV //.
  by apply/submxP; exists x^T; rewrite -Hx trmx_mul.
case E: (chol A) => [L|]; last by rewrite -Hx !mulmxA Hpinvh.
have [T P <-] := Hchol E.
have U : L \in unitmx.
  by rewrite unitmxE (det_trig T) unitfE; apply/prodf_neq0 => k _; rewrite gt_eqF.
by rewrite -mulmxA [L^T *m _]mulmxA -trmx_mul mulVmx // trmx1 mul1mx mulmxA mulmxV // mul1mx.
Qed.

Variables (n : nat) (acut kcut beta : R) (KtK : 'M[R]_n) (y : 'cV[R]_n).
Hypothesis KtK_sym : KtK^T = KtK.
Lemma weights_solve1 alpha : weights chol pinvh false acut kcut beta KtK y alpha =
  weights_of solve1 (active acut kcut alpha KtK) beta (KtK_alpha_of beta alpha KtK) y.
Proof.
apply/matrixP => i j; rewrite [j]ord1 !mxE; apply: eq_bigr => k _.
rewrite /wA mxE; congr (_ * _); rewrite /factor_of /act_of.
case: ifP => [/eqP H0|_]; first by case: k => k Hk; exfalso; move: Hk; rewrite /act_of H0.
rewrite /solve1 ifT; first by rewrite /Aact /KA_of /act_of /al_eff; case: (chol _).
apply/eqP/matrixP => a c; rewrite !mxE -{1}KtK_sym mxE eq_sym; case: eqP => [->|] //.
Qed.
End Solver.

Section Precisions.
Variables (R : realFieldType) (ln : R -> R) (chol : forall m, 'M[R]_m -> option 'M[R]_m) (pinvh : forall m, 'M[R]_m -> 'M[R]_m).
Variables (n : nat) (acut kcut beta : R) (KtK : 'M[R]_n) (y : 'cV[R]_n) (i0 : 'I_n) (eps32 : R).
Hypotheses (acut_ge0 : 0 <= acut) (eps_ge0 : 0 <= eps32).
Lemma growing_ge0 k alpha i : (forall j, 0 <= alpha j) ->
  0 <= growing_alpha ln chol pinvh false acut kcut beta KtK y i0 eps32 k alpha i.
Proof.
move=> H; rewrite /growing_alpha.
have {H} : forall j, 0 <= first_alpha false acut kcut beta KtK y i0 eps32 alpha j.
  move=> j; rewrite /first_alpha; case: ifP => // _; case: ifP => _; rewrite /set_alpha; case: eqP => // _.
  by case: ltrP => [/ltW|] // _; exact: ler01.
move: (first_alpha _ _ _ _ _ _ _ _ _) => a Ha; elim: k i => // k IH i /=.
rewrite /update_precisions; case: ifP => [H|_].
  by rewrite /set_alpha; case: eqP => // _; rewrite divr_ge0 ?sqr_ge0 // ltW.
by case: ifP => // _; rewrite /set_alpha; case: eqP.
Qed.
End Precisions.

Section C70.
Variables (R : realFieldType) (ln : R -> R) (D M l : nat) (b : bool).
Variables (chol : forall m, 'M[R]_m -> option 'M[R]_m) (pinvh : forall m, 'M[R]_m -> 'M[R]_m).
Hypotheses (Hchol : chol_ok chol) (Hpinvh : pinvh_gen pinvh).
Notation N := (M * D)%N.
Notation epsilons := {ffun 'I_D * 'I_M * 'I_l.+1 -> R}.
Notation refs := {ffun 'I_M -> 'I_l.+1}.
Notation feats := {ffun 'I_M * 'I_D -> R}.
Notation idc := [rmorphism of @idfun R].
Variables (acut kcut beta : R) (i0 : 'I_(N + b)) (eps32 : R) (iterations : nat) (alpha : 'I_(N + b) -> R).
Variables (pm : 'I_M -> 'I_D -> R) (data : seq (seq (feats * R * R))) (e : epsilons) (r : refs) (bias : R).
Hypotheses (acut_ge0 : 0 <= acut) (eps_ge0 : 0 <= eps32) (beta_gt0 : 0 < beta) (alpha_ge0 : forall i, 0 <= alpha i).
Hypothesis weightings_ge0 : all (all (fun x : feats * R * R => 0 <= x.1.2)) data.

(* the precisions the step ends with, for the features and for the bias *)
Definition alE w d : R := g_alpha ln chol pinvh acut kcut beta i0 eps32 iterations alpha (pm_vec pm) data (lshift b (mxvec_index w d)).
Definition alB : R := \sum_(k < b) g_alpha ln chol pinvh acut kcut beta i0 eps32 iterations alpha (pm_vec pm) data (rshift N k).
Notation new_eps := (growing_epsilon ln chol pinvh acut kcut beta i0 eps32 iterations alpha (pm_vec pm) data e r).
Notation new_bias := (growing_bias ln chol pinvh acut kcut beta i0 eps32 iterations alpha (pm_vec pm) data bias).

Lemma g_alphaE : g_alpha ln chol pinvh acut kcut beta i0 eps32 iterations alpha (pm_vec pm) data = alpha_vec alE alB.
Proof.
apply: functional_extensionality => i; rewrite /alpha_vec; case: (split_ordP i) => k ->.
  by case/mxvec_indexP: k => w d; rewrite row_mxEl mxvecE mxE.
rewrite row_mxEr mxE /alB.
set F := g_alpha _ _ _ _ _ _ _ _ _ _ _ _.
by rewrite -(sum_b1 (fun k => F (rshift N k)) 0 k) if_same addr0.
Qed.
Lemma alE_ge0 w d : 0 <= alE w d. Proof. exact: growing_ge0. Qed.
Lemma alB_ge0 : 0 <= alB. Proof. by apply: sumr_ge0 => k _; exact: growing_ge0. Qed.
Lemma g_sym : (g_KtK b (pm_vec pm) data)^T = g_KtK b (pm_vec pm) data.
Proof.
apply/matrixP => i j; rewrite !mxE; apply: eq_bigr => rk _; apply: eq_bigr => x _ /=.
by rewrite mulrCA [RHS]mulrCA [fk x 0 j * _]mulrC.
Qed.
Lemma g_weightsE : g_weights ln chol pinvh acut kcut beta i0 eps32 iterations alpha (pm_vec pm) data =
  fit_weights idc (solve1 chol pinvh) acut kcut beta (alpha_vec alE alB) (pm_vec pm) data.
Proof. by rewrite /g_weights weights_solve1 ?g_sym // g_alphaE. Qed.

Notation fitted := (eps' idc b (solve1 chol pinvh) acut kcut beta alE alB pm data e r).
(* the step differs from a fit (C53) with the precisions found by the missing prior mean *)
Theorem C70_exact d w j : new_eps (d, w, j) =
  if (j == r w) && is_valid idc kcut data w d then fitted (d, w, j) - pm w d else fitted (d, w, j).
Proof.
rewrite eps'E /growing_epsilon g_weightsE /update_epsilon /write_eps ffunE /=; case: eqP => //= ->.
rewrite mxE mxE /fit_valid /valid_kern KtK_feature -/(is_valid idc kcut data w d).
rewrite [(0 : 'rV[R]_N) 0 _]mxE.
by case: ifP => _; [rewrite addr0 addrK | rewrite subr0 addr0 /eps_refs mxvecE mxE].
Qed.

(* without a prior mean the result minimises the regularised squared error for these precisions *)
Theorem C70_partial (e2 : epsilons) (bias2 : R) : (forall w d, pm w d = 0) ->
  (forall w d, ~~ is_valid idc kcut data w d -> feature_norm idc data w d = 0) ->
  (forall w d, ~~ is_active idc acut kcut alE data w d -> e2 (d, w, r w) = new_eps (d, w, r w)) ->
  (~~ bias_active acut kcut alB data -> bias2 = new_bias) ->
  eps_loss idc b beta alE alB pm data r new_eps new_bias <= eps_loss idc b beta alE alB pm data r e2 bias2.
Proof.
move=> P0 H0.
have -> : new_eps = fitted by apply/ffunP => -[[d w] j]; rewrite C70_exact P0 subr0; case: ifP.
have -> : new_bias = bias' idc b (solve1 chol pinvh) acut kcut beta alE alB pm data bias by rewrite /growing_bias g_weightsE.
move=> H1 H2; apply: C53_minimal_partial => //.
- exact: sqr_ge0.
- exact: solve1P.
- exact: alE_ge0.
exact: alB_ge0.
Qed.
End C70.

Lemma pinvmx_gen (R : realFieldType) : pinvh_gen (fun m (A : 'M[R]_m) => pinvmx A).
Proof. by move=> m A _; exact: mulmxKpV (submx_refl A). Qed.
Lemma no_chol_ok (R : realFieldType) : chol_ok (fun m (A : 'M[R]_m) => None). Proof. by []. Qed.

(* one parameter, one data point with feature 1 and log amplitude 1 *)
Section Refuted.
Variables (R : realFieldType) (ln : R -> R) (chol : forall m, 'M[R]_m -> option 'M[R]_m) (pinvh : forall m, 'M[R]_m -> 'M[R]_m).
Hypotheses (Hchol : chol_ok chol) (Hpinvh : pinvh_gen pinvh).
Notation idc := [rmorphism of @idfun R].
Definition w_data : seq (seq ({ffun 'I_1 * 'I_1 -> R} * R * R)) := [:: [:: ([ffun => 1], 1, 1)]].
Definition w_eps (z : R) : {ffun 'I_1 * 'I_1 * 'I_1 -> R} := [ffun => z].
Definition w_refs : {ffun 'I_1 -> 'I_1} := [ffun => ord0].
Definition w_i0 : 'I_(1 * 1 + false) := lshift false (mxvec_index ord0 ord0).
Definition w_new (eps32 pm : R) k := growing_epsilon ln chol pinvh 10%:R 0 1 w_i0 eps32 k (fun=> 1) (pm_vec (fun _ _ => pm)) w_data (w_eps 1) w_refs.
Notation w_alE eps32 pm k := (alE ln chol pinvh 10%:R 0 1 w_i0 eps32 k (fun=> 1) (fun _ _ => pm) w_data).
Notation w_alB eps32 pm k := (alB ln chol pinvh 10%:R 0 1 w_i0 eps32 k (fun=> 1) (fun _ _ => pm) w_data).
Definition w_loss eps32 pm k e := eps_loss idc false 1 (w_alE eps32 pm k) (w_alB eps32 pm k) (fun _ _ => pm) w_data w_refs e 0.

Lemma w_lossE eps32 pm k e : w_loss eps32 pm k e =
  (1 - e (ord0, ord0, ord0)) ^+ 2 + w_alE eps32 pm k ord0 ord0 * (e (ord0, ord0, ord0) - pm) ^+ 2.
Proof.
rewrite /w_loss /eps_loss !(big_cons, big_nil) !big_ord_recl !big_ord0 /=.
by rewrite !(ffunE, addr0, mul1r).
Qed.
Lemma w_norm : feature_norm idc w_data ord0 ord0 = 1.
Proof. by rewrite /feature_norm !(big_cons, big_nil) /= !ffunE !(addr0, mul1r). Qed.
Lemma w_sum (p : R) : \sum_(k < 1 * 1) pm_vec (fun _ _ : 'I_1 => p) 0 k * flat_row ([ffun=> 1] : {ffun 'I_1 * 'I_1 -> R}) 0 k = p.
Proof. by rewrite sum_mxvec !big_ord_recl !big_ord0 !mxvecE !mxE !ffunE !addr0 mulr1. Qed.
Lemma w_val eps32 pm k : 0 <= eps32 -> w_alE eps32 pm k ord0 ord0 < 10%:R ->
  (1 + w_alE eps32 pm k ord0 ord0) * w_new eps32 pm k (ord0, ord0, ord0) = 1 - pm.
Proof.
move=> E0 L; rewrite /w_new C70_exact //.
have V : is_valid idc 0 w_data ord0 ord0 by rewrite /is_valid w_norm normr1 ltr01.
rewrite eps'E ffunE eqxx V /= addrK.
set a := alE _ _ _ _ _ _ _ _ _ _ _ _; set a' := alB _ _ _ _ _ _ _ _ _ _ _ _.
have A0 w d : 0 <= a w d by apply: alE_ge0 => //; rewrite ?ler0n // => i; exact: ler01.
have B0 : 0 <= a' by apply: alB_ge0 => //; rewrite ?ler0n // => i; exact: ler01.
have H : is_active idc 10%:R 0 a w_data ord0 ord0 by rewrite /is_active V L.
have Ea : a = (fun _ _ => a ord0 ord0).
  by apply: functional_extensionality => w; apply: functional_extensionality => d; rewrite [w]ord1 [d]ord1.
move: H; rewrite Ea => H.
have W0 : all (all (fun x : {ffun 'I_1 * 'I_1 -> R} * R * R => 0 <= x.1.2)) w_data by rewrite /= ler01.
have := @one_param R idc 0 (fun x => erefl) (fun x => sqr_ge0 x) (fun x _ => erefl) _ 10%:R 0 1 (a ord0 ord0) a' pm w_data (solve1P Hchol Hpinvh) ltr01 (A0 _ _) B0 W0 H.
rewrite w_norm mul1r mul1r mxE /fit_rows !(big_cons, big_nil) /= !addr0 w_sum mul1r => ->.
by rewrite /feature_row row_mxEl mxvecE mxE ffunE mul1r.
Qed.
Lemma w_val0 eps32 pm k : 0 <= eps32 -> ~~ (w_alE eps32 pm k ord0 ord0 < 10%:R) -> w_new eps32 pm k (ord0, ord0, ord0) = 0.
Proof.
move=> E0 L; rewrite /w_new C70_exact //.
have V : is_valid idc 0 w_data ord0 ord0 by rewrite /is_valid w_norm normr1 ltr01.
by rewrite eps'E ffunE eqxx V /= addrK wt_inactive // /is_active (negPf L).
Qed.
Lemma w_zero eps32 k : 0 <= eps32 -> w_new eps32 1 k (ord0, ord0, ord0) = 0.
Proof.
move=> E0; have [L|L] := boolP (w_alE eps32 1 k ord0 ord0 < 10%:R); last exact: w_val0.
have /eqP := w_val E0 L; rewrite subrr mulf_eq0 gt_eqF ?ltr_paddr ?ltr01 //=; first by move/eqP.
by apply: alE_ge0 => //; rewrite ?ler0n // => i; exact: ler01.
Qed.

(* the claim with a prior mean: the values written are not optimal, whatever the number of iterations *)
Theorem C70_refuted : exists (pm : R) (data : seq (seq ({ffun 'I_1 * 'I_1 -> R} * R * R))) (e e2 : {ffun 'I_1 * 'I_1 * 'I_1 -> R}) (r : {ffun 'I_1 -> 'I_1}) (i0 : 'I_(1 * 1 + false)),
  forall eps32 k, 0 <= eps32 ->
  let alE := alE ln chol pinvh 10%:R 0 1 i0 eps32 k (fun=> 1) (fun _ _ => pm) data in
  let alB := alB ln chol pinvh 10%:R 0 1 i0 eps32 k (fun=> 1) (fun _ _ => pm) data in
  eps_loss idc false 1 alE alB (fun _ _ => pm) data r e2 0 <
  eps_loss idc false 1 alE alB (fun _ _ => pm) data r
    (growing_epsilon ln chol pinvh 10%:R 0 1 i0 eps32 k (fun=> 1) (pm_vec (fun _ _ => pm)) data e r) 0.
Proof.
exists 1, w_data, (w_eps 1), (w_eps 1), w_refs, w_i0 => eps32 k E0 /=.
rewrite -/(w_loss eps32 1 k _) -/(w_loss eps32 1 k _) !w_lossE ffunE -/(w_new _ _ _) w_zero //.
rewrite subrr expr0n /= mulr0 addr0 subr0 sub0r sqrrN expr1n mulr1 ltr_paddr ?ltr01 //.
by apply: alE_ge0 => //; rewrite ?ler0n // => i; exact: ler01.
Qed.
End Refuted.

(* prior mean 0, no iterations: weight 1/2, as in a fit *)
Example C70_ex (R : realFieldType) ln : w_new ln (fun m (A : 'M[R]_m) => None) (fun m A => pinvmx A) 0 0 0 (ord0, ord0, ord0) = 2%:R^-1.
Proof.
have A : alE ln (fun m (A : 'M[R]_m) => None) (fun m A => pinvmx A) 10%:R 0 1 w_i0 0 0 (fun=> 1) (fun _ _ => 0) (w_data R) ord0 ord0 = 1.
  rewrite /alE /g_alpha /growing_alpha /= /first_alpha ifT //; apply/existsP; exists w_i0.
  have K : g_KtK false (pm_vec (fun _ _ => 0)) (w_data R) w_i0 w_i0 = 1 by rewrite -w_norm; exact: KtK_feature.
  by rewrite /act_of /active /valid_kern K normr1 ltr01 (ltr_nat _ 1 10).
have := w_val (@no_chol_ok R) (@pinvmx_gen R) (ln := ln) (pm := 0) (k := 0%N) (lexx 0).
rewrite A (ltr_nat _ 1 10) subr0 => /(_ isT) H.
by apply: (mulfI (_ : 1 + 1 != 0 :> R)); rewrite ?(pnatr_eq0 _ 2) // H mulfV // (pnatr_eq0 _ 2).
Qed.
