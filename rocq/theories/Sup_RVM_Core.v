(* The quantities of the relevance vector machine in terms of the covariance of the data. *)
From Verif Require Import Base Fld Sup_Model Sup_Fit_Model Sup_Ev_Alg Sup_RVM_Model.
Import Num.Theory Order.TTheory.
Local Open Scope ring_scope.

(* what is assumed of scipy's factorisations *)
Definition chol_ok (R : realFieldType) (chol : forall m, 'M[R]_m -> option 'M[R]_m) : Prop :=
  forall m (A L : 'M[R]_m), chol m A = Some L -> [/\ is_trig_mx L, forall k, 0 < L k k & L *m L^T = A].
Definition pinvh_ok (R : realFieldType) (pinvh : forall m, 'M[R]_m -> 'M[R]_m) : Prop :=
  forall m (A : 'M[R]_m), A^T = A -> A \in unitmx -> pinvh m A = invmx A.

Section Field.
Variable F : fieldType.
Add Field FC : (f_theory F).
Lemma loo_S (a s : F) : a != 0 -> a + s != 0 -> s - s * s / (a + s) = a * s / (a + s).
Proof. by move=> /eqP H /eqP H2; mfield F. Qed.
Lemma loo_Q (a s q : F) : a != 0 -> a + s != 0 -> q - s * q / (a + s) = a * q / (a + s).
Proof. by move=> /eqP H /eqP H2; mfield F. Qed.
Lemma loo_inv (a s v : F) : a != 0 -> a + s != 0 -> a * (a * v / (a + s)) / (a - a * s / (a + s)) = v.
Proof.
move=> H H2; have -> : a - a * s / (a + s) = a * a / (a + s) by move/eqP: H2 => H2; mfield F.
by move/eqP: H => H; move/eqP: H2 => H2; mfield F.
Qed.
Lemma loo_d (a s : F) : a != 0 -> a + s != 0 -> a^-1 - a ^- 2 * (a * s / (a + s)) = (a + s)^-1.
Proof. by rewrite expr2 => /eqP H /eqP H2; mfield F. Qed.
End Field.

Section Scale.
Variable R : realFieldType.
Lemma scale3 n m k (c b : R) (M : 'M[R]_(n, m)) (B : 'M[R]_m) (W : 'M[R]_(m, k)) : c != 0 ->
  ((c * b) *: M) *m (c^-1 *: B) *m ((c * b) *: W) = (c * b ^+ 2) *: (M *m B *m W).
Proof.
move=> c0; rewrite -!scalemxAr -!scalemxAl !scalerA; congr (_ *: _).
by rewrite expr2 mulrA [c * b * c^-1]mulrAC divff // mul1r mulrCA mulrA.
Qed.
Lemma split_c (c b b2 u v : R) : c != 0 -> (c * b * u - c * b2 * v) / c = b * u - b2 * v.
Proof. by move=> c0; rewrite -!mulrA -mulrBr mulrC mulKf // mulrA. Qed.
Lemma subZE n m (a b : R) (A B : 'M[R]_(n, m)) i j : (a *: A - b *: B) i j = a * A i j - b * B i j.
Proof. by rewrite !mxE. Qed.
End Scale.

Section Core.
Variables (R : realFieldType) (ln : R -> R).
Variables (chol : forall m, 'M[R]_m -> option 'M[R]_m) (pinvh : forall m, 'M[R]_m -> 'M[R]_m).
Hypotheses (Hchol : chol_ok chol) (Hpinvh : pinvh_ok pinvh).
Variables (N n : nat) (p : 'I_N -> R) (Phi : 'M[R]_(N, n)) (t : 'cV[R]_N).
Hypothesis p_gt0 : forall i, 0 < p i.
Variables (expand : bool) (acut kcut beta : R) (KtK : 'M[R]_n) (y : 'cV[R]_n).
Definition cfac : R := if expand then 2%:R else 1.
Notation c := cfac.
Hypothesis HG : (c * beta) *: KtK = gram p Phi.
Hypothesis Hy : (c * beta) *: y = gvec p Phi t.
Hypothesis b_gt0 : 0 < beta.
Implicit Type alpha : 'I_n -> R.
Notation act alpha := (act_of acut kcut KtK alpha).
Notation Aact alpha := (Aact expand acut kcut beta KtK alpha).
Notation fac alpha := (factor_of chol pinvh expand acut kcut beta KtK alpha).
Notation colsA alpha := (colsA acut kcut KtK alpha).
Notation Cv := (Cov p Phi).

Lemma c_gt0 : 0 < c. Proof. by rewrite /cfac; case: expand; rewrite ?ltr0n ?ltr01. Qed.
Lemma c_neq0 : c != 0. Proof. by rewrite gt_eqF ?c_gt0. Qed.
Lemma al_effE alpha i : c * al_eff expand alpha i = alpha i.
Proof. by rewrite /cfac /al_eff; case: expand; rewrite ?mul1r // mulrC divfK // pnatr_eq0. Qed.

Section Alpha.
Variable alpha : 'I_n -> R.
Hypothesis a_gt0 : forall i, act alpha i -> 0 < alpha i.

Lemma GA_Aact : GA p Phi (act alpha) alpha = c *: Aact alpha.
Proof.
apply/matrixP => k l; rewrite [LHS]mxE -HG ![in RHS]mxE [in LHS]mxE mulrDr mulrA; congr (_ + _).
by rewrite (inj_eq enum_val_inj) -[alpha _]al_effE; case: eqP => // _; rewrite mulr0.
Qed.
Lemma Aact_unit : Aact alpha \in unitmx.
Proof.
have := GA_unit Phi p_gt0 a_gt0; rewrite GA_Aact unitmxZ // unitfE; exact: c_neq0.
Qed.
Lemma gram_sym : (gram p Phi)^T = gram p Phi.
Proof. by rewrite /gram !trmx_mul trmxK tr_diag_mx mulmxA. Qed.
Lemma KtK_sym : KtK^T = KtK.
Proof.
have cb : c * beta != 0 by rewrite mulf_neq0 ?c_neq0 // gt_eqF.
by have := gram_sym; rewrite -HG linearZ /= => /(scalerI cb).
Qed.
Lemma Aact_sym : (Aact alpha)^T = Aact alpha.
Proof.
apply/matrixP => k l; rewrite !mxE eq_sym -{1}KtK_sym mxE; congr (_ + _).
by case: eqP => // ->.
Qed.
Definition Smat m (f : factor R m) : 'M[R]_m := match f with SinvL X => X^T *m X | Sinv X => X end.
Lemma SmatE : Smat (fac alpha) = invmx (Aact alpha).
Proof.
rewrite /factor_of; case: ifP => [/eqP H|_].
  by rewrite /=; apply/matrixP => k; have := ltn_ord k; rewrite {2}H.
case E: (chol _) => [L|] /=; last by rewrite Hpinvh ?Aact_sym ?Aact_unit.
have [_ _ HL] := Hchol E.
have UL : L \in unitmx by have := Aact_unit; rewrite -HL unitmx_mul => /andP[].
rewrite -[LHS](mulmxK Aact_unit) -{1}HL mulmxA -[X in X *m _ = _]mulmxA.
by rewrite -[X in X *m _ = _]mulmxA mulKmx // -trmx_mul mulmxV // trmx1 mul1mx.
Qed.
Lemma inv_GA : invmx (GA p Phi (act alpha) alpha) = c^-1 *: invmx (Aact alpha).
Proof. by rewrite GA_Aact invmxZ // unitmxZ ?unitfE ?c_neq0 // Aact_unit. Qed.
Lemma gA_cols : gA p Phi (act alpha) = (c * beta) *: colsA alpha.
Proof. by apply/matrixP => i k; rewrite [LHS]mxE -HG !mxE. Qed.
Lemma zA_sub : zA p Phi (act alpha) t = (c * beta) *: sub_vec (act alpha) y.
Proof. by apply/matrixP => i k; rewrite [LHS]mxE -Hy !mxE. Qed.

Let C := Cv (act alpha) alpha.
Lemma S_ofE i : S_of chol pinvh expand acut kcut beta KtK alpha i = bilf (invmx C) (col i Phi) (col i Phi) / c.
Proof.
have -> : S_of chol pinvh expand acut kcut beta KtK alpha i =
    beta * KtK i i - beta ^+ 2 * (colsA alpha *m Smat (fac alpha) *m (colsA alpha)^T) i i.
  rewrite /S_of; case: (fac alpha) => X /=; congr (_ - _ * _); last first.
    by rewrite [RHS]mxE; apply: eq_bigr => k _; rewrite [(colsA alpha)^T _ _]mxE.
  rewrite mulmxA -[RHS]/((colsA alpha *m X^T *m X *m (colsA alpha)^T) i i).
  have -> : colsA alpha *m X^T *m X *m (colsA alpha)^T = (colsA alpha *m X^T) *m (colsA alpha *m X^T)^T.
    by rewrite trmx_mul trmxK !mulmxA.
  by rewrite [RHS]mxE; apply: eq_bigr => k _; rewrite [(_ *m _)^T _ _]mxE real_normK ?num_real // expr2.
rewrite SmatE (bil_phi Phi p_gt0 a_gt0) inv_GA gA_cols -HG [((_ * _) *: colsA _)^T]linearZ /=.
by rewrite scale3 ?c_neq0 // subZE split_c ?c_neq0.
Qed.
Lemma Q_ofE i : Q_of chol pinvh expand acut kcut beta KtK y alpha i = bilf (invmx C) (col i Phi) t / c.
Proof.
have -> : Q_of chol pinvh expand acut kcut beta KtK y alpha i =
    beta * y i 0 - beta ^+ 2 * (colsA alpha *m Smat (fac alpha) *m sub_vec (act alpha) y) i 0.
  by rewrite /Q_of; case: (fac alpha) => X //=; rewrite !mulmxA.
rewrite SmatE (bil_t Phi p_gt0 t a_gt0) inv_GA gA_cols zA_sub -Hy.
by rewrite scale3 ?c_neq0 // subZE split_c ?c_neq0.
Qed.

(* leave-one-out quantities *)
Definition Cloo i := Cv (predD1 (act alpha) i) alpha.
Definition sl i := quadf (invmx (Cloo i)) (col i Phi).
Definition ql i := bilf (invmx (Cloo i)) (col i Phi) t.
Lemma a_gt0' i j : predD1 (act alpha) i j -> 0 < alpha j.
Proof. by case/andP => _ /a_gt0. Qed.
Lemma sl_ge0 i : 0 <= sl i.
Proof. by apply: Cov_inv_ge0 => // j /a_gt0'. Qed.
Lemma sl_gt0 i : col i Phi != 0 -> 0 < sl i.
Proof. by apply: Cov_inv_gt0 => // j /a_gt0'. Qed.
Lemma as_gt0 i a : 0 < a -> 0 < a + sl i.
Proof. by move=> Ha; rewrite ltr_paddr ?sl_ge0. Qed.
Lemma loo_act i : act alpha i -> C = Cloo i + (alpha i)^-1 *: (col i Phi *m (col i Phi)^T).
Proof. exact: Cov_add. Qed.
Lemma loo_inact i : ~~ act alpha i -> C = Cloo i.
Proof.
move=> H; apply: eq_Cov => // j; rewrite /=; case: eqP => //= ->; exact: negbTE.
Qed.
Lemma Cloo_unit i : Cloo i \in unitmx.
Proof. by apply: Cov_unit => // j /a_gt0'. Qed.
Lemma Sc_act i : act alpha i -> c * S_of chol pinvh expand acut kcut beta KtK alpha i = alpha i * sl i / (alpha i + sl i).
Proof.
move=> Hi; have Ha := a_gt0 Hi; have Has := as_gt0 i Ha.
rewrite S_ofE mulrC divfK ?c_neq0 // (loo_act Hi) rank1_bil ?Cloo_unit ?gt_eqF //.
by rewrite -loo_S // gt_eqF.
Qed.
Lemma Qc_act i : act alpha i -> c * Q_of chol pinvh expand acut kcut beta KtK y alpha i = alpha i * ql i / (alpha i + sl i).
Proof.
move=> Hi; have Ha := a_gt0 Hi; have Has := as_gt0 i Ha.
rewrite Q_ofE mulrC divfK ?c_neq0 // (loo_act Hi) rank1_bil ?Cloo_unit ?gt_eqF //.
by rewrite -loo_Q // gt_eqF.
Qed.
Lemma Sc_inact i : ~~ act alpha i -> c * S_of chol pinvh expand acut kcut beta KtK alpha i = sl i.
Proof. by move=> Hi; rewrite S_ofE mulrC divfK ?c_neq0 // (loo_inact Hi). Qed.
Lemma Qc_inact i : ~~ act alpha i -> c * Q_of chol pinvh expand acut kcut beta KtK y alpha i = ql i.
Proof. by move=> Hi; rewrite Q_ofE mulrC divfK ?c_neq0 // (loo_inact Hi). Qed.
Lemma correctedE V v i : act alpha i -> c * V = alpha i * v / (alpha i + sl i) ->
  c * (alpha i * V / (alpha i - c * S_of chol pinvh expand acut kcut beta KtK alpha i)) = v.
Proof.
move=> Hi HV; have Ha := a_gt0 Hi; have Has := as_gt0 i Ha.
by rewrite mulrA [c * _]mulrCA HV Sc_act // loo_inv // gt_eqF.
Qed.
Lemma c_S i : (if expand then alpha i - 2%:R * S_of chol pinvh expand acut kcut beta KtK alpha i
     else alpha i - S_of chol pinvh expand acut kcut beta KtK alpha i)
   = alpha i - c * S_of chol pinvh expand acut kcut beta KtK alpha i.
Proof. by rewrite /cfac; case: expand; rewrite ?mul1r. Qed.
Lemma s_loo i : c * s_of chol pinvh expand acut kcut beta KtK alpha i = sl i.
Proof.
rewrite /s_of /corrected; case: ifP => [Hi|/negbT Hi]; last exact: Sc_inact.
have := correctedE Hi (Sc_act Hi); rewrite -c_S; by case: expand.
Qed.
Lemma q_loo i : c * corrected chol pinvh expand acut kcut beta KtK alpha (Q_of chol pinvh expand acut kcut beta KtK y alpha) i = ql i.
Proof.
rewrite /corrected; case: ifP => [Hi|/negbT Hi]; last exact: Qc_inact.
have := correctedE Hi (Qc_act Hi); rewrite -c_S; by case: expand.
Qed.
(* weights and posterior covariance *)
Lemma wA_GA : wA chol pinvh expand acut kcut beta KtK y alpha = invmx (GA p Phi (act alpha) alpha) *m zA p Phi (act alpha) t.
Proof.
have -> : wA chol pinvh expand acut kcut beta KtK y alpha = beta *: (Smat (fac alpha) *m sub_vec (act alpha) y).
  by rewrite /wA; case: (fac alpha) => X /=; rewrite ?mulmxA.
rewrite SmatE inv_GA zA_sub -scalemxAr -scalemxAl scalerA; congr (_ *: _).
by rewrite mulrAC divff ?c_neq0 // mul1r.
Qed.
Lemma weightsE i : weights chol pinvh expand acut kcut beta KtK y alpha i 0 =
  if act alpha i then ql i / (alpha i + sl i) else 0.
Proof.
rewrite /weights mxE; case: ifP => Hi; last first.
  by rewrite big_pred0 // => k; apply/negbTE/eqP => E; move: (enum_valP k); rewrite E -[_ \in _]/(act alpha i) Hi.
have Ha := a_gt0 Hi; have Has := as_gt0 i Ha.
rewrite (big_pred1 (enum_rank_in Hi i)) => [|k]; last first.
  have E : enum_val (enum_rank_in Hi i) = i by rewrite enum_rankK_in.
  by rewrite -[X in _ == X]E (inj_eq enum_val_inj).
rewrite wA_GA (GA_inv_zE Phi p_gt0 t a_gt0) enum_rankK_in // -/C (loo_act Hi) rank1_bil ?Cloo_unit ?gt_eqF //.
rewrite -/(sl i) -/(ql i) loo_Q ?gt_eqF // mulrA mulrA mulVf ?gt_eqF // mul1r //.
Qed.
Lemma diag_SinvE k : @diag_Sinv _ chol pinvh _ expand acut kcut beta KtK alpha k = c / (alpha (enum_val k) + sl (enum_val k)).
Proof.
have Hi : act alpha (enum_val k) by apply: (enum_valP k).
have Ha := a_gt0 Hi; have Has := as_gt0 (enum_val k) Ha.
have -> : @diag_Sinv _ chol pinvh _ expand acut kcut beta KtK alpha k = (Smat (fac alpha)) k k.
  rewrite /diag_Sinv; case: (fac alpha) => X //=; rewrite mxE; apply: eq_bigr => l _.
  by rewrite [X^T _ _]mxE real_normK ?num_real // expr2.
have -> : Smat (fac alpha) = c *: invmx (GA p Phi (act alpha) alpha).
  by rewrite SmatE inv_GA scalerA divff ?c_neq0 // scale1r.
rewrite [LHS]mxE (GA_inv_diag Phi p_gt0 a_gt0) -/C (loo_act Hi); congr (_ * _).
rewrite -[quadf _ _]/(bilf _ _ _) rank1_bil ?Cloo_unit ?gt_eqF // -/(quadf _ _) -/(sl _) loo_S ?gt_eqF //.
by apply: loo_d; rewrite gt_eqF.
Qed.
End Alpha.
End Core.
