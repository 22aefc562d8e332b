(* C86: log_marg_lik_noise_der of QGPSLogSpaceFit against the derivative of log_marg_lik. *)
From Coq Require Import Reals Lra.
From Verif Require Import Base Fld Numq Rstruct Calc Sup_Model Sup_Fit_Model Sup_Ev_Alg Sup_RVM_Model Sup_RVM_Core Sup_RVM_Ev Sup_RVM_Marg Sup_RVM_Step Sup_RVM_Props Sup_RVM_Der Sup_RVM_Noise_Model.
Import Num.Theory Order.TTheory.
Local Open Scope ring_scope.

Section Field.
Variable F : fieldType.
Add Field FN : (f_theory F).
Lemma c86_field (v g N s h : F) : v != 0 -> - v ^+ 2 * ((- g * v + N * v - s) * h) / v ^+ 4 = (- N / v - - (g / v) - - s / v ^+ 2) * h.
Proof. by rewrite !exprS expr0 => /eqP H; mfield F. Qed.
Lemma c86_p (v : F) : v != 0 -> - (1 / v ^+ 2) / (1 / v) = - 1 / v.
Proof.
by rewrite expr2 [1 / v]div1r invrK => /eqP H; mfield F.
Qed.
End Field.

Section Aux.
Variables (chol : forall m, 'M[RR]_m -> option 'M[RR]_m) (pinvh : forall m, 'M[RR]_m -> 'M[RR]_m).
Hypotheses (Hchol : chol_ok chol) (Hpinvh : pinvh_ok pinvh).
Variables (N n : nat) (p : 'I_N -> RR) (Phi : 'M[RR]_(N, n)) (t : 'cV[RR]_N).
Hypothesis p_gt0 : forall i, 0 < p i.
Variables (expand : bool) (acut kcut beta : RR) (KtK : 'M[RR]_n) (y : 'cV[RR]_n).
Notation c := (cfac RR expand).
Hypothesis HG : (c * beta) *: KtK = gram p Phi.
Hypothesis b_gt0 : 0 < beta.
Variable alpha : 'I_n -> RR.
Notation act := (act_of acut kcut KtK alpha).
Hypothesis a_gt0 : forall i, act i -> 0 < alpha i.
Notation G := (GA p Phi act alpha).

(* K[:, active].dot(weights[active]) is K.dot(weights) *)
Lemma PA_weights : PA_of Phi act *m wA chol pinvh expand acut kcut beta KtK y alpha = Phi *m weights chol pinvh expand acut kcut beta KtK y alpha.
Proof.
apply/matrixP => i j; rewrite [j]ord1 !mxE.
transitivity (\sum_k \sum_(l < #|act| | enum_val l == k) Phi i (enum_val l) * wA chol pinvh expand acut kcut beta KtK y alpha l 0).
  rewrite (exchange_big_dep predT) //=; apply: eq_bigr => l _; by rewrite (big_pred1 (enum_val l)) ?mxE // => k; rewrite eq_sym.
by apply: eq_bigr => k _; rewrite mxE mulr_sumr; apply: eq_bigr => l /eqP ->.
Qed.
Lemma diag_GA k : @diag_Sinv _ chol pinvh _ expand acut kcut beta KtK alpha k = c * invmx G k k.
Proof.
have -> : @diag_Sinv _ chol pinvh _ expand acut kcut beta KtK alpha k = (Smat (factor_of chol pinvh expand acut kcut beta KtK alpha)) k k.
  rewrite /diag_Sinv; case: (factor_of _ _ _ _ _ _ _ _) => X //=; rewrite mxE; apply: eq_bigr => l _.
  by rewrite [X^T _ _]mxE real_normK ?num_real // expr2.
have -> : Smat (factor_of chol pinvh expand acut kcut beta KtK alpha) = c *: invmx G.
  by rewrite (SmatE Hchol Hpinvh p_gt0 HG b_gt0) // (inv_GA p_gt0 HG a_gt0) scalerA divff ?c_neq0 // scale1r.
by rewrite mxE.
Qed.
Lemma gammaE k : gamma chol pinvh expand beta k = 1 - alpha (enum_val k) * invmx G k k.
Proof.
rewrite /gamma diag_GA /cfac; case: expand; last by rewrite mul1r.
by rewrite [2%:R * _]mulrC -mulrA [2%:R * _]mulrC mul1r mulVf ?mulr1 // pnatr_eq0.
Qed.
Lemma trace_gamma : \tr (invmx G *m ((PA_of Phi act)^T *m diag_mx (\row_i p i) *m PA_of Phi act)) =
  \sum_(k < #|act|) gamma chol pinvh expand beta k.
Proof.
have -> : (PA_of Phi act)^T *m diag_mx (\row_i p i) *m PA_of Phi act = G - diag_mx (\row_k alpha (enum_val k)).
  by rewrite -(PAE p Phi act alpha) addrK.
rewrite mulmxBr mulVmx ?GA_unit // /mxtrace; apply: eq_bigr => k _.
by rewrite addE oppE mul_mx_diag mxE eqxx [X in _ - X]mxE [(\row__ _) _ _]mxE gammaE mulrC.
Qed.
End Aux.

Section LogDer.
Variables (chol : forall m, 'M[RR]_m -> option 'M[RR]_m) (pinvh : forall m, 'M[RR]_m -> 'M[RR]_m).
Hypotheses (Hchol : chol_ok chol) (Hpinvh : pinvh_ok pinvh).
Variables (n : nat) (acut kcut : RR) (ranks : seq (seq (frow RR n))) (alpha : 'I_n -> RR).
Notation dat := (flatten ranks).
Notation KtK := (KtK_of idm ranks).
Notation y := (y_of idm ranks).
Hypotheses (Hs : all (fun r => fs r == 1) dat) (Ha : forall i, act_of acut kcut KtK alpha i -> 0 < alpha i).
Notation lik v := (log_log_marg_lik rln PI chol pinvh acut kcut false v (1 / v) ranks alpha).
(* the data with the predictions of the fitted weights *)
Definition with_pred (noise : RR) : seq (seq (frow RR n * RR)) :=
  let w := weights chol pinvh false acut kcut (1 / noise) KtK y alpha in
  [seq [seq (r, linear_pred w r) | r <- rk] | rk <- ranks].
Lemma fst_pred noise : [seq [seq x.1 | x <- rk] | rk <- with_pred noise] = ranks.
Proof.
rewrite /with_pred -map_comp -[RHS]map_id; apply: eq_map => rk /=; rewrite -map_comp -[RHS]map_id; exact: eq_map.
Qed.

Theorem C86_partial noise : 0 < noise ->
  der (fun v => lik v) noise (log_noise_der chol pinvh acut kcut noise (with_pred noise) alpha / noise ^+ 4).
Proof.
move=> n0; have nn : noise != 0 by rewrite gt_eqF.
have Hs1 (i : 'I_(size dat)) : fs (row_of i) = 1 by apply/eqP; apply: (all_row Hs).
pose p a (i : 'I_(size dat)) : RR := @prec _ (1 / a) dat i.
have pE a i : p a i = 1 / a by rewrite /p /prec Hs1 mulr1.
have p_gt0 a i : 0 < a -> a < noise + 1 -> 0 < p a i by move=> a0 _; rewrite pE div1r invr_gt0.
have p_der i : der (fun a => p a i) noise (- (1 / noise ^+ 2)).
  apply: der_ext (der_eq (der_inv nn (der_id noise)) _) => [a|]; first by rewrite pE div1r.
  by rewrite mulNr.
have hi : noise < noise + 1 by rewrite ltr_addl ltr01.
have := @ev_noise_der _ _ (design dat) (targets dat) _ _ Ha p _ noise 0 (noise + 1) n0 hi p_gt0 p_der.
move=> H; apply: der_near (n0) (hi) _ (der_eq H _) => [a a0 _|].
  by rewrite (C82_log Hchol Hpinvh) // div1r.
have px i : 0 < p noise i by apply: p_gt0.
have HG : (cfac RR false * (1 / noise)) *: KtK = gram (p noise) (design dat) by rewrite mul1r; apply: design_gram.
have Hy : (cfac RR false * (1 / noise)) *: y = gvec (p noise) (design dat) (targets dat) by rewrite mul1r; apply: design_gvec.
have b0 : 0 < 1 / noise by rewrite div1r invr_gt0.
rewrite /log_noise_der fst_pred c86_field // [X in _ = _ * X]div1r; congr (_ * _); congr (_ - _ - _).
- under eq_bigr do rewrite pE c86_p //.
  rewrite sumr_const card_ord -mulr_natl mulrA mulrN mulr1; congr (- _ / _).
  by rewrite /with_pred big_map; under [RHS]eq_bigr do rewrite size_map; rewrite size_flatten sumnE big_map natr_sum.
- have -> : diag_mx (\row_(_ < size dat) - (1 / noise ^+ 2)) = (- (1 / noise)) *: diag_mx (\row_i p noise i).
    apply/matrixP => i j; rewrite !mxE pE mulNr; case: (i == j); rewrite ?mulr0n ?mulr0 ?oppr0 // !mulr1n.
    by rewrite !div1r -expr2 exprVn.
  rewrite -scalemxAr -scalemxAl -scalemxAr mxtraceZ (trace_gamma Hchol Hpinvh px HG b0 Ha) mulNr mulrC div1r.
  by [].
- rewrite -mulr_sumr mulNr mulrC div1r mulNr; congr (- (_ * _)).
  transitivity (\sum_(r <- dat) `|fy r - linear_pred (weights chol pinvh false acut kcut (1 / noise) KtK y alpha) r| ^+ 2); last first.
    by rewrite /with_pred big_map big_flatten; apply: eq_bigr => rk _; rewrite big_map.
  rewrite [RHS]big_tnth; apply: eq_bigr => i _; rewrite -/(row_of i).
  rewrite real_normK ?num_real //; congr (_ ^+ 2); rewrite /resid mxE; congr (_ - _).
  rewrite /w_of -(wA_GA Hchol Hpinvh px HG Hy b0 Ha) PA_weights /linear_pred !mxE; apply: eq_bigr => j _.
  by rewrite mxE.
Qed.
(* the code's value is the derivative only for noise_tilde = 1 or a vanishing derivative *)
Theorem C86_exact noise d : 0 < noise -> der (fun v => lik v) noise d ->
  log_noise_der chol pinvh acut kcut noise (with_pred noise) alpha = noise ^+ 4 * d /\
  (log_noise_der chol pinvh acut kcut noise (with_pred noise) alpha = d <-> noise = 1 \/ d = 0).
Proof.
move=> n0 D; have E := der_unique (C86_partial n0) D.
have n4 : noise ^+ 4 != 0 by rewrite expf_neq0 // gt_eqF.
have E2 : log_noise_der chol pinvh acut kcut noise (with_pred noise) alpha = noise ^+ 4 * d by rewrite -E mulrC divfK.
split=> //; rewrite E2; split=> [/eqP|[->|->]]; rewrite ?expr1n ?mul1r ?mulr0 //.
rewrite -subr_eq0 -[X in _ - X]mul1r -mulrBl mulf_eq0 subr_eq0 => /orP[|/eqP]; last by right.
by rewrite pexpr_eq1 // ?ltW // => /eqP; left.
Qed.
End LogDer.
