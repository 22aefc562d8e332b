(* C100: log_marg_lik of the generalised linear model and its derivative with respect to beta. *)
From Coq Require Import Reals Lra.
From Verif Require Import Base Fld Rstruct Calc Sup_Fit_Model Sup_RVM_Model Sup_RVM_Core Sup_RVM_Ev Sup_Glm_Irls_Model Sup_Glm_Irls Sup_Glm_Ev_Model.
From Verif Require Sup_Glm_Grad.
Import Num.Theory Order.TTheory.
Local Open Scope ring_scope.

(* a differentiable function which is positive at x is positive near x *)
Lemma der_pos_near (f : RR -> RR) x l : der f x l -> 0 < f x ->
  exists lo hi, [/\ lo < x, x < hi & forall a, lo < a -> a < hi -> 0 < f a].
Proof.
move=> D f0; have Dx : derivable_pt f x by exists l.
have [d [d0 Hd]] := derivable_continuous_pt f x Dx (f x) (elimT (RltP _ _) f0).
exists (x - d), (x + d); have d1 : 0 < (d : RR) by apply/RltP.
split; rewrite ?ltr_subl_addr ?ltr_addl // => a a1 a2.
case: (altP (a =P x)) => [->//|ax].
have := Hd a; rewrite /= /R_dist /D_x /no_cond => H.
have {}H : Rlt (Rabs (Rminus (f a) (f x))) (f x).
  apply: H; split; first by split=> //; move=> E; rewrite E eqxx in ax.
  have b1 : Rlt (Rminus x d) a by apply/RltP.
  have b2 : Rlt a (Rplus x d) by apply/RltP.
  by apply: Rabs_def1; lra.
have [_ H2] := Rabs_def2 _ _ H; have H3 : Rlt R0 (f a) by lra.
by apply/RltP.
Qed.

Section Field.
Variable F : fieldType.
Add Field FN : (f_theory F).
Lemma c100_field (g n e : F) : 1 + 1 != 0 :> F -> n + (1 + 1)^-1 * - g - e = n - g - e + g / (1 + 1).
Proof. by move=> /eqP H; mfield F. Qed.
End Field.

Section Generic.
Variables (chol : forall m, 'M[RR]_m -> option 'M[RR]_m) (pinvh : forall m, 'M[RR]_m -> 'M[RR]_m).
Hypotheses (Hchol : chol_ok chol) (Hpinvh : pinvh_ok pinvh).
Variables (p : nat) (alpha : nat -> RR) (active : nat -> bool) (expand : bool).
Notation act := (@gact p active).
Notation c := (cfac RR expand).
Notation fac := (glm_factor chol pinvh active).

Section One.
Variable H : 'M[RR]_p.
Notation A := (sub_mat act H).
Hypotheses (Hsym : H^T = H) (dA : 0 < \det A).
Lemma A_sym : A^T = A. Proof. by apply/matrixP => k l; rewrite !mxE -{1}Hsym mxE. Qed.
Lemma A_un : A \in unitmx. Proof. by rewrite unitmxE unitfE gt_eqF. Qed.
Lemma fac_S : Smat (fac H) = invmx A.
Proof.
rewrite /glm_factor; case: ifP => [/eqP H0|_].
  by rewrite /=; apply/matrixP => k; have := ltn_ord k; rewrite {2}H0.
case E: (chol _) => [L|] /=; last by rewrite Hpinvh ?A_sym ?A_un.
have [_ _ HL] := Hchol E.
have UL : L \in unitmx by have := A_un; rewrite -HL unitmx_mul => /andP[].
rewrite -[LHS](mulmxK A_un) -{1}HL mulmxA -[X in X *m _ = _]mulmxA.
by rewrite -[X in X *m _ = _]mulmxA mulKmx // -trmx_mul mulmxV // trmx1 mul1mx.
Qed.
Lemma fac_diag k : glm_diag expand (fac H) k = c^-1 * invmx A k k.
Proof.
rewrite -fac_S /glm_diag /cfac; set d := (match _ with SinvL _ => _ | Sinv _ => _ end : RR).
have -> : d = Smat (fac H) k k.
  rewrite /d; case: (fac H) => X //=; rewrite mxE; apply: eq_bigr => l _.
  by rewrite mxE real_normK ?num_real // expr2.
by case: expand; rewrite ?invr1 mulrC ?mulr1 // div1r.
Qed.
Lemma fac_logdet : c * glm_logdet expand (fac H) = - rln (\det (c *: A)).
Proof.
have c0 := c_neq0 RR expand; have cp := c_gt0 RR expand.
have UA : c *: A \in unitmx by rewrite unitmxZ ?unitfE // A_un.
have dS : 0 < \det (c^-1 *: Smat (fac H)).
  by rewrite fac_S -invmxZ // det_inv invr_gt0 detZ mulr_gt0 // exprn_gt0.
have -> : - rln (\det (c *: A)) = rln (\det (c^-1 *: Smat (fac H))).
  have dc : 0 < \det (c *: A) by rewrite detZ mulr_gt0 // exprn_gt0.
  by rewrite -rlnV // fac_S -invmxZ // det_inv.
move: dS; rewrite /glm_logdet /glm_factor; case: ifP => [H0|_] /=; first exact: sinv_case.
case E: (chol _) => [L|] /=; last exact: sinv_case.
have [TL PL HL] := Hchol E; move=> _.
have UL : L \in unitmx by have := A_un; rewrite -HL unitmx_mul => /andP[].
have NL k : L k k != 0 by rewrite gt_eqF.
have [_ DX] := inv_trig TL NL UL.
by apply: sinvl_case; [exact: inv_trig_trig | move=> k; rewrite DX invr_gt0].
Qed.
End One.

Variable X : 'M[RR]_p.
Hypothesis X_sym : X^T = X.
Variables (Hb : RR -> 'M[RR]_p) (beta : RR).
Hypothesis HbE : forall b i j, Hb b i j = b * X i j + (if i == j then alpha i / c else 0).
Hypotheses (b0 : 0 < beta) (dA : 0 < \det (sub_mat act (Hb beta))).
Lemma Hb_sym b : (Hb b)^T = Hb b.
Proof. by apply/matrixP => i j; rewrite mxE !HbE eq_sym -{1}X_sym mxE; case: eqP => [->|]. Qed.
Lemma Ab_E b : sub_mat act (Hb b) = b *: sub_mat act X + diag_mx (\row_k (alpha (@ev p active k) / c)).
Proof.
apply/matrixP => k l; rewrite !mxE HbE (inj_eq enum_val_inj) /ev; congr (_ + _).
by case: eqP => [->|]; rewrite ?mulr1n ?mulr0n.
Qed.
Lemma Ab_der : derm (fun b => sub_mat act (Hb b)) beta (sub_mat act X).
Proof.
move=> k l; apply: der_ext (_ : der (fun b => b * X (enum_val k) (enum_val l) + _) _ _) => [b|].
  by rewrite mxE HbE.
apply: der_eq (der_add (der_mul (der_id _) (der_const _ _)) (der_const _ _)) _.
by rewrite mul1r mulr0 !addr0 mxE.
Qed.
Lemma logdet_der : der (fun b => c * glm_logdet expand (fac (Hb b))) beta (- (glm_gamma alpha expand (fac (Hb beta)) / beta)).
Proof.
have c0 := c_neq0 RR expand; have cp := c_gt0 RR expand.
have [lo [hi [H1 H2 Hp]]] := der_pos_near (der_det Ab_der) dA.
apply: der_near H1 H2 (fun b L U => fac_logdet (Hb_sym b) (Hp b L U)) _.
have D : derm (fun b => c *: sub_mat act (Hb b)) beta (c *: sub_mat act X).
  by move=> k l; rewrite mxE; apply: der_ext (der_scale c (Ab_der k l)) => b; rewrite mxE.
have dc : 0 < \det (c *: sub_mat act (Hb beta)) by rewrite detZ mulr_gt0 // exprn_gt0.
apply: der_eq (der_opp (der_lndet D dc)) _; congr (- _).
have UA : sub_mat act (Hb beta) \in unitmx by exact: A_un.
rewrite invmxZ ?unitmxZ ?unitfE // -scalemxAl -scalemxAr scalerA mulVf // scale1r.
have -> : sub_mat act X = beta^-1 *: (sub_mat act (Hb beta) - diag_mx (\row_k (alpha (@ev p active k) / c))).
  by rewrite Ab_E addrK scalerA mulVf ?scale1r // gt_eqF.
rewrite -scalemxAr mxtraceZ mulrC; congr (_ / _); rewrite mulmxBr mulVmx // /mxtrace /glm_gamma; apply: eq_bigr => k _.
rewrite mul_mx_diag !mxE eqxx fac_diag ?Hb_sym //; congr (_ - _).
by rewrite mulrC -mulrA.
Qed.
End Generic.

Lemma eqbE (i j : nat) : Nat.eqb i j = (i == j). Proof. by case: PeanoNat.Nat.eqb_spec => [->|/eqP/negbTE->]; rewrite ?eqxx. Qed.
Lemma halfE : 1 / 2%:R = 2%:R^-1 :> RR. Proof. by rewrite div1r. Qed.

Section RealDer.
Variables (chol : forall m, 'M[RR]_m -> option 'M[RR]_m) (pinvh : forall m, 'M[RR]_m -> 'M[RR]_m).
Hypotheses (Hchol : chol_ok chol) (Hpinvh : pinvh_ok pinvh).
Variables (m p : nat) (K : nat -> nat -> RR) (s y alpha : nat -> RR) (active : nat -> bool) (w : nat -> RR) (beta : RR).
Notation act := (@gact p active).
Notation hess b := (glm_hess m p alpha K s y b w).
Notation lik b := (glm_lik chol pinvh m p alpha active K s y b w).
Hypotheses (b0 : 0 < beta) (dA : 0 < \det (sub_mat act (hess beta))).
Definition Xmat : 'M[RR]_p := \matrix_(a, b)
  (- rsum m (fun i => K i a * (s i * rpred p K w i * (y i - rpred p K w i)) * K i b)
   + rsum m (fun i => K i a * (s i * rpred p K w i * rpred p K w i) * K i b)).
Lemma hessE b i j : hess b i j = b * Xmat i j + (if i == j then alpha i / cfac RR false else 0).
Proof.
rewrite !mxE /cfac divr1 /Sup_Glm_Grad.get_hessian eqbE; congr (_ + _).
Qed.
Lemma Xmat_sym : Xmat^T = Xmat.
Proof.
apply/matrixP => i j; rewrite !mxE !rsumE; congr (- _ + _); apply: eq_bigr => l _; by rewrite mulrAC [K l j * K l i]mulrC mulrAC.
Qed.

(* real data: the code's value is the derivative of log_marg_lik at fixed weights *)
Theorem C100_real : der (fun b => lik b) beta (glm_beta_der chol pinvh m p alpha active K s y beta w).
Proof.
have D := logdet_der Hchol Hpinvh Xmat_sym hessE b0 dA.
have D1 : der (fun b => glm_logdet false (glm_factor chol pinvh active (hess b))) beta
   (- (glm_gamma alpha false (glm_factor chol pinvh active (hess beta)) / beta)).
  by apply: der_ext D => b; rewrite /cfac mul1r.
have D2 : der (fun b => (rln b - rln (2%:R * PI)) * N_data m s) beta (N_data m s / beta).
  apply: der_eq (der_mul (der_sub (der_ln b0 (der_id _)) (der_const _ _)) (der_const _ _)) _.
  by rewrite mulr0 addr0 subr0 div1r mulrC.
rewrite /glm_lik /glm_beta_der.
apply: der_eq (der_mul (der_sub (der_add (der_add D2 D1) (der_const _ _)) (der_add (der_mul (der_id _) (der_const _ _)) (der_const _ _))) (der_const _ _)) _.
by rewrite !mulr0 !addr0 mul1r.
Qed.
End RealDer.

Section ComplexDer.
Variables (chol : forall m, 'M[RR]_m -> option 'M[RR]_m) (pinvh : forall m, 'M[RR]_m -> 'M[RR]_m).
Hypotheses (Hchol : chol_ok chol) (Hpinvh : pinvh_ok pinvh).
Variables (m p : nat) (K : nat -> nat -> cplx) (s : nat -> RR) (y : nat -> cplx) (alpha : nat -> RR)
  (active : nat -> bool) (w : nat -> RR) (beta : RR).
Notation act := (@gact p active).
Notation hess b := (glm_hessx m p alpha K s y b w).
Notation lik b := (glm_likx chol pinvh m p alpha active K s y b w).
Notation gam := (glm_gamma alpha true (glm_factor chol pinvh active (hess beta))).
Hypotheses (b0 : 0 < beta) (dA : 0 < \det (sub_mat act (hess beta))).
Notation zero := (fun _ : nat => 0 : RR).
Definition Xmatx : 'M[RR]_p := \matrix_(a, b) Sup_Glm_Grad.get_hessianx m p K s y zero 1 w a b.
Lemma hessxE b i j : hess b i j = b * Xmatx i j + (if i == j then alpha i / cfac RR true else 0).
Proof.
rewrite !mxE !Sup_Glm_Grad.get_hessianxE eqbE /cfac; set u1 := rsum m _; set u2 := rsum m _.
rewrite -[nat_of_ord i == nat_of_ord j]/(i == j); case: (i == j).
  by rewrite /Rdiv Rmult_0_l Rmult_1_l Rplus_0_r Rinv_mc.
by rewrite Rmult_1_l !Rplus_0_r addr0.
Qed.
Lemma Xmatx_sym : Xmatx^T = Xmatx.
Proof. by apply/matrixP => i j; rewrite !mxE; apply: Sup_Glm_Grad.C67_symmetricx. Qed.

(* complex data: the derivative of log_marg_lik exceeds the code's value by half of sum(gamma) / beta *)
Theorem C100_complex : der (fun b => lik b) beta
  (glm_beta_derx chol pinvh m p alpha active K s y beta w + gam / beta / 2%:R).
Proof.
have D := logdet_der Hchol Hpinvh Xmatx_sym hessxE b0 dA.
have D1 : der (fun b => glm_logdet true (glm_factor chol pinvh active (hess b))) beta (2%:R^-1 * - (gam / beta)).
  by apply: der_ext (der_scale _ D) => b; rewrite /cfac mulrA mulVf ?mul1r // pnatr_eq0.
have D2 : der (fun b => (rln b - rln PI) * N_data m s) beta (N_data m s / beta).
  apply: der_eq (der_mul (der_sub (der_ln b0 (der_id _)) (der_const _ _)) (der_const _ _)) _.
  by rewrite mulr0 addr0 subr0 div1r mulrC.
rewrite /glm_likx /glm_beta_derx.
apply: der_eq (der_sub (der_add (der_add D2 D1) (der_const _ _)) (der_add (der_mul (der_id _) (der_const _ _)) (der_const _ _))) _.
rewrite !mulr0 !addr0 mul1r; move: (gam / beta) (N_data m s / beta) (glm_errx _ _ _ _ _ _ _) => g n e.
by apply: (c100_field (F := RR)); rewrite -mulr2n pnatr_eq0.
Qed.
(* so it is the derivative exactly if sum(gamma) vanishes *)
Theorem C100_complex_iff d : der (fun b => lik b) beta d ->
  (glm_beta_derx chol pinvh m p alpha active K s y beta w = d <-> gam = 0).
Proof.
move=> Hd; rewrite -(der_unique C100_complex Hd); split=> [/eqP|->]; last by rewrite !mul0r addr0.
rewrite -subr_eq0 opprD addrA subrr add0r oppr_eq0 !mulf_eq0 !invr_eq0 pnatr_eq0 (gt_eqF b0) !orbF => /eqP.
exact.
Qed.
End ComplexDer.
