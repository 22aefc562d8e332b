(* C100: log_marg_lik of the generalised linear model is the Laplace approximation of the evidence; the beta
   derivative is wrong for complex parameters; example. *)
From Coq Require Import Reals Lra.
From Verif Require Import Base Fld Numq Rstruct Calc Sup_Fit_Model Sup_RVM_Model Sup_RVM_Core Sup_RVM_Ev Sup_Glm_Irls_Model Sup_Glm_Irls Sup_Glm_Ev_Model Sup_Glm_Ev.
From Verif Require Sup_Glm_Grad.
Import Num.Theory Order.TTheory.
Local Open Scope ring_scope.

(* logarithm of the integral of exp(-E) over n variables, with E replaced by its second order expansion around a
   stationary point at which it has the value E and the Hessian H *)
Definition laplace_ln n (E : RR) (H : 'M[RR]_n) : RR :=
  - E + n%:R / 2%:R * rln (2%:R * PI) - 1 / 2%:R * rln (\det H).

Section Laplace.
Add Ring RG : (r_theory (GRing.Field.comRingType RR)).
Variables (chol : forall m, 'M[RR]_m -> option 'M[RR]_m) (pinvh : forall m, 'M[RR]_m -> 'M[RR]_m).
Hypotheses (Hchol : chol_ok chol) (Hpinvh : pinvh_ok pinvh).
Variables (m p : nat) (alpha : nat -> RR) (active : nat -> bool) (w : nat -> RR) (beta : RR).
Notation act := (@gact p active).
Hypotheses (b0 : 0 < beta) (a0 : forall j, (j < p)%N -> active j -> 0 < alpha j)
  (w0 : forall j, (j < p)%N -> active j = false -> w j = 0).
(* logarithm of the normalisation of the prior, a Gaussian with precision alpha for every active weight *)
Definition ln_prior_norm : RR := \sum_(k < #|act|) 1 / 2%:R * rln (alpha (enum_val k) / (2%:R * PI)).
Lemma pi2_gt0 : 0 < 2%:R * PI :> RR.
Proof. by rewrite mulr_gt0 ?ltr0n //; apply/RltP; apply: PI_RGT_0. Qed.
Lemma ln_prior_normE : ln_prior_norm = 1 / 2%:R * sum_log_alpha p alpha active - #|act|%:R / 2%:R * rln (2%:R * PI).
Proof.
have -> : #|act|%:R / 2%:R * rln (2%:R * PI) = \sum_(k < #|act|) 1 / 2%:R * rln (2%:R * PI).
  by rewrite sumr_const card_ord -[RHS]mulr_natl !mulrA mulr1.
rewrite /ln_prior_norm /sum_log_alpha mulr_sumr -sumrB; apply: eq_bigr => k _.
by rewrite rln_div ?pi2_gt0 ?mulrBr //; apply: a0 => //; exact: (enum_valP k).
Qed.
Lemma Rpow2 (x : RR) : pow x 2 = x ^+ 2. Proof. by rewrite /= RmultE RmultE mulr1 expr2. Qed.
Lemma act_sum (f : nat -> RR) : (forall j, (j < p)%N -> active j = false -> f j = 0) ->
  rsum p f = \sum_(k < #|act|) f (enum_val k).
Proof. by move=> H; rewrite rsumE (sum_act (active := active)). Qed.

Section Real.
Variables (K : nat -> nat -> RR) (s y : nat -> RR).
Notation H := (glm_hess m p alpha K s y beta w).
Hypothesis dA : 0 < \det (sub_mat act H).
Lemma predE i : glm_pred p active K w i = rpred p K w i.
Proof.
rewrite /glm_pred /Sup_Glm_Grad.rpred; congr exp.
by rewrite (act_sum (f := fun j => K i j * w j)) // => j jp ja; rewrite w0 ?mulr0.
Qed.
Lemma get_lossE : get_loss m p K s y alpha active beta w =
  (beta * glm_err m p active K s y w + \sum_(k < #|act|) alpha (enum_val k) * `|w (enum_val k)| ^+ 2) / 2%:R.
Proof.
rewrite /Sup_Glm_Grad.get_loss /Rdiv Rinv_mc RmultE; congr (_ * _); rewrite RplusE RmultE; congr (_ * _ + _).
  rewrite /glm_err !rsumE; apply: eq_bigr => i _; by rewrite predE Rpow2 RmultE RminusE real_normK ?num_real.
rewrite (act_sum (f := fun j => if active j then Rmult (alpha j) (pow (w j) 2) else IZR 0)) => [|j _ ->//].
apply: eq_bigr => k _; have -> : active (enum_val k) by exact: (enum_valP k).
by rewrite Rpow2 RmultE real_normK ?num_real.
Qed.
(* data: Gaussian of precision beta for every (weighted) configuration *)
Theorem C100_laplace : glm_lik chol pinvh m p alpha active K s y beta w =
  N_data m s / 2%:R * rln (beta / (2%:R * PI)) + ln_prior_norm
  + laplace_ln (get_loss m p K s y alpha active beta w) (sub_mat act H).
Proof.
have Hs : H^T = H by apply/matrixP => i j; rewrite !mxE; apply: Sup_Glm_Grad.C67_symmetric.
have := fac_logdet Hchol Hpinvh false Hs dA; rewrite /cfac mul1r scale1r => E.
rewrite /glm_lik E ln_prior_normE get_lossE /laplace_ln rln_div ?pi2_gt0 // !div1r.
move: (rln beta) (rln (2%:R * PI)) (rln (\det _)) (_ * glm_err _ _ _ _ _ _ _ + _) (sum_log_alpha _ _ _) (N_data _ _) 2%:R^-1 #|act|%:R => a b c d e f g h.
mring (GRing.Field.comRingType RR).
Qed.
End Real.

Section Complex.
Variables (K : nat -> nat -> cplx) (s : nat -> RR) (y : nat -> cplx).
Notation H := (glm_hessx m p alpha K s y beta w).
Hypothesis dA : 0 < \det (sub_mat act H).
Lemma predxE i : glm_predx p active K w i = Sup_Glm_Grad.cpred p K w i.
Proof.
rewrite /glm_predx /Sup_Glm_Grad.cpred /Sup_Glm_Grad.csum; congr (Sup_Glm_Grad.cexp (_, _)).
  by rewrite (act_sum (f := fun j => w j * fst (K i j))) // => j jp ja; rewrite w0 ?mul0r.
by rewrite (act_sum (f := fun j => w j * snd (K i j))) // => j jp ja; rewrite w0 ?mul0r.
Qed.
Lemma get_lossxE : Sup_Glm_Grad.get_lossx m p K s y alpha active beta w =
  (beta * glm_errx m p active K s y w + \sum_(k < #|act|) alpha (enum_val k) / 2%:R * `|w (enum_val k)| ^+ 2) / 2%:R.
Proof.
rewrite /Sup_Glm_Grad.get_lossx /Rdiv Rinv_mc RmultE; congr (_ * _); rewrite RplusE RmultE; congr (_ * _ + _).
  rewrite /glm_errx !rsumE; apply: eq_bigr => i _; by rewrite predxE.
rewrite (act_sum (f := fun j => if active j then Rmult (Rmult (alpha j) (IZR 2)^-1) (pow (w j) 2) else IZR 0)) => [|j _ ->//].
apply: eq_bigr => k _; have -> : active (enum_val k) by exact: (enum_valP k).
by rewrite Rpow2 !RmultE real_normK ?num_real.
Qed.
(* data: complex Gaussian of precision beta for every (weighted) configuration; twice the loss is minus the
   logarithm of the density of the weights and the data *)
Theorem C100_laplacex : glm_likx chol pinvh m p alpha active K s y beta w =
  N_data m s * rln (beta / PI) + ln_prior_norm
  + laplace_ln (2%:R * Sup_Glm_Grad.get_lossx m p K s y alpha active beta w) (2%:R *: sub_mat act H).
Proof.
have Hs : H^T = H by apply/matrixP => i j; rewrite !mxE; apply: Sup_Glm_Grad.C67_symmetricx.
have pi0 : 0 < PI :> RR by apply/RltP; apply: PI_RGT_0.
have n2 : 2%:R != 0 :> RR by rewrite pnatr_eq0.
have := fac_logdet Hchol Hpinvh true Hs dA; rewrite /cfac => /(congr1 (fun x => 2%:R^-1 * x)).
rewrite mulrA mulVf // mul1r => E.
rewrite /glm_likx E ln_prior_normE get_lossxE /laplace_ln rln_div // !div1r [2%:R * (_ / _)]mulrC divfK //.
set L := (X in _ - X = _); set L2 := (X in _ + (- X + _ - _)); have -> : L2 = L by [].
move: (rln beta) (rln (2%:R * PI)) (rln PI) (rln (\det _)) L (sum_log_alpha _ _ _) (N_data _ _) 2%:R^-1 #|act|%:R => a b b' c d e f g h.
mring (GRing.Field.comRingType RR).
Qed.
End Complex.
End Laplace.

Lemma inv_scalar n (a : RR) : a != 0 -> invmx (a%:M : 'M[RR]_n) = a^-1%:M.
Proof. by move=> H; rewrite invmx_scalar. Qed.
(* one configuration with amplitude 1, one complex feature 1, both real weights active and zero, alpha = 2,
   beta = 1: the Hessian is twice the identity *)
Theorem C100_refuted :
  exists (m p : nat) (K : nat -> nat -> cplx) (s : nat -> RR) (y : nat -> cplx) (alpha : nat -> RR)
    (active : nat -> bool) (w : nat -> RR) (beta : RR),
  [/\ 0 < beta, 0 < \det (sub_mat (@gact p active) (glm_hessx m p alpha K s y beta w)),
      forall j, 0 < alpha j & forall chol pinvh, chol_ok chol -> pinvh_ok pinvh ->
        exists d, der (fun b => glm_likx chol pinvh m p alpha active K s y b w) beta d /\
                  glm_beta_derx chol pinvh m p alpha active K s y beta w <> d].
Proof.
pose K := Sup_Glm_Grad.hstack_i 1 (fun _ _ => (1%R, 0%R)). pose s := fun _ : nat => 1 : RR.
pose y := fun _ : nat => (1%R, 0%R) : cplx. pose alpha := fun _ : nat => 2%:R : RR.
pose active := fun _ : nat => true. pose w := fun _ : nat => 0 : RR.
have pw i : Sup_Glm_Grad.cpred 2 K w i = (1%R, 0%R).
  rewrite /Sup_Glm_Grad.cpred /Sup_Glm_Grad.csum /= /w !Rmult_0_l !Rplus_0_l /Sup_Glm_Grad.cexp /=.
  by rewrite exp_0 cos_0 sin_0 !Rmult_1_l.
have HE : glm_hessx 1 2 alpha K s y 1 w = 2%:R%:M.
  have b1E i : Sup_Glm_Grad.b1 2 K s y w i = (0%R, 0%R) by rewrite /Sup_Glm_Grad.b1 pw /s /y /=; congr (_, _); cbv -[Rplus Rmult Ropp Rminus IZR]; lra.
  have b2E i : Sup_Glm_Grad.b2 2 K s w i = (1%R, 0%R) by rewrite /Sup_Glm_Grad.b2 pw /s /=; congr (_, _); cbv -[Rplus Rmult Ropp Rminus IZR]; lra.
  apply/matrixP => i j; rewrite !mxE Sup_Glm_Grad.get_hessianxE; cbn [Sup_Glm_Grad.rsum]; rewrite b1E b2E.
  have z0 : (0 : RR) = IZR 0 by []. have z1 : (1 : RR) = IZR 1 by []. have z2 : (2%:R : RR) = IZR 2 by [].
  by case: i => [[|[|//]] ?]; case: j => [[|[|//]] ?]; rewrite /K /s /y /alpha /= ?mulr1n ?mulr0n ?z2 ?z1 ?z0; lra.
have n2 : 2%:R != 0 :> RR by rewrite pnatr_eq0.
have SE : sub_mat (@gact 2 active) (2%:R%:M : 'M[RR]_2) = 2%:R%:M.
  by apply/matrixP => k l; rewrite !mxE (inj_eq enum_val_inj).
have dA : 0 < \det (sub_mat (@gact 2 active) (glm_hessx 1 2 alpha K s y 1 w)).
  by rewrite HE SE det_scalar exprn_gt0 // ltr0n.
exists 1%N, 2%N, K, s, y, alpha, active, w, 1; split=> [||j|chol pinvh Hc Hp]; rewrite ?ltr01 ?ltr0n //.
have b0 : 0 < 1 :> RR by exact: ltr01.
have D := C100_complex Hc Hp b0 dA.
eexists; split; first exact: D.
move/(C100_complex_iff Hc Hp b0 dA D).
rewrite /glm_gamma (eq_bigr (fun _ => 2%:R^-1 : RR)) => [|k _].
  rewrite sumr_const card_ord => /eqP; rewrite mulrn_eq0 invr_eq0 (negbTE n2) orbF => /eqP c0.
  have : (0 < #|@gact 2 active|)%N by apply/card_gt0P; exists ord0.
  by rewrite c0.
have Hs : (glm_hessx 1 2 alpha K s y 1 w)^T = glm_hessx 1 2 alpha K s y 1 w by rewrite HE tr_scalar_mx.
rewrite (fac_diag Hc Hp true Hs dA) HE SE inv_scalar // mxE eqxx mulr1n /cfac /alpha mulrA mulfV // mul1r.
by numq RR.
Qed.

(* one configuration with amplitude 1, one feature 1, weight 0, alpha = beta = 1 *)
Example C100_example chol pinvh : chol_ok chol -> pinvh_ok pinvh ->
  let one := fun _ : nat => 1 : RR in
  glm_beta_der chol pinvh 1 1 one (fun _ => true) (fun _ _ => 1) one one 1 (fun _ => 0) = 1 / 4%:R.
Proof.
move=> Hc Hp one; pose active := fun _ : nat => true; pose K := fun _ _ : nat => 1 : RR; pose w := fun _ : nat => 0 : RR.
have z0 : (0 : RR) = IZR 0 by []. have z1 : (1 : RR) = IZR 1 by []. have z2 : (2%:R : RR) = IZR 2 by [].
have pw i : rpred 1 K w i = 1.
  by rewrite /Sup_Glm_Grad.rpred /= /K /w RmultE mulr0 RplusE addr0; apply: exp_0.
have HE : glm_hess 1 1 one K one one 1 w = 2%:R%:M.
  apply/matrixP => i j; rewrite !mxE !ord1 eqxx /Sup_Glm_Grad.get_hessian /= pw /K /one mulr1n z2 z1; lra.
have n2 : 2%:R != 0 :> RR by rewrite pnatr_eq0.
have SE : sub_mat (@gact 1 active) (2%:R%:M : 'M[RR]_1) = 2%:R%:M.
  by apply/matrixP => k l; rewrite !mxE (inj_eq enum_val_inj).
have dA : 0 < \det (sub_mat (@gact 1 active) (glm_hess 1 1 one K one one 1 w)).
  by rewrite HE SE det_scalar exprn_gt0 // ltr0n.
have Hs : (glm_hess 1 1 one K one one 1 w)^T = glm_hess 1 1 one K one one 1 w by rewrite HE tr_scalar_mx.
have c1 : #|@gact 1 active| = 1%N by rewrite -[RHS](card_ord 1); apply: eq_card => i; rewrite !inE.
rewrite /glm_beta_der -/K -/w -/active.
have -> : glm_err 1 1 active K one one w = 0.
  rewrite /glm_err /= /glm_pred big1 => [|k _]; last by rewrite mulr0.
  by rewrite exp_0 /one subrr normr0 expr2 !mulr0 RplusE addr0.
have -> : glm_gamma one false (glm_factor chol pinvh active (glm_hess 1 1 one K one one 1 w)) = 1 - 2%:R^-1.
  rewrite /glm_gamma (eq_bigr (fun _ => 1 - 2%:R^-1 : RR)) => [|k _]; first by rewrite sumr_const card_ord c1.
  by rewrite (fac_diag Hc Hp false Hs dA) HE SE inv_scalar // mxE eqxx mulr1n /cfac invr1 !mul1r.
rewrite /N_data /= RplusE add0r !divr1 subr0 opprB addrCA subrr addr0.
by numq RR.
Qed.
