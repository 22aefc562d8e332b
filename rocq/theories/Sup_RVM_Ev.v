(* The evidence of the linear model and the logarithm of the marginal likelihood of the code. *)
From Coq Require Import Reals Lra.
From Verif Require Import Base Fld Rstruct Sup_Model Sup_Fit_Model Sup_Ev_Alg Sup_RVM_Model Sup_RVM_Core.
Import Num.Theory Order.TTheory.
Local Open Scope ring_scope.
Notation RR := R_realFieldType.

(* logarithm of the density of the normal distribution with mean 0 and covariance C at t *)
Definition gauss_ln N (C : 'M[RR]_N) (t : 'cV[RR]_N) : RR :=
  - ((N%:R * rln (2%:R * (PI : RR)) + rln (\det C) + (t^T *m invmx C *m t) 0 0) / 2%:R).

Section RingAux.
Variable A : comRingType.
Add Ring RA : (r_theory A).
Lemma ap_ring (a b c d e : A) : - (a + b + c) + b + d = - a - c + e + (d - e).
Proof. mring A. Qed.
End RingAux.

Section Trig.
Variable (F : fieldType).
Lemma inv_trig m (L : 'M[F]_m) : is_trig_mx L -> (forall k, L k k != 0) -> L \in unitmx ->
  (forall k l : 'I_m, (k < l)%N -> invmx L k l = 0) /\ forall k, invmx L k k = (L k k)^-1.
Proof.
move=> /is_trig_mxP TL NL UL; set X := invmx L.
have E (k l : 'I_m) : \sum_j X k j * L j l = (k == l)%:R by have := mulVmx UL; move/matrixP/(_ k l); rewrite !mxE.
have Z (k l : 'I_m) : (k < l)%N -> X k l = 0.
  move Ed : (m - l)%N => d; elim/ltn_ind: d l Ed => d IH l Ed kl.
  have := E k l; rewrite (bigD1 l) //= big1 ?addr0 => [|j jl].
    by rewrite -val_eqE (ltn_eqF kl) => /eqP; rewrite mulf_eq0 (negbTE (NL l)) orbF => /eqP.
  case: (ltngtP j l) => [H|H|/val_inj/eqP H]; last by rewrite H in jl.
    by rewrite TL // mulr0.
  rewrite (IH (m - j)%N) ?mul0r //; last exact: ltn_trans H.
  by rewrite -Ed ltn_sub2l.
split=> // k; have := E k k; rewrite (bigD1 k) //= big1 ?addr0 => [|j jk].
  by rewrite eqxx => H; rewrite -[LHS](mulfK (NL k)) H mul1r.
case: (ltngtP j k) => [H|H|/val_inj/eqP H]; last by rewrite H in jk.
  by rewrite TL // mulr0.
by rewrite Z // mul0r.
Qed.
Lemma inv_trig_trig m (L : 'M[F]_m) : is_trig_mx L -> (forall k, L k k != 0) -> L \in unitmx -> is_trig_mx (invmx L).
Proof. by move=> H1 H2 H3; apply/is_trig_mxP; case: (inv_trig H1 H2 H3). Qed.
End Trig.

Lemma ln_sq (x : RR) : 0 < x -> rln (x ^+ 2) = 2%:R * rln x.
Proof. by move=> Hx; rewrite expr2 rlnM // mulr2n mulrDl mul1r. Qed.

Lemma c_half (x : RR) : 2%:R * (1 / 2%:R * x) = x.
Proof. by rewrite mul1r mulrA divff ?mul1r // pnatr_eq0. Qed.
Lemma sinv_case (expand : bool) m (X : 'M[RR]_m) : 0 < \det ((cfac RR expand)^-1 *: X) ->
  cfac RR expand * (if expand then 1 / 2%:R * rln `|\det ((1 / 2%:R) *: X)| else rln `|\det X|) =
  rln (\det ((cfac RR expand)^-1 *: X)).
Proof.
rewrite /cfac; case: expand => H; first by rewrite c_half mul1r gtr0_norm.
by move: H; rewrite mul1r invr1 scale1r => H; rewrite gtr0_norm.
Qed.
Lemma sinvl_case (expand : bool) m (X : 'M[RR]_m) : is_trig_mx X -> (forall k, 0 < X k k) ->
  cfac RR expand * (if expand then 1 / 2%:R * (\sum_k rln (1 / 2%:R * `|X k k| ^+ 2)) else 2%:R * (\sum_k rln `|X k k|)) =
  rln (\det ((cfac RR expand)^-1 *: (X^T *m X))).
Proof.
move=> TX PX; rewrite detZ det_mulmx det_tr det_trig //.
have h2 : 0 < 1 / 2%:R :> RR by rewrite divr_gt0 ?ltr01 ?ltr0n.
rewrite /cfac; case: expand.
  rewrite c_half -[in RHS]div1r -[m in _ ^+ m]card_ord -prodr_const -big_split -big_split /= rln_prod.
    by apply: eq_bigr => k _; rewrite real_normK ?num_real // expr2.
  by move=> k _; apply: mulr_gt0 => //; apply: mulr_gt0.
rewrite mul1r invr1 expr1n mul1r -big_split /= rln_prod; last by move=> k _; rewrite mulr_gt0.
by rewrite mulr_sumr; apply: eq_bigr => k _; rewrite gtr0_norm // -ln_sq // expr2.
Qed.

Section Ev.
Variables (chol : forall m, 'M[RR]_m -> option 'M[RR]_m) (pinvh : forall m, 'M[RR]_m -> 'M[RR]_m).
Hypotheses (Hchol : chol_ok chol) (Hpinvh : pinvh_ok pinvh).
Variables (N n : nat) (p : 'I_N -> RR) (Phi : 'M[RR]_(N, n)) (t : 'cV[RR]_N).
Hypothesis p_gt0 : forall i, 0 < p i.
Variables (expand : bool) (acut kcut beta : RR) (KtK : 'M[RR]_n) (y : 'cV[RR]_n).
Notation c := (cfac RR expand).
Hypothesis HG : (c * beta) *: KtK = gram p Phi.
Hypothesis Hy : (c * beta) *: y = gvec p Phi t.
Hypothesis b_gt0 : 0 < beta.
Implicit Type alpha : 'I_n -> RR.
Notation act alpha := (act_of acut kcut KtK alpha).
Notation Aact alpha := (Aact expand acut kcut beta KtK alpha).
Notation fac alpha := (factor_of chol pinvh expand acut kcut beta KtK alpha).

Definition evidence alpha : RR := gauss_ln (Cov p Phi (act alpha) alpha) t.

Section Alpha.
Variable alpha : 'I_n -> RR.
Hypothesis a_gt0 : forall i, act alpha i -> 0 < alpha i.
Notation G := (GA p Phi (act alpha) alpha).
Lemma G_det_gt0 : 0 < \det G.
Proof.
rewrite GA_det // !mulr_gt0 ?det_Cov //; last by apply: prodr_gt0 => i _.
by apply: prodr_gt0 => i; apply: a_gt0.
Qed.
Lemma logdetE : c * logdet_term rln chol pinvh expand acut kcut beta KtK alpha = - rln (\det G).
Proof.
have c0 := c_neq0 RR expand; have cp := c_gt0 RR expand.
have -> : - rln (\det G) = rln (\det (c^-1 *: Smat (fac alpha))).
  rewrite -rlnV ?G_det_gt0 // (SmatE Hchol Hpinvh p_gt0 HG) //.
  by rewrite -(inv_GA p_gt0 HG a_gt0) det_inv.
have dS : \det (c^-1 *: Smat (fac alpha)) > 0.
  rewrite (SmatE Hchol Hpinvh p_gt0 HG) // -(inv_GA p_gt0 HG a_gt0) det_inv invr_gt0; exact: G_det_gt0.
rewrite /logdet_term; move: dS; rewrite /factor_of; case: ifP => [H0|_] /=; first exact: sinv_case.
case E: (chol _) => [L|] /=; last exact: sinv_case.
have [TL PL HL] := Hchol E; move=> _.
have UL : L \in unitmx by have := Aact_unit p_gt0 HG a_gt0; rewrite -HL unitmx_mul => /andP[].
have NL k : L k k != 0 by rewrite gt_eqF.
have [_ DX] := inv_trig TL NL UL.
by apply: sinvl_case; [exact: inv_trig_trig | move=> k; rewrite DX invr_gt0].
Qed.
Lemma alpha_termE : c * alpha_term rln expand acut kcut KtK alpha = \sum_(i | act alpha i) rln (alpha i).
Proof.
have -> : \sum_(i | act alpha i) rln (alpha i) = \sum_(i | act alpha i && (0 < alpha i)) rln (alpha i).
  by apply: eq_bigl => i; case H: (act alpha i) => //=; rewrite a_gt0.
rewrite /alpha_term /cfac; case: expand; by rewrite ?c_half ?mul1r.
Qed.
Lemma weight_termE : c * weight_term chol pinvh expand acut kcut beta KtK y alpha =
  ((zA p Phi (act alpha) t)^T *m invmx G *m zA p Phi (act alpha) t) 0 0.
Proof.
have c0 := c_neq0 RR expand.
have GT : G^T = G.
  rewrite (GA_Aact acut kcut HG) linearZ /= (Aact_sym acut kcut HG b_gt0) //.
rewrite /weight_term (wA_GA Hchol Hpinvh p_gt0 HG Hy b_gt0 a_gt0).
set z := zA _ _ _ _.
have -> : Aact alpha = c^-1 *: G by rewrite (GA_Aact acut kcut HG) scalerA mulVf // scale1r.
rewrite trmx_mul trmx_inv GT -scalemxAl -scalemxAr [(_ *: _ : 'M_1) 0 0]mxE mulrA divff // mul1r.
by rewrite mulKVmx ?GA_unit // mulmxA.
Qed.
Lemma alpha_partE : c * alpha_part rln chol pinvh expand acut kcut beta KtK y alpha =
  - rln (\det (Cov p Phi (act alpha) alpha)) - (\sum_i rln (p i)) + (\sum_i p i * t i 0 ^+ 2)
  - (t^T *m invmx (Cov p Phi (act alpha) alpha) *m t) 0 0.
Proof.
rewrite /alpha_part !mulrDr logdetE alpha_termE weight_termE.
have dC := det_Cov Phi p_gt0 a_gt0.
have dp : 0 < \prod_(j | act alpha j) alpha j by apply: prodr_gt0 => i; apply: a_gt0.
have pp : 0 < \prod_i p i by apply: prodr_gt0.
rewrite GA_det // rlnM ?mulr_gt0 // rlnM // rln_prod; last exact: a_gt0.
rewrite rln_prod // -[(t^T *m _ *m t) 0 0]/(bilf _ _ _) bil_tt // opprB.
exact: ap_ring.
Qed.
End Alpha.
End Ev.
