(* C83: log_marg_lik_alpha_der (supervised_qgps.py L321-338) is the derivative of log_marg_lik. *)
From Coq Require Import Reals Lra.
From Verif Require Import Base Fld Numq Rstruct Calc Sup_Model Sup_Fit_Model Sup_Ev_Alg Sup_RVM_Model Sup_RVM_Core Sup_RVM_Ev Sup_RVM_Marg Sup_RVM_Step Sup_RVM_Props Sup_RVM_Ex Sup_RVM_Ex2 Sup_RVM_Der Sup_RVM_Noise_Model Sup_RVM_Noise Sup_RVM_Noise_Ex.
Import Num.Theory Order.TTheory.
Local Open Scope ring_scope.

Section Field.
Variable F : fieldType.
Add Field FAD : (f_theory F).
Lemma ad_gamma (a s : F) : a != 0 -> a + s != 0 -> a^-1 - (a + s)^-1 = (1 - a / (a + s)) / a.
Proof. by move=> /eqP H1 /eqP H2; mfield F. Qed.
Lemma ad_val (a s q : F) : a != 0 -> a + s != 0 ->
  - (a + s)^-1 + 1 / a - q / (a + s) * (q / (a + s)) = 1 / a - 1 / (a + s) + q ^+ 2 * (- 1 / (a + s) ^+ 2).
Proof. by rewrite !expr2 !div1r => /eqP H1 /eqP H2; mfield F. Qed.
End Field.

Lemma gain_der (s q a : RR) : 0 < a -> 0 <= s -> der (gain s q) a (1 / a - 1 / (a + s) + q ^+ 2 * (- 1 / (a + s) ^+ 2)).
Proof.
move=> a0 s0; have as0 : 0 < a + s by rewrite ltr_paddr.
have D1 : der (fun x => x + s) a 1 by apply: der_eq (der_add (der_id a) (der_const s a)) _; rewrite addr0.
have D2 : der (fun x => rln x - rln (x + s)) a (1 / a - 1 / (a + s)).
  exact: (@der_sub (fun x => rln x) (fun x => rln (x + s)) a _ _ (@der_ln id a 1 a0 (der_id a)) (@der_ln (fun x => x + s) a 1 as0 D1)).
have D3 : der (fun x => q ^+ 2 * (x + s)^-1) a (q ^+ 2 * (- 1 / (a + s) ^+ 2)).
  by apply: der_scale; apply: (@der_inv (fun x => x + s) a 1) => //; rewrite gt_eqF.
have h1 : a < a + 1 by rewrite ltr_addl ltr01.
apply: der_near (a0) (h1) _ (der_add D2 D3) => x x0 _.
by rewrite /gain rln_div // ltr_paddr.
Qed.

Section Core.
Variables (chol : forall m, 'M[RR]_m -> option 'M[RR]_m) (pinvh : forall m, 'M[RR]_m -> 'M[RR]_m).
Hypotheses (Hchol : chol_ok chol) (Hpinvh : pinvh_ok pinvh).
Variables (N n : nat) (p : 'I_N -> RR) (Phi : 'M[RR]_(N, n)) (t : 'cV[RR]_N).
Hypothesis p_gt0 : forall i, 0 < p i.
Variables (expand : bool) (acut kcut beta : RR) (KtK : 'M[RR]_n) (y : 'cV[RR]_n).
Notation c := (cfac RR expand).
Hypothesis HG : (c * beta) *: KtK = gram p Phi.
Hypothesis Hy : (c * beta) *: y = gvec p Phi t.
Hypothesis b_gt0 : 0 < beta.
Notation act alpha := (act_of acut kcut KtK alpha).
Notation evid := (evidence p Phi t acut kcut KtK).
Variable alpha : 'I_n -> RR.
Hypothesis a_gt0 : forall j, act alpha j -> 0 < alpha j.
Variable i : 'I_n.
Notation s := (sl p Phi acut kcut KtK alpha i).
Notation q := (ql p Phi t acut kcut KtK alpha i).

Lemma act_upd a : act alpha i -> a < acut -> act (upd alpha i a) =1 act alpha.
Proof.
move=> Hi Ha j; rewrite /act_of /active /upd; case: eqP => // ->.
by move: Hi; rewrite /act_of /active Ha => /andP[-> ->].
Qed.
Lemma good_upd1 a : act alpha i -> 0 < a -> a < acut -> forall j, act (upd alpha i a) j -> 0 < upd alpha i a j.
Proof. by move=> Hi a0 Ha j; rewrite act_upd // /upd; case: eqP => // _; apply: a_gt0. Qed.
Lemma loo_upd1 a : act alpha i -> a < acut -> Cloo p Phi acut kcut KtK (upd alpha i a) i = Cloo p Phi acut kcut KtK alpha i.
Proof.
move=> Hi Ha; apply: eq_Cov => j /=; first by rewrite -[act_of _ _ _ _ _]/(act (upd alpha i a) j) act_upd.
by rewrite /upd => /andP[]; case: eqP.
Qed.
Lemma ev_upd1 a : act alpha i -> 0 < a -> a < acut ->
  evid (upd alpha i a) = gauss_ln (Cloo p Phi acut kcut KtK alpha i) t + gain s q a / 2%:R.
Proof.
move=> Hi a0 Ha; rewrite (ev_loo Phi t p_gt0 i (good_upd1 Hi a0 Ha)) loo_upd1 // /cur act_upd // Hi.
by rewrite /sl /ql loo_upd1 // /upd eqxx.
Qed.
Lemma alpha_derE : act alpha i -> alpha_der chol pinvh expand acut kcut beta KtK y alpha i =
  (1 / alpha i - 1 / (alpha i + s) + q ^+ 2 * (- 1 / (alpha i + s) ^+ 2)) * 2%:R^-1.
Proof.
move=> Hi; have Ha := a_gt0 Hi; have Has := as_gt0 Phi p_gt0 a_gt0 i Ha.
rewrite /alpha_der (weightsE Hchol Hpinvh p_gt0 HG Hy b_gt0 a_gt0) Hi [X in _ * X]div1r; congr (_ * _).
rewrite -ad_val ?gt_eqF //; congr (_ + _ - _).
rewrite (big_pred1 (enum_rank_in Hi i)) => [|k]; last first.
  by rewrite -[pred1 _ k]/(k == enum_rank_in Hi i) -(inj_eq enum_val_inj) enum_rankK_in.
rewrite (diag_SinvE Hchol Hpinvh p_gt0 HG b_gt0 a_gt0) enum_rankK_in // /cfac.
by case: expand; rewrite ?mul1r // mulNr mulrAC divff ?pnatr_eq0 // mul1r.
Qed.
Lemma ev_alpha_der : act alpha i ->
  der (fun a => evid (upd alpha i a)) (alpha i) (alpha_der chol pinvh expand acut kcut beta KtK y alpha i).
Proof.
move=> Hi; have Ha := a_gt0 Hi; have [H1 _] := andP Hi; rewrite alpha_derE //.
have D : der (fun a => gauss_ln (Cloo p Phi acut kcut KtK alpha i) t + gain s q a / 2%:R) (alpha i)
   (0 + (1 / alpha i - 1 / (alpha i + s) + q ^+ 2 * (- 1 / (alpha i + s) ^+ 2)) * 2%:R^-1).
  apply: der_add (der_const _ _) _; rewrite mulrC.
  apply: der_ext (der_scale 2%:R^-1 (gain_der q Ha (sl_ge0 Phi p_gt0 a_gt0 i))) => a; exact: mulrC.
by rewrite add0r in D; apply: der_near (Ha) (H1) _ D => a a0 a1; apply: ev_upd1.
Qed.
(* the derivative in terms of gamma (L365-367); it vanishes at the fixed point alpha = gamma / w^2 of L373 *)
Lemma alpha_der_gamma (k : 'I_#|act alpha|) : enum_val k = i -> let w := weights chol pinvh expand acut kcut beta KtK y alpha i 0 in
  alpha_der chol pinvh expand acut kcut beta KtK y alpha i = (gamma chol pinvh expand beta k / alpha i - w ^+ 2) / 2%:R.
Proof.
move=> Ek w; have Hi : act alpha i by rewrite -Ek; apply: (enum_valP k).
have Ha := a_gt0 Hi; have Has := as_gt0 Phi p_gt0 a_gt0 i Ha.
rewrite alpha_derE //; congr (_ * _).
have -> : gamma chol pinvh expand beta k = 1 - alpha i / (alpha i + s).
  rewrite /gamma (diag_SinvE Hchol Hpinvh p_gt0 HG b_gt0 a_gt0) Ek /cfac; congr (_ - _ * _).
  by case: expand; rewrite ?mul1r // mulrAC divff ?pnatr_eq0 // mul1r.
rewrite -ad_gamma ?gt_eqF // !div1r mulN1r mulrN; congr (_ - _).
by rewrite /w (weightsE Hchol Hpinvh p_gt0 HG Hy b_gt0 a_gt0) Hi expr_div_n.
Qed.
Lemma alpha_der_inact : ~~ act alpha i -> alpha_der chol pinvh expand acut kcut beta KtK y alpha i = 1 / alpha i / 2%:R.
Proof.
move=> Hi; rewrite /alpha_der (weightsE Hchol Hpinvh p_gt0 HG Hy b_gt0 a_gt0) (negbTE Hi) mulr0 subr0 [X in _ * X]div1r.
rewrite big_pred0 => [|k]; last by apply/negbTE/eqP => E; move: Hi; rewrite -E => /negP; apply; apply: (enum_valP k).
by rewrite oppr0; case: expand; rewrite ?mul0r add0r.
Qed.
End Core.

Section Real.
Variables (chol : forall m, 'M[RR]_m -> option 'M[RR]_m) (pinvh : forall m, 'M[RR]_m -> 'M[RR]_m).
Hypotheses (Hchol : chol_ok chol) (Hpinvh : pinvh_ok pinvh).
Variables (n : nat) (acut kcut : RR).
(* real parameters, QGPSLearningExp *)
Theorem C83_exp_partial (ranks : seq (seq (lrow RR n))) alpha i :
  let rows := [seq [seq lr r | r <- rk] | rk <- ranks] in let KtK := KtK_of idm rows in
  all (fun r => 0 < fs (lr r)) (flatten ranks) -> all (fun r => lw r == 1) (flatten ranks) ->
  (forall j, act_of acut kcut KtK alpha j -> 0 < alpha j) -> act_of acut kcut KtK alpha i ->
  der (fun a => exp_log_marg_lik rln PI chol pinvh acut kcut ranks (upd alpha i a)) (alpha i)
      (alpha_der chol pinvh false acut kcut 1 KtK (y_of idm rows) alpha i).
Proof.
move=> rows KtK Hs Hw Ha Hi.
have Ed : flatten rows = [seq lr r | r <- flatten ranks] by rewrite /rows -map_flatten.
have Hs' : all (fun r => 0 < fs r) (flatten rows) by rewrite Ed all_map.
have := ev_alpha_der Hchol Hpinvh (rp_gt0 ltr01 Hs') (rHG 1 rows) (rHy 1 rows) ltr01 Ha Hi.
have [H1 _] := andP Hi; apply: der_near (Ha i Hi) (H1) _ => a a0 a1.
rewrite (C82_exp Hchol Hpinvh) //; last by apply: good_upd1.
by rewrite -Ed.
Qed.
(* real parameters, QGPSLogSpaceFit *)
Theorem C83_log_partial noise (ranks : seq (seq (frow RR n))) alpha i :
  let KtK := KtK_of idm ranks in
  0 < noise -> all (fun r => fs r == 1) (flatten ranks) ->
  (forall j, act_of acut kcut KtK alpha j -> 0 < alpha j) -> act_of acut kcut KtK alpha i ->
  der (fun a => log_log_marg_lik rln PI chol pinvh acut kcut false noise (1 / noise) ranks (upd alpha i a)) (alpha i)
      (alpha_der chol pinvh false acut kcut (1 / noise) KtK (y_of idm ranks) alpha i).
Proof.
move=> KtK n0 Hs Ha Hi; have b0 : 0 < 1 / noise by rewrite div1r invr_gt0.
have Hs' : all (fun r => 0 < fs r) (flatten ranks) by apply: sub_all Hs => r /eqP ->; exact: ltr01.
have := ev_alpha_der Hchol Hpinvh (rp_gt0 b0 Hs') (rHG _ ranks) (rHy _ ranks) b0 Ha Hi.
have [H1 _] := andP Hi; apply: der_near (Ha i Hi) (H1) _ => a a0 a1.
by rewrite (C82_log Hchol Hpinvh) //; apply: good_upd1.
Qed.
(* complex parameters with complex_expand *)
Theorem C83_expand_partial (ranks : seq (seq (crow RR n))) alpha i :
  all (fun r => 0 < cs r) (flatten ranks) -> all (fun r => cw r == 1) (flatten ranks) ->
  (forall j, act_of acut kcut (cKtK ranks) alpha j -> 0 < alpha j) -> act_of acut kcut (cKtK ranks) alpha i ->
  der (fun a => expx_log_marg_lik rln PI chol pinvh acut kcut ranks (upd alpha i a)) (alpha i)
      (alpha_der chol pinvh true acut kcut 1 (cKtK ranks) (cy ranks) alpha i).
Proof.
move=> Hs Hw Ha Hi.
have := ev_alpha_der Hchol Hpinvh (cp_gt0 ltr01 Hs) (cHG 1 ranks) (cHy 1 ranks) ltr01 Ha Hi.
have [H1 _] := andP Hi; apply: der_near (Ha i Hi) (H1) _ => a a0 a1.
by rewrite (C82_expand Hchol Hpinvh) //; apply: good_upd1.
Qed.
(* an inactive feature: log_marg_lik does not depend on its precision, the code returns 1 / (2 alpha) *)
Theorem C83_inactive (ranks : seq (seq (lrow RR n))) alpha i :
  let rows := [seq [seq lr r | r <- rk] | rk <- ranks] in let KtK := KtK_of idm rows in
  all (fun r => 0 < fs (lr r)) (flatten ranks) -> all (fun r => lw r == 1) (flatten ranks) ->
  (forall j, act_of acut kcut KtK alpha j -> 0 < alpha j) -> `|KtK i i| <= kcut \/ acut < alpha i ->
  der (fun a => exp_log_marg_lik rln PI chol pinvh acut kcut ranks (upd alpha i a)) (alpha i) 0 /\
  alpha_der chol pinvh false acut kcut 1 KtK (y_of idm rows) alpha i = 1 / alpha i / 2%:R.
Proof.
move=> rows KtK Hs Hw Ha Hi.
have Ed : flatten rows = [seq lr r | r <- flatten ranks] by rewrite /rows -map_flatten.
have Hs' : all (fun r => 0 < fs r) (flatten rows) by rewrite Ed all_map.
have Ni : act_of acut kcut KtK alpha i = false.
  by rewrite /act_of /active /valid_kern; case: Hi => H; rewrite !ltNge ?H ?andbF // ltW.
split; last by rewrite (alpha_der_inact Hchol Hpinvh (rp_gt0 ltr01 Hs') (rHG 1 rows) (rHy 1 rows) ltr01 Ha) // Ni.
have [lo [hi [L1 L2 L3]]] : exists lo hi, [/\ lo < alpha i, alpha i < hi & forall a, lo < a -> a < hi ->
    act_of acut kcut KtK (upd alpha i a) =1 act_of acut kcut KtK alpha].
  case: Hi => H.
    exists (alpha i - 1), (alpha i + 1); split; rewrite ?ltr_addl ?ltr01 //; first by rewrite ltr_subl_addr ltr_addl ltr01.
    move=> a _ _ j; rewrite /act_of /active /upd; case: eqP => // ->.
    by have -> : valid_kern kcut KtK i = false; [rewrite /valid_kern ltNge H | rewrite !andbF].
  exists acut, (alpha i + 1); split; rewrite ?ltr_addl ?ltr01 // => a a1 _ j.
  by rewrite /act_of /active /upd; case: eqP => // ->; rewrite !ltNge (ltW a1) (ltW H).
apply: der_near (L1) (L2) _ (der_const (exp_log_marg_lik rln PI chol pinvh acut kcut ranks alpha) (alpha i)) => a a1 a2.
have U j : act_of acut kcut KtK alpha j -> upd alpha i a j = alpha j.
  by rewrite /upd; case: eqP => // ->; rewrite Ni.
rewrite !(C82_exp Hchol Hpinvh) //; last first.
  by move=> j; rewrite L3 // => Hj; rewrite U //; apply: Ha.
rewrite /model_evidence; congr gauss_ln; apply: eq_Cov => j; rewrite L3 //; exact: U.
Qed.
End Real.

(* a feature below the kernel cutoff: K = 1, kern_cutoff 2, alpha = 1; the code returns 1/2 *)
Theorem C83_refuted : exists (ranks : seq (seq (lrow RR 1))) (alpha : 'I_1 -> RR) (i : 'I_1),
  [/\ all (fun r => 0 < fs (lr r)) (flatten ranks), all (fun r => lw r == 1) (flatten ranks), forall j, 0 < alpha j &
  forall chol pinvh, chol_ok chol -> pinvh_ok pinvh ->
  let rows := [seq [seq lr r | r <- rk] | rk <- ranks] in
  der (fun a => exp_log_marg_lik rln PI chol pinvh 10%:R 2%:R ranks (upd alpha i a)) (alpha i) 0 /\
  alpha_der chol pinvh false 10%:R 2%:R 1 (KtK_of idm rows) (y_of idm rows) alpha i != 0].
Proof.
exists [:: [:: LRow r_row 1]], r_alpha, ord0; split; rewrite /= ?ltr01 ?eqxx //.
  by move=> j; exact: ltr01.
move=> chol pinvh H1 H2.
have K : `|rK ord0 ord0| <= 2%:R by rewrite rKE normr1 ler1n.
have [||||D ->] := @C83_inactive chol pinvh H1 H2 1 10%:R 2%:R [:: [:: LRow r_row 1]] r_alpha ord0.
- by rewrite /= ltr01.
- by rewrite /= eqxx.
- by move=> j _; exact: ltr01.
- by left.
by split=> //; rewrite /r_alpha; numq RR.
Qed.
(* K = 1, target 2, alpha = 1: (1 - 1/2 - (2/2)^2) / 2 = -1/4 *)
Example C83_ex : der (fun a => exp_log_marg_lik rln PI chol1 (fun m A => invmx A) 10%:R 0 [:: [:: LRow r_row 1]] (upd r_alpha ord0 a)) 1 (- 4%:R^-1).
Proof.
have A : forall j, act_of 10%:R 0 rK r_alpha j -> 0 < r_alpha j by move=> j _; exact: ltr01.
have Ai : act_of 10%:R 0 rK r_alpha ord0 by rewrite r_act /r_alpha; numq RR.
have P1 : all (fun r => 0 < fs (lr r)) (flatten [:: [:: LRow r_row 1]]) by rewrite /= ltr01.
have P2 : all (fun r => lw r == 1) (flatten [:: [:: LRow r_row (1 : RR)]]) by rewrite /= eqxx.
apply: der_eq (@C83_exp_partial chol1 _ chol1_ok invmx_ok 1 10%:R 0 [:: [:: LRow r_row 1]] r_alpha ord0 P1 P2 A Ai) _.
rewrite (alpha_derE chol1_ok invmx_ok (rp_gt0 ltr01 r_pos) (rHG 1 r_ranks) (rHy 1 r_ranks) ltr01 A Ai).
have a0 : 0 < r_alpha ord0 by exact: ltr01.
by have [-> ->] := r_sl ltr01 a0 ord0; rewrite /r_alpha; numq RR.
Qed.
