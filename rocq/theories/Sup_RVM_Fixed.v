(* C85: fixed points of the hyperparameter iteration are the stationary points of log_marg_lik. *)
From Coq Require Import Reals Lra.
From Verif Require Import Base Fld Numq Rstruct Calc Sup_Model Sup_Fit_Model Sup_Ev_Alg Sup_RVM_Model Sup_RVM_Core Sup_RVM_Ev Sup_RVM_Marg Sup_RVM_Step Sup_RVM_Props Sup_RVM_Der Sup_RVM_Noise_Model Sup_RVM_Noise Sup_RVM_AlphaDer Sup_RVM_Hyper_Model Sup_RVM_Hyper Sup_RVM_Hyper_Props.
Import Num.Theory Order.TTheory.
Local Open Scope ring_scope.

Section Field.
Variable F : fieldType.
Add Field FFix : (f_theory F).
Lemma fx_g (a s : F) : a + s != 0 -> a * s / (a + s) = a * (1 - a / (a + s)).
Proof. by move=> /eqP H; mfield F. Qed.
Lemma fx_sum (a g w : F) : a != 0 -> a * g / a ^+ 2 - a ^+ 2 * w / a ^+ 2 = g / a - w.
Proof. by rewrite !expr2 => /eqP H; mfield F. Qed.
Lemma fx_beta (N g s b h : F) : (- N / (1 / b) - - (g / (1 / b)) - - s / (1 / b) ^+ 2) * (1 / h) = b * (s * b - (N - g)) / h.
Proof. by rewrite !div1r -exprVn !invrK expr2; move: h^-1 => k; mfield F. Qed.
End Field.

(* the quotient clipped to [0, cutoff] is the old value iff the balance vanishes *)
Lemma clip_fixed (acut g d a x : RR) : 0 < g -> 0 <= d -> 0 < a -> a < acut -> clip_div acut g d = Some x ->
  (x = a <-> (g / a - d) / 2%:R = 0).
Proof.
move=> g0 d0 a0 ac; have t0 : 2%:R != 0 :> RR by rewrite pnatr_eq0.
have -> : ((g / a - d) / 2%:R = 0) <-> (g = d * a).
  split=> [/eqP|->]; last by rewrite mulfK ?gt_eqF // subrr mul0r.
  by rewrite mulf_eq0 invr_eq0 (negbTE t0) orbF subr_eq0 => /eqP <-; rewrite divfK // gt_eqF.
rewrite /clip_div (gt_eqF g0) g0; case: eqP => [-> [<-]|/eqP dn [<-]].
  by rewrite mul0r; split=> [E|E]; [move: ac; rewrite -E ltxx | move: g0; rewrite E ltxx].
have dp : 0 < d by rewrite lt_neqAle eq_sym dn.
have gd : 0 < g / d by rewrite divr_gt0.
rewrite /clip max_l ?ltW //; split=> [E|->]; last by rewrite mulrC mulKf // min_l // ltW.
move: E; case: (lerP (g / d) acut) => H E; last by move: ac; rewrite -E ltxx.
by rewrite -E mulrC divfK.
Qed.

Section Core.
Variables (chol : forall m, 'M[RR]_m -> option 'M[RR]_m) (pinvh : forall m, 'M[RR]_m -> 'M[RR]_m).
Hypotheses (Hchol : chol_ok chol) (Hpinvh : pinvh_ok pinvh).
Variables (N n : nat) (p : RR -> 'I_N -> RR) (Phi : 'M[RR]_(N, n)) (t : 'cV[RR]_N).
Hypothesis p_gt0 : forall b i, 0 < b -> 0 < p b i.
Variables (expand : bool) (acut kcut : RR) (KtK : 'M[RR]_n) (y : 'cV[RR]_n).
Notation c := (cfac RR expand).
Hypothesis HG : forall b, (c * b) *: KtK = gram (p b) Phi.
Hypothesis Hy : forall b, (c * b) *: y = gvec (p b) Phi t.
Hypotheses (k0 : 0 <= kcut) (c0 : 0 < acut).
Notation act alpha := (act_of acut kcut KtK alpha).
Variable st : hyper RR n.
Hypotheses (Hf : fresh st) (Hp : positive st) (Hc : h_chol chol pinvh expand acut kcut KtK st).
Notation alpha := (h_alpha st).
Notation beta := (h_beta st).
Notation w := (weights chol pinvh expand acut kcut beta KtK y alpha).
Let pb i : 0 < p beta i. Proof. exact: p_gt0 Hp.2. Qed.
Let pa j : act alpha j -> 0 < alpha j. Proof. by move=> _; apply: Hp.1. Qed.
Let gp i : act alpha i -> 0 < h_gamma chol pinvh expand acut kcut KtK st i.
Proof. by move=> Hi; apply: (gamma_gt0 Hchol Hpinvh p_gt0 HG Hf Hp Hi); apply: (act_col HG k0 Hi). Qed.

Lemma der_h_gamma i : act alpha i -> alpha_der chol pinvh expand acut kcut beta KtK y alpha i =
  (h_gamma chol pinvh expand acut kcut KtK st i / alpha i - w i 0 * w i 0) / 2%:R.
Proof.
move=> Hi; have Ek : enum_val (enum_rank_in Hi i) = i by rewrite enum_rankK_in.
rewrite (alpha_der_gamma Hchol Hpinvh pb (HG beta) (Hy beta) Hp.2 pa Ek) expr2; congr ((_ / _ - _) / _).
rewrite (gammaE Hchol Hpinvh pb (HG beta) Hp.2 pa) (h_gammaE Hchol Hpinvh p_gt0 HG Hf Hp Hi).
have := gammaE Hchol Hpinvh pb (HG beta) Hp.2 pa (enum_rank_in Hi i) => <-.
rewrite /gamma (diag_SinvE Hchol Hpinvh pb (HG beta) Hp.2 pa) Ek /cfac; congr (_ - _ * _).
by case: expand; rewrite ?mul1r // mulrAC divff ?pnatr_eq0 // mul1r.
Qed.
Lemma rvm_fixed a i : alpha_update chol pinvh expand acut kcut KtK y true st = Some a -> act alpha i ->
  (a i = alpha i <-> alpha_der chol pinvh expand acut kcut beta KtK y alpha i = 0).
Proof.
rewrite /alpha_update Hc; case: ifP => // /forallP/(_ i) Hsome [<-] Hi; rewrite der_h_gamma //.
move: Hsome; rewrite /alpha_entry (h_actE _ _ _ Hf) Hi (h_wE _ _ _ _ _ _ _ Hf).
case E: (clip_div _ _ _) => [x|] // _ /=.
apply: clip_fixed E; rewrite ?gp // ?Hp.1 //; first by rewrite -expr2 sqr_ge0.
by case/andP: Hi.
Qed.
(* a shared precision *)
Lemma shared_fixed a a0 i : (forall j, alpha j = a0) -> alpha_update chol pinvh expand acut kcut KtK y false st = Some a -> act alpha i ->
  (a i = a0 <-> der (fun x => evidence (p beta) Phi t acut kcut KtK (fun=> x)) a0 0).
Proof.
move=> Ea; have a0p : 0 < a0 by rewrite -(Ea i) Hp.1.
rewrite /alpha_update Hc; case: ifP => // /forallP/(_ i) Hsome [<-] Hi.
have ac : a0 < acut by rewrite -(Ea i); case/andP: Hi.
set sg := sum_gamma chol pinvh expand acut kcut KtK st; set sw := \sum_j w j 0 * w j 0.
suff D : der (fun x => evidence (p beta) Phi t acut kcut KtK (fun=> x)) a0 ((sg / a0 - sw) / 2%:R).
  have -> : der (fun x => evidence (p beta) Phi t acut kcut KtK (fun=> x)) a0 0 <-> (sg / a0 - sw) / 2%:R = 0.
    by split=> [H|H]; [exact: der_unique D H | apply: der_eq D H].
  move: Hsome; rewrite /alpha_entry (h_wE _ _ _ _ _ _ _ Hf) -/sw -/sg.
  case E: (clip_div _ _ _) => [x|] // _ /=; apply: clip_fixed (a0p) ac E.
    rewrite /sg /sum_gamma (h_actE _ _ _ Hf) (bigD1 i) //= ltr_spaddl ?gp // sumr_ge0 // => j /andP[Hj _].
    by rewrite ltW // gp.
  by apply: sumr_ge0 => j _; rewrite -expr2 sqr_ge0.
have D := @ev_shared_der _ _ (p beta) Phi t (act alpha) a0 pb a0p.
apply: der_near (a0p) (ac) _ (der_eq D _) => [x x0 x1|].
  rewrite /evidence; congr gauss_ln; apply: eq_Cov => // j.
  by rewrite /act_of /active x1 Ea ac.
have Ca : Cov (p beta) Phi (act alpha) (fun=> a0) = Cov (p beta) Phi (act alpha) alpha by apply: eq_Cov.
have as0 j : act alpha j -> a0 + sl (p beta) Phi acut kcut KtK alpha j != 0.
  by move=> Hj; rewrite gt_eqF // (as_gt0 Phi pb pa j a0p).
have E1 : \sum_(j | act alpha j) bilf (invmx (Cov (p beta) Phi (act alpha) (fun=> a0))) (col j Phi) (col j Phi) = a0 * sg.
  rewrite /sg /sum_gamma (h_actE _ _ _ Hf) mulr_sumr; apply: eq_bigr => j Hj; rewrite (h_gammaE Hchol Hpinvh p_gt0 HG Hf Hp Hj) Ea -fx_g ?as0 //.
  have := Sc_act Hchol Hpinvh pb (HG beta) Hp.2 pa Hj.
  rewrite (S_ofE Hchol Hpinvh pb (HG beta) Hp.2 pa) [cfac _ _ * _]mulrC divfK ?c_neq0 // Ca Ea //.
have E2 : \sum_(j | act alpha j) bilf (invmx (Cov (p beta) Phi (act alpha) (fun=> a0))) (col j Phi) t ^+ 2 = a0 ^+ 2 * sw.
  rewrite /sw mulr_sumr [RHS](bigID (act alpha)) /= [X in _ = _ + X]big1 ?addr0 => [|j Nj]; last first.
    by rewrite (weightsE Hchol Hpinvh pb (HG beta) (Hy beta) Hp.2 pa) (negbTE Nj) !mulr0.
  apply: eq_bigr => j Hj; rewrite -expr2 -exprMn; congr (_ ^+ 2).
  rewrite (weightsE Hchol Hpinvh pb (HG beta) (Hy beta) Hp.2 pa) Hj Ea mulrA.
  have := Qc_act Hchol Hpinvh pb (HG beta) (Hy beta) Hp.2 pa Hj.
  rewrite (Q_ofE Hchol Hpinvh pb (HG beta) (Hy beta) Hp.2 pa) [cfac _ _ * _]mulrC divfK ?c_neq0 // Ca Ea //.
by rewrite E1 E2 fx_sum // gt_eqF.
Qed.
End Core.

Section Props.
Variables (chol : forall m, 'M[RR]_m -> option 'M[RR]_m) (pinvh : forall m, 'M[RR]_m -> 'M[RR]_m).
Hypotheses (Hchol : chol_ok chol) (Hpinvh : pinvh_ok pinvh).
Variables (n : nat) (acut kcut : RR).
Hypotheses (k0 : 0 <= kcut) (c0 : 0 < acut).
Lemma der0 f x l : der f x l -> (l = 0 <-> der f x 0).
Proof. by move=> D; split=> [H|H]; [apply: der_eq D H | exact: der_unique D H]. Qed.

(* QGPSLogSpaceFit: individual precisions (rvm), one shared precision, and the noise *)
Section Log.
Variables (ranks : seq (seq (frow RR n))) (alpha : 'I_n -> RR) (beta : RR).
Notation KtK := (KtK_of idm ranks).
Notation y := (y_of idm ranks).
Notation st := (Hyper alpha beta alpha beta).
Notation lik v al := (log_log_marg_lik rln PI chol pinvh acut kcut false v (1 / v) ranks al).
Hypotheses (Hs : all (fun r => fs r == 1) (flatten ranks)) (Ha : forall i, 0 < alpha i) (Hb : 0 < beta).
Hypothesis Hc : h_chol chol pinvh false acut kcut KtK st.
Let Hp : positive st. Proof. by []. Qed.
Let Hf : fresh st. Proof. by []. Qed.
Let p0 b i : 0 < b -> 0 < @prec _ b (flatten ranks) i. Proof. by move=> b0; apply: (rp_gt0 b0 (s1_gt0 Hs)). Qed.
Theorem C85_rvm_log a i : alpha_update chol pinvh false acut kcut KtK y true st = Some a -> act_of acut kcut KtK alpha i ->
  (a i = alpha i <-> der (fun x => lik (1 / beta) (upd alpha i x)) (alpha i) 0).
Proof.
move=> E Hi; have nu0 : 0 < 1 / beta by rewrite div1r invr_gt0.
rewrite (rvm_fixed Hchol Hpinvh p0 (fun b => rHG b ranks) (fun b => rHy b ranks) k0 Hf Hp Hc E Hi) /=.
have := C83_log_partial Hchol Hpinvh nu0 Hs (fun j _ => Ha j) Hi.
by rewrite !div1r invrK; apply: der0.
Qed.
Theorem C85_shared_log a a0 i : (forall j, alpha j = a0) ->
  alpha_update chol pinvh false acut kcut KtK y false st = Some a -> act_of acut kcut KtK alpha i ->
  (a i = a0 <-> der (fun x => lik (1 / beta) (fun=> x)) a0 0).
Proof.
move=> Ea E Hi; have a0p : 0 < a0 by rewrite -(Ea i).
rewrite (shared_fixed Hchol Hpinvh p0 (fun b => rHG b ranks) (fun b => rHy b ranks) k0 Hf Hp Hc Ea E Hi) /=.
have h1 : a0 < a0 + 1 by rewrite ltr_addl ltr01.
have nu0 : 0 < 1 / beta by rewrite div1r invr_gt0.
have Q x : 0 < x -> x < a0 + 1 -> evidence (@prec _ beta (flatten ranks)) (design (flatten ranks)) (targets (flatten ranks)) acut kcut KtK (fun=> x) =
  lik (1 / beta) (fun=> x) by move=> x0 _; rewrite (C82_log Hchol Hpinvh) // !div1r invrK.
split=> D; apply: der_near (a0p) (h1) _ D => x x0 x1; first by rewrite -Q.
by rewrite Q.
Qed.
Theorem C85_beta b : has (fun r => fy r != 0) (flatten ranks) ->
  beta_update chol pinvh false acut kcut KtK y ranks st = Some b ->
  (b = beta <-> der (fun v => lik v alpha) (1 / beta) 0).
Proof.
move=> Ht; rewrite (beta_updateE Hchol Hpinvh Hs Hf Hp) // => -[<-].
have nu0 : 0 < 1 / beta by rewrite div1r invr_gt0.
rewrite -(der0 (C86_partial Hchol Hpinvh Hs (fun j _ => Ha j) nu0)) /log_noise_der fst_pred c86_field; last by rewrite gt_eqF.
have Ib : 1 / (1 / beta) = beta by rewrite !div1r invrK.
rewrite Ib -(sum_gammaE Hchol Hpinvh p0 acut kcut (fun b => rHG b ranks) Hf Hp) /=.
set g := sum_gamma chol pinvh false acut kcut KtK st.
have -> : \sum_(rk <- with_pred chol pinvh acut kcut ranks alpha (1 / beta)) (size rk)%:R = (size (flatten ranks))%:R :> RR.
  by rewrite /with_pred big_map; under eq_bigr do rewrite size_map; rewrite size_flatten sumnE big_map natr_sum.
have -> : \sum_(rk <- with_pred chol pinvh acut kcut ranks alpha (1 / beta)) \sum_(x <- rk) `|fy x.1 - x.2| ^+ 2 = sqe chol pinvh acut kcut ranks st.
  by rewrite /with_pred Ib /sqe big_map big_flatten; apply: eq_bigr => rk _; rewrite big_map.
have s0 := sqe_gt0 Hchol Hpinvh acut kcut Hs Hp Ht.
move: (sqe _ _ _ _ _ _) s0 => s s0; set Nd := (size _)%:R.
have b0 : beta != 0 by rewrite gt_eqF.
rewrite fx_beta.
split=> [<-|/eqP].
  by rewrite [s * _]mulrC divfK ?gt_eqF // subrr mulr0 mul0r.
rewrite !mulf_eq0 invr_eq0 pnatr_eq0 orbF (negbTE b0) /= subr_eq0 => /eqP <-.
by rewrite mulrC mulKf // gt_eqF.
Qed.
End Log.

(* QGPSLearningExp, real parameters; self.beta = 1 *)
Section Exp.
Variables (ranks : seq (seq (lrow RR n))) (alpha : 'I_n -> RR).
Notation rows := [seq [seq lr r | r <- rk] | rk <- ranks].
Notation KtK := (KtK_of idm rows).
Notation y := (y_of idm rows).
Notation st := (Hyper alpha 1 alpha 1).
Hypotheses (Hs : all (fun r => 0 < fs (lr r)) (flatten ranks)) (Hw : all (fun r => lw r == 1) (flatten ranks)).
Hypotheses (Ha : forall i, 0 < alpha i) (Hc : h_chol chol pinvh false acut kcut KtK st).
Let Hp : positive st. Proof. by split=> //; exact: ltr01. Qed.
Let Hf : fresh st. Proof. by []. Qed.
Let Ed : flatten rows = [seq lr r | r <- flatten ranks]. Proof. by rewrite -map_flatten. Qed.
Let p0 b i : 0 < b -> 0 < @prec _ b (flatten rows) i.
Proof. by move=> b0; apply: (rp_gt0 b0); rewrite Ed all_map. Qed.
Theorem C85_rvm_exp a i : alpha_update chol pinvh false acut kcut KtK y true st = Some a -> act_of acut kcut KtK alpha i ->
  (a i = alpha i <-> der (fun x => exp_log_marg_lik rln PI chol pinvh acut kcut ranks (upd alpha i x)) (alpha i) 0).
Proof.
move=> E Hi.
rewrite (rvm_fixed Hchol Hpinvh p0 (fun b => rHG b rows) (fun b => rHy b rows) k0 Hf Hp Hc E Hi) /=.
exact: der0 (C83_exp_partial Hchol Hpinvh Hs Hw (fun j _ => Ha j) Hi).
Qed.
Theorem C85_shared_exp a a0 i : (forall j, alpha j = a0) ->
  alpha_update chol pinvh false acut kcut KtK y false st = Some a -> act_of acut kcut KtK alpha i ->
  (a i = a0 <-> der (fun x => exp_log_marg_lik rln PI chol pinvh acut kcut ranks (fun=> x)) a0 0).
Proof.
move=> Ea E Hi; have a0p : 0 < a0 by rewrite -(Ea i).
rewrite (shared_fixed Hchol Hpinvh p0 (fun b => rHG b rows) (fun b => rHy b rows) k0 Hf Hp Hc Ea E Hi) /=.
have h1 : a0 < a0 + 1 by rewrite ltr_addl ltr01.
have Q x : 0 < x -> x < a0 + 1 -> evidence (@prec _ 1 (flatten rows)) (design (flatten rows)) (targets (flatten rows)) acut kcut KtK (fun=> x) =
  exp_log_marg_lik rln PI chol pinvh acut kcut ranks (fun=> x) by move=> x0 _; rewrite (C82_exp Hchol Hpinvh) // -Ed.
split=> D; apply: der_near (a0p) (h1) _ D => x x0 x1; first by rewrite -Q.
by rewrite Q.
Qed.
End Exp.

(* QGPSLearningExp with complex_expand *)
Section Expand.
Variables (ranks : seq (seq (crow RR n))) (alpha : 'I_(n + n) -> RR).
Notation KtK := (cKtK ranks).
Notation y := (cy ranks).
Notation st := (Hyper alpha 1 alpha 1).
Hypotheses (Hs : all (fun r => 0 < cs r) (flatten ranks)) (Hw : all (fun r => cw r == 1) (flatten ranks)).
Hypotheses (Ha : forall i, 0 < alpha i) (Hc : h_chol chol pinvh true acut kcut KtK st).
Let Hp : positive st. Proof. by split=> //; exact: ltr01. Qed.
Let Hf : fresh st. Proof. by []. Qed.
Let p0 b i : 0 < b -> 0 < @cprec _ b (flatten ranks) i. Proof. by move=> b0; apply: (cp_gt0 b0). Qed.
Theorem C85_rvm_expand a i : alpha_update chol pinvh true acut kcut KtK y true st = Some a -> act_of acut kcut KtK alpha i ->
  (a i = alpha i <-> der (fun x => expx_log_marg_lik rln PI chol pinvh acut kcut ranks (upd alpha i x)) (alpha i) 0).
Proof.
move=> E Hi.
rewrite (rvm_fixed Hchol Hpinvh p0 (fun b => cHG b ranks) (fun b => cHy b ranks) k0 Hf Hp Hc E Hi) /=.
exact: der0 (C83_expand_partial Hchol Hpinvh Hs Hw (fun j _ => Ha j) Hi).
Qed.
Theorem C85_shared_expand a a0 i : (forall j, alpha j = a0) ->
  alpha_update chol pinvh true acut kcut KtK y false st = Some a -> act_of acut kcut KtK alpha i ->
  (a i = a0 <-> der (fun x => expx_log_marg_lik rln PI chol pinvh acut kcut ranks (fun=> x)) a0 0).
Proof.
move=> Ea E Hi; have a0p : 0 < a0 by rewrite -(Ea i).
rewrite (shared_fixed Hchol Hpinvh p0 (fun b => cHG b ranks) (fun b => cHy b ranks) k0 Hf Hp Hc Ea E Hi) /=.
have h1 : a0 < a0 + 1 by rewrite ltr_addl ltr01.
have Q x : 0 < x -> x < a0 + 1 -> evidence (@cprec _ 1 (flatten ranks)) (cdesign (flatten ranks)) (ctargets (flatten ranks)) acut kcut KtK (fun=> x) =
  expx_log_marg_lik rln PI chol pinvh acut kcut ranks (fun=> x) by move=> x0 _; rewrite (C82_expand Hchol Hpinvh).
split=> D; apply: der_near (a0p) (h1) _ D => x x0 x1; first by rewrite -Q.
by rewrite Q.
Qed.
(* C88 with complex parameters; the noise is not optimised, [rk] is not read *)
Theorem C88_expand m (rk : seq (seq (frow RR m))) tol (opt_alpha rvm : bool) fuel max (sta : hyper RR (n + n)) :
  h_sa sta = h_alpha sta -> h_sb sta = h_beta sta -> (forall i, 0 < h_alpha sta i) -> 0 < h_beta sta ->
  match opt_alpha_beta chol pinvh true acut kcut tol KtK y rk opt_alpha false rvm fuel max sta with
  | Done st' => [/\ forall i, 0 < h_alpha st' i, 0 < h_beta st' & (forall i, h_alpha sta i <= acut) -> forall i, h_alpha st' i <= acut]
  | Bad => False
  | More => if max is Some k then (fuel < k)%N else true
  end.
Proof.
move=> E1 E2 A0 B0; rewrite /opt_alpha_beta; case: ifP => [|_]; last by split.
case/andP => _ Hm.
have M := @passes_end _ chol pinvh _ true acut kcut tol KtK y m rk opt_alpha false rvm fuel.
have : sane acut sta (passes chol pinvh true acut kcut tol KtK y rk opt_alpha false rvm fuel max 0 sta).
  apply: (@passesP chol pinvh Hchol Hpinvh _ _ (fun b => @cprec _ b (flatten ranks)) (cdesign (flatten ranks))) => //.
  by move=> b; apply: cHG.
case E: (passes _ _ _ _ _ _ _ _ _ _ _ _ _ _ _ _) => [st'| |] //=; first by case=> [[A1 B1] _ _ L].
case: max Hm E => // k /=; rewrite -ltnNge => k1 E _; rewrite ltnNge; apply/negP => H.
by apply: M k1 E; rewrite add0n.
Qed.
End Expand.

End Props.

(* complex_expand and opt_beta: K has half as many columns as there are weights, every update fails *)
Theorem C85_expand_fails chol pinvh (acut kcut : RR) m (KtK : 'M[RR]_(m + m)) y (ranks : seq (seq (frow RR m))) st : (0 < m)%N ->
  h_chol chol pinvh true acut kcut KtK st -> beta_update chol pinvh true acut kcut KtK y ranks st = None.
Proof.
move=> m0 Hc; rewrite /beta_update Hc /sq_error; case: (flatten ranks) => [|r s] /=; first by rewrite eqxx.
by rewrite /after_setup; have -> : (m == (m + m)%N) = false by apply/negbTE/eqP; lia.
Qed.
