(* One step of the relevance vector machine: the change of the evidence (C80, C81). *)
From Coq Require Import Reals Lra.
From Verif Require Import Base Fld Rstruct Sup_Model Sup_Fit_Model Sup_Ev_Alg Sup_RVM_Model Sup_RVM_Core Sup_RVM_Ev Sup_RVM_Marg.
Import Num.Theory Order.TTheory.
Local Open Scope ring_scope.

Section Field.
Variable F : fieldType.
Add Field FS : (f_theory F).
Lemma st_ratio (a a' s : F) : a != 0 -> a' != 0 -> a + s != 0 ->
  1 + a * s / (a + s) * (1 / a' - 1 / a) = (a / (a + s)) / (a' / (a' + s)).
Proof.
move=> a0 a'0 H; case: (eqVneq (a' + s) 0) => [E|/eqP H']; last first.
  by move: a0 a'0 H => /eqP a0 /eqP a'0 /eqP H; mfield F.
rewrite E invr0 mulr0 invr0 mulr0; have -> : s = - a' by apply/eqP; rewrite -subr_eq0 opprK addrC E.
move: H; have -> : s = - a' by apply/eqP; rewrite -subr_eq0 opprK addrC E.
by move: a0 a'0 => /eqP a0 /eqP a'0 /eqP H; mfield F.
Qed.
Lemma st_quad (a a' s q : F) : a != 0 -> a' != 0 -> a + s != 0 -> a' + s != 0 -> a - a' != 0 ->
  (a * q / (a + s)) ^+ 2 / (a * s / (a + s) + 1 / (1 / a' - 1 / a)) = q ^+ 2 / (a' + s) - q ^+ 2 / (a + s).
Proof.
move=> a0 a'0 H H' E.
have -> : 1 / (1 / a' - 1 / a) = a * a' / (a - a').
  have -> : 1 / a' - 1 / a = (a - a') / (a * a') by move: a0 a'0 => /eqP a0 /eqP a'0; mfield F.
  by rewrite div1r invf_div.
have -> : a * s / (a + s) + a * a' / (a - a') = a * a * (a' + s) / ((a + s) * (a - a')).
  by move: H E => /eqP H /eqP E; mfield F.
by move: a0 a'0 H H' E; rewrite !expr2 => /eqP a0 /eqP a'0 /eqP H /eqP H' /eqP E; mfield F.
Qed.
Lemma st_del (a s q : F) : a != 0 -> a + s != 0 ->
  (a * q / (a + s)) ^+ 2 / (a * s / (a + s) - a) = - (q ^+ 2 / (a + s)).
Proof.
move=> a0 H; have -> : a * s / (a + s) - a = - (a * a / (a + s)) by move: H => /eqP H; mfield F.
by move: a0 H; rewrite !expr2 invrN => /eqP a0 /eqP H; mfield F.
Qed.
Lemma st_del1 (a s : F) : a != 0 -> a + s != 0 -> 1 - (a * s / (a + s)) / a = a / (a + s).
Proof. by move=> /eqP a0 /eqP H; mfield F. Qed.
Lemma st_opt (s q2 : F) : s != 0 -> q2 != 0 -> q2 - s != 0 -> let a := s ^+ 2 / (q2 - s) in
  a + s = s * q2 / (q2 - s) /\ a / (a + s) = s / q2.
Proof.
rewrite expr2 => /eqP s0 /eqP q0 /eqP d0 a; have E : a + s = s * q2 / (q2 - s) by rewrite /a; mfield F.
by split=> //; rewrite E /a; mfield F.
Qed.
Lemma st_qs (a s q2 : F) : s != 0 -> a + s != 0 -> q2 / (a + s) = q2 / s * (1 - a / (a + s)).
Proof. by move=> /eqP s0 /eqP H; mfield F. Qed.
Lemma st_v (s q2 v : F) : s != 0 -> q2 != 0 -> q2 / s * (1 - s / q2) - q2 / s * (1 - v) = v / (s / q2) - 1.
Proof. by move=> /eqP s0 /eqP H; mfield F. Qed.
Lemma st_add (s q2 : F) : s != 0 -> q2 != 0 -> (q2 - s) / s = q2 / s * (1 - s / q2).
Proof. by move=> /eqP s0 /eqP H; mfield F. Qed.
End Field.

Section RingAux.
Variable A : comRingType.
Add Ring RSt : (r_theory A).
Lemma gb_ring (a b c d : A) : a + b - (c + d) = b - d - (c - a).
Proof. mring A. Qed.
Lemma ev_ring (n d l x z : A) : - (n + (d + l) + (x - z)) = - (n + d + x) + (- l + z).
Proof. mring A. Qed.
End RingAux.

Lemma ev_half (F : realFieldType) (x y z : F) : - x = - y + z -> - (x / 2%:R) = - (y / 2%:R) + z / 2%:R.
Proof. by move=> E; rewrite -!mulNr E mulrDl. Qed.

(* twice the gain in evidence when a feature with leave-one-out quantities s, q gets precision a *)
Definition gain (s q a : RR) : RR := rln (a / (a + s)) + q ^+ 2 / (a + s).
Section Gain.
Variables (s q : RR).
Hypothesis s0 : 0 < s.
Lemma gainE a : 0 < a -> gain s q a = rln (a / (a + s)) + q ^+ 2 / s * (1 - a / (a + s)).
Proof.
move=> a0; rewrite /gain -st_qs //; first by rewrite gt_eqF.
by rewrite gt_eqF // addr_gt0.
Qed.
Lemma v_gt0 a : 0 < a -> 0 < a / (a + s).
Proof. by move=> a0; rewrite divr_gt0 // addr_gt0. Qed.
Lemma v_lt1 a : 0 < a -> a / (a + s) < 1.
Proof. by move=> a0; rewrite ltr_pdivr_mulr ?addr_gt0 // mul1r ltr_addl. Qed.
Lemma gain_neg a : 0 < a -> q ^+ 2 <= s -> gain s q a <= 0.
Proof.
move=> a0 Hq; rewrite gainE //; have v0 := v_gt0 a0; have v1 := v_lt1 a0.
have H : q ^+ 2 / s * (1 - a / (a + s)) <= 1 - a / (a + s).
  by apply: ler_pimull; [rewrite subr_ge0 ltW | rewrite ler_pdivr_mulr // mul1r].
by have := ler_add (rln_le_pred v0) H; rewrite addrA subrK subrr.
Qed.
Lemma gain_best a : 0 < a -> s < q ^+ 2 -> gain s q a <= gain s q (s ^+ 2 / (q ^+ 2 - s)).
Proof.
move=> a0 Hq; have q0 : 0 < q ^+ 2 := lt_trans s0 Hq.
have s1 : s != 0 by rewrite gt_eqF.
have q1 : q ^+ 2 != 0 by rewrite gt_eqF.
have d0 : 0 < q ^+ 2 - s by rewrite subr_gt0.
have d1 : q ^+ 2 - s != 0 by rewrite gt_eqF.
have [E1 E2] := st_opt s1 q1 d1.
have a'0 : 0 < s ^+ 2 / (q ^+ 2 - s) by rewrite divr_gt0 // exprn_gt0.
rewrite !gainE // E2; have v0 := v_gt0 a0; set v := a / (a + s) in v0 *.
have w0 : 0 < s / q ^+ 2 by rewrite divr_gt0.
have := rln_le_pred (divr_gt0 v0 w0); rewrite -st_v // rln_div // => H.
rewrite -subr_ge0 in H; rewrite -subr_ge0.
suff -> : rln (s / q ^+ 2) + q ^+ 2 / s * (1 - s / q ^+ 2) - (rln v + q ^+ 2 / s * (1 - v)) =
  q ^+ 2 / s * (1 - s / q ^+ 2) - q ^+ 2 / s * (1 - v) - (rln v - rln (s / q ^+ 2)) by [].
exact: gb_ring.
Qed.
Lemma gain_opt : s < q ^+ 2 -> gain s q (s ^+ 2 / (q ^+ 2 - s)) = (q ^+ 2 - s) / s + rln (s / q ^+ 2).
Proof.
move=> Hq; have q0 : 0 < q ^+ 2 := lt_trans s0 Hq.
have s1 : s != 0 by rewrite gt_eqF.
have q1 : q ^+ 2 != 0 by rewrite gt_eqF.
have d0 : 0 < q ^+ 2 - s by rewrite subr_gt0.
have d1 : q ^+ 2 - s != 0 by rewrite gt_eqF.
have [E1 E2] := st_opt s1 q1 d1.
have a'0 : 0 < s ^+ 2 / (q ^+ 2 - s) by rewrite divr_gt0 // exprn_gt0.
by rewrite gainE // E2 st_add // addrC.
Qed.
Lemma gain_opt_ge0 : s < q ^+ 2 -> 0 <= gain s q (s ^+ 2 / (q ^+ 2 - s)).
Proof.
move=> Hq; have q0 : 0 < q ^+ 2 := lt_trans s0 Hq; rewrite gain_opt //.
have H := rln_le_pred (divr_gt0 q0 s0).
have E : rln (q ^+ 2 / s) = - rln (s / q ^+ 2) by rewrite -rlnV ?divr_gt0 // invf_div.
rewrite E -subr_ge0 opprK in H.
by rewrite mulrBl divff // gt_eqF.
Qed.
End Gain.

(* np.argmax *)
Section Argmax.
Variables (n : nat) (f : 'I_n -> option RR).
Implicit Types u v w : option RR.
Lemma below_irr u : below u u = false. Proof. by case: u => //= x; rewrite ltxx. Qed.
Lemma below_trans u v w : below u v = false -> below v w = false -> below u w = false.
Proof.
case: u v w => [u|] [v|] [w|] //=; rewrite !ltNge => /negbFE H1 /negbFE H2; apply/negbF; exact: le_trans H2 H1.
Qed.
Lemma below_asym u v : below u v -> below v u = false.
Proof. by case: u v => [u|] [v|] //= H; apply/negbTE; rewrite -leNgt ltW. Qed.
Lemma argmax_max i0 j : below (f (argmax i0 f)) (f j) = false.
Proof.
suff H r b : below (f (foldl (fun b i => if below (f b) (f i) then i else b) b r)) (f b) = false /\
  forall j, j \in r -> below (f (foldl (fun b i => if below (f b) (f i) then i else b) b r)) (f j) = false.
  by have [_] := H (enum 'I_n) i0; apply; rewrite mem_enum.
elim: r b => [|i r IH] b /=; first by rewrite below_irr.
have [H1 H2] := IH (if below (f b) (f i) then i else b).
have K : below (f (if below (f b) (f i) then i else b)) (f b) = false /\ below (f (if below (f b) (f i) then i else b)) (f i) = false.
  by case: ifP => H; rewrite ?below_irr ?(below_asym H).
split; first exact: below_trans H1 K.1.
move=> k; rewrite inE => /orP[/eqP ->|/H2 //]; exact: below_trans H1 K.2.
Qed.
End Argmax.

Section Step.
Variables (chol : forall m, 'M[RR]_m -> option 'M[RR]_m) (pinvh : forall m, 'M[RR]_m -> 'M[RR]_m).
Hypotheses (Hchol : chol_ok chol) (Hpinvh : pinvh_ok pinvh).
Variables (N n : nat) (p : 'I_N -> RR) (Phi : 'M[RR]_(N, n)) (t : 'cV[RR]_N).
Hypothesis p_gt0 : forall i, 0 < p i.
Variables (acut kcut beta : RR) (KtK : 'M[RR]_n) (y : 'cV[RR]_n).
Hypothesis HG : (cfac RR false * beta) *: KtK = gram p Phi.
Hypothesis Hy : (cfac RR false * beta) *: y = gvec p Phi t.
Hypotheses (b_gt0 : 0 < beta) (k_ge0 : 0 <= kcut) (valid : forall i, kcut < `|KtK i i|).
Implicit Type alpha : 'I_n -> RR.
Notation act alpha := (act_of acut kcut KtK alpha).
Notation evid := (evidence p Phi t acut kcut KtK).
Notation S alpha := (S_of chol pinvh false acut kcut beta KtK alpha).
Notation Q alpha := (Q_of chol pinvh false acut kcut beta KtK y alpha).
Notation s alpha := (s_of chol pinvh false acut kcut beta KtK alpha).
Notation q alpha := (q_of chol pinvh false acut kcut beta KtK y alpha).
Notation th alpha := (theta chol pinvh false acut kcut beta KtK y alpha).
Notation dL alpha := (deltaL rln chol pinvh false acut kcut beta KtK y alpha).
Notation loo alpha i := (Cloo p Phi acut kcut KtK alpha i).
Notation slo alpha i := (sl p Phi acut kcut KtK alpha i).
Notation qlo alpha i := (ql p Phi t acut kcut KtK alpha i).
Definition good alpha := forall i, act alpha i -> 0 < alpha i.

Lemma actE alpha i : act alpha i = (alpha i < acut).
Proof. by rewrite /act_of /active /valid_kern valid andbT. Qed.
Lemma col_neq0 i : col i Phi != 0.
Proof.
apply/eqP => H; have := valid i; have := congr1 (fun A : 'M_n => A i i) HG; rewrite [LHS]mxE /gram mul_mx_diag [RHS]mxE big1.
  move/eqP; rewrite mul1r mulf_eq0 (gt_eqF b_gt0) /= => /eqP ->; by rewrite normr0 ltNge k_ge0.
by move=> r _; have := congr1 (fun A : 'cV_N => A r 0) H; rewrite !mxE => ->; rewrite mulr0.
Qed.
Lemma slo_gt0 alpha i : good alpha -> 0 < slo alpha i.
Proof. by move=> G; apply: sl_gt0 => //; exact: col_neq0. Qed.
Lemma sE alpha i : good alpha -> s alpha i = slo alpha i.
Proof. by move=> G; rewrite -(s_loo Hchol Hpinvh p_gt0 HG b_gt0 G) mul1r. Qed.
Lemma qE alpha i : good alpha -> q alpha i = qlo alpha i.
Proof. by move=> G; rewrite -(q_loo Hchol Hpinvh p_gt0 HG Hy b_gt0 G) mul1r. Qed.
Lemma thE alpha i : good alpha -> th alpha i = qlo alpha i ^+ 2 - slo alpha i.
Proof. by move=> G; rewrite /theta qE // sE // real_normK // num_real. Qed.

Definition cur alpha i : RR := if act alpha i then gain (slo alpha i) (qlo alpha i) (alpha i) else 0.
Lemma ev_loo alpha i : good alpha -> evid alpha = gauss_ln (loo alpha i) t + cur alpha i / 2%:R.
Proof.
move=> G; rewrite /evidence /cur; case: ifP => [Hi|/negbT Hi]; last first.
  by rewrite mul0r addr0 (loo_inact p Phi Hi).
have Ha := G i Hi; have Has := as_gt0 Phi p_gt0 G i Ha.
have dC : 0 < \det (loo alpha i) by apply: det_Cov => // j /andP[_ /G].
rewrite (loo_act p Phi Hi) /gauss_ln rank1_det ?gt_eqF //; last by apply: Cloo_unit.
rewrite -/(slo alpha i) [rln (\det _ * _)]rlnM ?divr_gt0 //.
have := @rank1_bil _ _ (loo alpha i) (col i Phi) (alpha i) t t; rewrite /bilf => ->; rewrite ?gt_eqF //; last exact: Cloo_unit.
rewrite -/(quadf _ _) -/(slo alpha i) /gain -[alpha i / _]invf_div rlnV ?divr_gt0 //.
have E : bilf (invmx (loo alpha i)) t (col i Phi) = qlo alpha i by rewrite bilfC // Cov_inv_sym.
rewrite -/(bilf _ t (col i Phi)) E -/(qlo alpha i) -expr2.
by apply: ev_half; exact: ev_ring.
Qed.

Lemma loo_upd alpha i a : loo (upd alpha i a) i = loo alpha i.
Proof.
apply: eq_Cov => j /=; case: eqP => //= H.
  by rewrite !actE /upd; case: eqP.
by move=> _; rewrite /upd; case: eqP.
Qed.
Lemma good_upd alpha i a : good alpha -> 0 < a -> good (upd alpha i a).
Proof.
move=> G a0 j; rewrite actE /upd; case: eqP => // _ H; apply: G; by rewrite actE.
Qed.
Lemma ev_upd alpha i a : good alpha -> 0 < a ->
  evid (upd alpha i a) = gauss_ln (loo alpha i) t + (if a < acut then gain (slo alpha i) (qlo alpha i) a else 0) / 2%:R.
Proof.
move=> G a0; rewrite (@ev_loo _ i (@good_upd alpha i a G a0)) loo_upd /cur actE /sl /ql loo_upd.
by rewrite /upd eqxx.
Qed.
(* setting a precision to the cutoff takes the feature out, whatever the sign of the cutoff *)
Lemma good_del alpha i : good alpha -> good (upd alpha i acut).
Proof.
move=> G j; rewrite actE /upd; case: eqP => [|_ H]; first by rewrite ltxx.
by apply: G; rewrite actE.
Qed.
Lemma ev_del alpha i : good alpha -> evid (upd alpha i acut) = gauss_ln (loo alpha i) t.
Proof.
move=> G; rewrite (@ev_loo _ i (@good_del alpha i G)) loo_upd /cur actE /sl /ql loo_upd /upd eqxx ltxx.
by rewrite mul0r addr0.
Qed.

Definition new alpha i : RR :=
  if 0 < th alpha i then gain (slo alpha i) (qlo alpha i) (slo alpha i ^+ 2 / th alpha i) else 0.
Lemma Sact alpha i : good alpha -> act alpha i -> S alpha i = alpha i * slo alpha i / (alpha i + slo alpha i).
Proof. by move=> G Hi; rewrite -(Sc_act Hchol Hpinvh p_gt0 HG b_gt0 G Hi) mul1r. Qed.
Lemma Qact alpha i : good alpha -> act alpha i -> Q alpha i = alpha i * qlo alpha i / (alpha i + slo alpha i).
Proof. by move=> G Hi; rewrite -(Qc_act Hchol Hpinvh p_gt0 HG Hy b_gt0 G Hi) mul1r. Qed.
Lemma Sinact alpha i : good alpha -> ~~ act alpha i -> S alpha i = slo alpha i.
Proof. by move=> G Hi; rewrite -(Sc_inact Hchol Hpinvh p_gt0 HG b_gt0 G Hi) mul1r. Qed.
Lemma Qinact alpha i : good alpha -> ~~ act alpha i -> Q alpha i = qlo alpha i.
Proof. by move=> G Hi; rewrite -(Qc_inact Hchol Hpinvh p_gt0 HG Hy b_gt0 G Hi) mul1r. Qed.
Lemma gain_lower u v w x : 0 < w -> 0 < x -> gain u v x - gain u v w = rln (x / (x + u)) - rln (w / (w + u)) + (v ^+ 2 / (x + u) - v ^+ 2 / (w + u)).
Proof. by move=> _ _; rewrite /gain opprD addrACA. Qed.

Lemma dLE alpha i : good alpha -> dL alpha i = Some (new alpha i - cur alpha i).
Proof.
move=> G; have s0 := slo_gt0 i G; rewrite /deltaL /new /cur /al_eff (real_normK (num_real _)) sE //.
case: ifP => Hth; last first.
  case: ifP => Hi; last by rewrite subrr.
  have Ha := G i Hi; have Has := addr_gt0 Ha s0.
  rewrite Sact // Qact // (gt_eqF Ha) /= st_del1 ?gt_eqF // leNgt v_gt0 //= st_del ?gt_eqF //.
  by rewrite sub0r /gain opprD addrC.
have Hq : slo alpha i < qlo alpha i ^+ 2 by move: Hth; rewrite thE // subr_gt0.
have t0 : th alpha i != 0 by rewrite gt_eqF.
case: ifP => [Hi|/negbT Hi]; last first.
  rewrite Sinact // Qinact // leNgt s0 (gt_eqF (lt_trans s0 Hq)) /= thE // gain_opt // subr0 //.
have Ha := G i Hi; have Has := addr_gt0 Ha s0.
set a' := slo alpha i ^+ 2 / th alpha i.
have a'0 : 0 < a' by rewrite divr_gt0 // exprn_gt0.
have Has' := addr_gt0 a'0 s0.
have [a1 a'1 h1 h'1] : [/\ alpha i != 0, a' != 0, alpha i + slo alpha i != 0 & a' + slo alpha i != 0] by split; rewrite gt_eqF.
rewrite Sact // Qact // (gt_eqF a'0) (gt_eqF Ha) /= st_ratio //.
rewrite leNgt divr_gt0 ?v_gt0 //=; congr Some.
rewrite gain_lower // rln_div ?v_gt0 // opprB addrC; congr (_ + _).
case: eqP => [E|/eqP E].
  have -> : a' = alpha i; last by rewrite subrr.
  move/eqP: E; rewrite subr_eq0 !div1r => /eqP E; exact: invr_inj.
rewrite st_quad //; apply: contra_neq E => /eqP; rewrite subr_eq0 => /eqP ->; exact: subrr.
Qed.
Lemma new_ge alpha i a : good alpha -> 0 < a -> gain (slo alpha i) (qlo alpha i) a <= new alpha i.
Proof.
move=> G a0; have s0 := slo_gt0 i G; rewrite /new; case: ifP => [H|/negbT H]; move: H; rewrite thE // ?subr_gt0 -?leNgt.
  exact: gain_best.
exact: gain_neg.
Qed.
Lemma new_ge0 alpha i : good alpha -> 0 <= new alpha i.
Proof.
move=> G; have s0 := slo_gt0 i G; rewrite /new; case: ifP => // H; move: (H); rewrite thE // subr_gt0.
exact: gain_opt_ge0.
Qed.
Lemma new_ge_cur alpha i : good alpha -> cur alpha i <= new alpha i.
Proof. by move=> G; rewrite /cur; case: ifP => [Hi|_]; [apply: new_ge; last apply: G | apply: new_ge0]. Qed.

(* the step *)
Definition below_cut alpha := forall i, 0 < th alpha i -> s alpha i ^+ 2 / th alpha i < acut.
Notation step := (update_precisions rln chol pinvh false acut kcut beta KtK y).
Lemma good_step i0 alpha : good alpha -> good (step i0 alpha).
Proof.
move=> G; rewrite /update_precisions; case: ifP => [H|_].
  apply: (@good_upd alpha _ _ G); rewrite divr_gt0 // exprn_gt0 // sE // slo_gt0 //.
by case: ifP => // _; apply: (@good_del alpha _ G).
Qed.
Lemma ev_step i0 alpha : good alpha -> below_cut alpha ->
  let i := argmax i0 (dL alpha) in
  ~~ ((th alpha i <= 0) && act alpha i && (#|act alpha| <= 1)%N) ->
  evid (step i0 alpha) = evid alpha + (new alpha i - cur alpha i) / 2%:R.
Proof.
move=> G Hc i Hi; rewrite (ev_loo i G) mulrBl addrA [_ - _]addrAC addrK.
rewrite /update_precisions -/i; case: ifP => Hth.
  have a0 : 0 < s alpha i ^+ 2 / th alpha i by rewrite divr_gt0 // exprn_gt0 // sE // slo_gt0.
  by rewrite (@ev_upd alpha i _ G a0) Hc // /new Hth sE.
rewrite leNgt Hth /= negb_and -ltnNge in Hi; rewrite /new Hth mul0r addr0.
case: ifP => [_|H2]; first exact: ev_del.
have Ha : act alpha i = false by move: H2 Hi; case: (act alpha i) => //= ->.
by rewrite (ev_loo i G) /cur Ha mul0r addr0.
Qed.
Lemma ev_bound alpha j a : good alpha -> 0 < a ->
  evid (upd alpha j a) <= evid alpha + (new alpha j - cur alpha j) / 2%:R.
Proof.
move=> G a0; rewrite ev_upd // (ev_loo j G) mulrBl addrA [X in _ <= X - _]addrAC addrK ler_add2l.
by rewrite ler_pmul2r ?invr_gt0 ?ltr0n //; case: ifP => _; [apply: new_ge | apply: new_ge0].
Qed.
Lemma dL_max i0 alpha j : good alpha ->
  new alpha j - cur alpha j <= new alpha (argmax i0 (dL alpha)) - cur alpha (argmax i0 (dL alpha)).
Proof. by move=> G; have := argmax_max (dL alpha) i0 j; rewrite !dLE //= => /negbT; rewrite -leNgt. Qed.

Lemma step_best i0 alpha : good alpha -> below_cut alpha ->
  (forall j a, 0 < a -> evid (upd alpha j a) <= evid (step i0 alpha)) \/
  (step i0 alpha = alpha /\ exists i, [/\ act alpha i, (forall j, act alpha j -> j = i) &
     forall j a, 0 < a -> evid (upd alpha j a) <= evid (upd alpha i acut)]).
Proof.
move=> G Hc; set i := argmax i0 (dL alpha).
case Hd : ((th alpha i <= 0) && act alpha i && (#|act alpha| <= 1)%N); last first.
  left=> j a a0; rewrite (ev_step G Hc) -?/i ?Hd //; apply: le_trans (ev_bound j G a0) _.
  by rewrite ler_add2l ler_pmul2r ?invr_gt0 ?ltr0n //; apply: dL_max.
right; case/andP: Hd => /andP[Hth Hi] Hn; split.
  by rewrite /update_precisions -/i ltNge Hth /= leqNgt -leqNgt Hi /= ltnNge Hn.
exists i; split=> //.
  move=> j Hj; apply/eqP; move: Hn; rewrite (cardD1 i) -[i \in _]/(act alpha i) Hi add1n ltnS leqn0 => /eqP /card0_eq /(_ j).
  by rewrite !inE -[X in _ && X]/(act alpha j) Hj andbT => /negbFE.
move=> j a a0; apply: le_trans (ev_bound j G a0) _; rewrite (ev_del i G).
rewrite (ev_loo i G) -[X in _ <= X]addr0 -addrA ler_add2l -mulrDl.
have := dL_max i0 j G; rewrite -/i {2}/new ltNge Hth /= sub0r => H.
by rewrite pmulr_lle0 ?invr_gt0 ?ltr0n // addrC -[X in _ <= X](addNr (cur alpha i)) ler_add2r.
Qed.
Lemma step_mono i0 alpha : good alpha -> below_cut alpha -> evid alpha <= evid (step i0 alpha).
Proof.
move=> G Hc; set i := argmax i0 (dL alpha).
case Hd : ((th alpha i <= 0) && act alpha i && (#|act alpha| <= 1)%N); last first.
  by rewrite (ev_step G Hc) -?/i ?Hd // ler_addl divr_ge0 ?ler0n // subr_ge0 new_ge_cur.
case/andP: Hd => /andP[Hth Hi] Hn.
by rewrite /update_precisions -/i ltNge Hth /= Hi /= ltnNge Hn.
Qed.
Lemma iter_mono i0 alpha k : good alpha -> (forall j, (j < k)%N -> below_cut (iter j (step i0) alpha)) ->
  evid alpha <= evid (iter k (step i0) alpha) /\ good (iter k (step i0) alpha).
Proof.
move=> G; elim: k => [|k IH] Hc; first by [].
have [H1 H2] := IH (fun j Hj => Hc j (ltnW Hj)); split; last exact: good_step.
by apply: le_trans H1 _; apply: step_mono => //; apply: Hc.
Qed.
End Step.
