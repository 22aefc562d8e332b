(* opt_alpha_beta: every precision stays positive, no nan occurs (C88); fixed points are the stationary
   points of the evidence (C85); the weights on exit (C84). *)
From Coq Require Import Reals Lra.
From Verif Require Import Base Fld Numq Rstruct Calc Sup_Model Sup_Fit_Model Sup_Ev_Alg Sup_RVM_Model Sup_RVM_Core Sup_RVM_Ev Sup_RVM_Marg Sup_RVM_Step Sup_RVM_Props Sup_RVM_Der Sup_RVM_Noise_Model Sup_RVM_Noise Sup_RVM_AlphaDer Sup_RVM_Hyper_Model.
Import Num.Theory Order.TTheory.
Local Open Scope ring_scope.

(* --- N - sum gamma is the sum of the diagonal of C^-1 over the precisions *)
Section Trace.
Variables (R : realFieldType) (N n : nat) (p : 'I_N -> R) (Phi : 'M[R]_(N, n)) (act : pred 'I_n) (al : 'I_n -> R).
Hypotheses (p_gt0 : forall i, 0 < p i) (al_gt0 : forall j, act j -> 0 < al j).
Let PA : 'M[R]_(N, #|act|) := \matrix_(r, k) Phi r (enum_val k).
Let P := diag_mx (\row_i p i).
Lemma trace_lt : (0 < N)%N -> \tr (invmx (GA p Phi act al) *m (PA^T *m P *m PA)) < N%:R.
Proof.
move=> N0; have Cu := Cov_unit Phi p_gt0 al_gt0.
have E : \tr (invmx P *m invmx (Cov p Phi act al)) = N%:R - \tr (invmx (GA p Phi act al) *m (PA^T *m P *m PA)).
  rewrite (woodbury Phi p_gt0 al_gt0) mulmxBr mulVmx ?P_unit // linearB /= mxtrace1; congr (_ - _).
  rewrite !mulmxA mulVmx ?P_unit // mul1mx.
  have -> : PA *m invmx (GA p Phi act al) *m PA^T *m P = PA *m (invmx (GA p Phi act al) *m (PA^T *m P)) by rewrite !mulmxA.
  by rewrite mxtrace_mulC !mulmxA.
rewrite -subr_gt0 -E inv_diag //.
have D i : 0 < (diag_mx (\row_k (p k)^-1) *m invmx (Cov p Phi act al)) i i.
  rewrite mul_diag_mx mxE [(\row__ _) _ _]mxE mulr_gt0 ?invr_gt0 //.
  have := @Cov_inv_gt0 _ _ _ p Phi p_gt0 act al (delta_mx i 0) al_gt0.
  have -> : quadf (invmx (Cov p Phi act al)) (delta_mx i 0) = invmx (Cov p Phi act al) i i.
    by rewrite /quadf trmx_delta -rowE -colE !mxE.
  by apply; apply/eqP => /matrixP/(_ i 0)/eqP; rewrite !mxE !eqxx oner_eq0.
case: N N0 p p_gt0 Phi PA P Cu E D => // N' _ p' _ Phi' _ _ _ _ D.
rewrite /mxtrace big_ord_recl ltr_spaddl //; apply: sumr_ge0 => i _; exact: ltW.
Qed.
End Trace.

Section Core.
Variables (chol : forall m, 'M[RR]_m -> option 'M[RR]_m) (pinvh : forall m, 'M[RR]_m -> 'M[RR]_m).
Hypotheses (Hchol : chol_ok chol) (Hpinvh : pinvh_ok pinvh).
Variables (N n : nat) (p : RR -> 'I_N -> RR) (Phi : 'M[RR]_(N, n)) (t : 'cV[RR]_N).
Hypothesis p_gt0 : forall b i, 0 < b -> 0 < p b i.
Variables (expand : bool) (acut kcut : RR) (KtK : 'M[RR]_n) (y : 'cV[RR]_n).
Notation c := (cfac RR expand).
Hypothesis HG : forall b, (c * b) *: KtK = gram (p b) Phi.
Hypothesis Hy : forall b, (c * b) *: y = gvec (p b) Phi t.
Notation hyper := (hyper RR n).
Notation act alpha := (act_of acut kcut KtK alpha).
Notation wts := (h_weights chol pinvh expand acut kcut KtK y).
Notation gam := (h_gamma chol pinvh expand acut kcut KtK).
Implicit Types st : hyper.
(* the derived attributes belong to the current hyperparameters *)
Definition fresh st : Prop := h_sa st = h_alpha st /\ h_sb st = h_beta st.
Lemma fresh_setup st : fresh (setup st). Proof. by []. Qed.
Definition positive st : Prop := (forall i, 0 < h_alpha st i) /\ 0 < h_beta st.

Section State.
Variable st : hyper.
Hypotheses (Hf : fresh st) (Hp : positive st).
Notation alpha := (h_alpha st).
Notation beta := (h_beta st).
Notation s i := (sl (p beta) Phi acut kcut KtK alpha i).
Notation q i := (ql (p beta) Phi t acut kcut KtK alpha i).
Lemma h_actE : h_act acut kcut KtK st = act alpha. Proof. by rewrite /h_act Hf.1. Qed.
Lemma pos_act j : act alpha j -> 0 < alpha j. Proof. by move=> _; apply: Hp.1. Qed.
Lemma pb i : 0 < p beta i. Proof. exact: p_gt0 Hp.2. Qed.
Lemma h_wE : wts st = weights chol pinvh expand acut kcut beta KtK y alpha.
Proof. by rewrite /h_weights Hf.1 Hf.2. Qed.
Lemma h_gammaE i : act alpha i -> gam st i = 1 - alpha i / (alpha i + s i).
Proof.
move=> Hi; rewrite /h_gamma; case: st Hf Hp Hi => a b sa sb [/= E1 E2] Hp' Hi; subst sa sb.
rewrite (big_pred1 (enum_rank_in Hi i)) => [|k]; last first.
  by rewrite -[pred1 _ k]/(k == enum_rank_in Hi i) -(inj_eq enum_val_inj) enum_rankK_in.
have pa j : act a j -> 0 < a j by move=> _; apply: Hp'.1.
rewrite (diag_SinvE Hchol Hpinvh (fun i => p_gt0 i Hp'.2) (HG b) Hp'.2 pa) enum_rankK_in // /cfac /=; congr (_ - _ * _).
by case: expand; rewrite ?mul1r // mulrAC divff ?pnatr_eq0 // mul1r.
Qed.
Lemma gamma_gt0 i : act alpha i -> col i Phi != 0 -> 0 < gam st i.
Proof.
move=> Hi H; rewrite h_gammaE // subr_gt0 ltr_pdivr_mulr ?mul1r.
  by rewrite ltr_addl (sl_gt0 pb pos_act).
exact: (as_gt0 Phi pb pos_act i (Hp.1 i)).
Qed.
Lemma sum_gammaE : sum_gamma chol pinvh expand acut kcut KtK st = \sum_(k < #|act alpha|) gamma chol pinvh expand beta k.
Proof.
rewrite /sum_gamma h_actE big_enum_val; apply: eq_bigr => k _.
have Hi : act alpha (enum_val k) by apply: (enum_valP k).
rewrite h_gammaE // /gamma (diag_SinvE Hchol Hpinvh pb (HG beta) Hp.2 pos_act) /cfac; congr (_ - _ * _).
by case: expand; rewrite ?mul1r // mulrAC divff ?pnatr_eq0 // mul1r.
Qed.
Lemma sum_gamma_lt : (0 < N)%N -> sum_gamma chol pinvh expand acut kcut KtK st < N%:R.
Proof.
move=> N0; rewrite sum_gammaE -(trace_gamma Hchol Hpinvh pb (HG beta) Hp.2 pos_act).
exact: trace_lt pb pos_act N0.
Qed.
End State.

Hypotheses (k0 : 0 <= kcut) (c0 : 0 < acut).
Lemma act_col alpha i : act alpha i -> col i Phi != 0.
Proof.
case/andP => _; rewrite /valid_kern => H; apply/eqP => E.
have := HG 1; rewrite mulr1 => /matrixP/(_ i i).
have -> : gram (p 1) Phi i i = 0.
  rewrite /gram -mulmxA [LHS]mxE big1 // => k _; rewrite [_^T _ _]mxE.
  by have /matrixP/(_ k 0) := E; rewrite !mxE => ->; rewrite mul0r.
rewrite mxE => /eqP; rewrite mulf_eq0 (negbTE (c_neq0 RR expand)) /= => /eqP E2.
by move: H; rewrite E2 normr0 ltNge k0.
Qed.
Lemma clip_gt0 x : 0 < x -> 0 < clip acut x.
Proof. by move=> x0; rewrite /clip lt_minr c0 andbT lt_maxr x0. Qed.
Lemma clip_le x : clip acut x <= acut. Proof. by rewrite /clip le_minl lexx orbT. Qed.
Lemma clip_div_pos g d : 0 < g -> 0 <= d -> exists2 x, clip_div acut g d = Some x & 0 < x <= acut.
Proof.
move=> g0 d0; rewrite /clip_div (gt_eqF g0) g0; case: eqP => [_|/eqP dn]; first by exists acut; rewrite ?c0 ?lexx.
by exists (clip acut (g / d)); rewrite ?clip_le ?clip_gt0 // divr_gt0 // lt_neqAle eq_sym dn.
Qed.

(* one update of the precisions: no nan, positive, within the cutoff *)
Lemma alpha_updateP rvm st : fresh st -> positive st -> [exists i, h_act acut kcut KtK st i] ->
  exists2 a, alpha_update chol pinvh expand acut kcut KtK y rvm st = Some a &
    (forall i, 0 < a i) /\ ((forall i, h_alpha st i <= acut) -> forall i, a i <= acut).
Proof.
move=> Hf Hp /existsP[i1 H1]; rewrite /alpha_update; case: ifP => _; last by exists (h_alpha st); split=> //; apply: Hp.1.
have H i : exists2 x, alpha_entry chol pinvh expand acut kcut KtK y rvm st i = Some x & 0 < x <= acut.
  rewrite /alpha_entry; case: rvm; last first.
    apply: clip_div_pos; last by apply: sumr_ge0 => j _; rewrite -expr2 sqr_ge0.
    rewrite /sum_gamma (bigD1 i1) //= ltr_spaddl ?sumr_ge0 //.
      by rewrite gamma_gt0 // ?(@act_col (h_alpha st)) // -h_actE.
    by move=> j /andP[Hj _]; rewrite ltW // gamma_gt0 // ?(@act_col (h_alpha st)) // -h_actE.
  case: ifP => [Hi|_]; last by exists (clip acut (h_alpha st i)); rewrite ?clip_le ?clip_gt0 //; apply: Hp.1.
  by apply: clip_div_pos; [rewrite gamma_gt0 // ?(@act_col (h_alpha st)) // -h_actE | rewrite -expr2 sqr_ge0].
have -> : [forall i, alpha_entry chol pinvh expand acut kcut KtK y rvm st i : bool] by apply/forallP => i; have [x ->] := H i.
by eexists; first reflexivity; split=> [i|_ i] /=; have [x -> /andP[]] := H i.
Qed.

(* --- the loop *)
Section Loop.
Variables (tol : RR) (m : nat) (ranks : seq (seq (frow RR m))) (opt_alpha opt_beta rvm : bool).
Notation upd := (update chol pinvh expand acut kcut KtK y ranks opt_alpha opt_beta rvm).
Notation cnv := (conv tol opt_alpha opt_beta).
Notation run := (passes chol pinvh expand acut kcut tol KtK y ranks opt_alpha opt_beta rvm).
Hypothesis Hb : opt_beta -> forall st, fresh st -> positive st ->
  exists2 b, beta_update chol pinvh expand acut kcut KtK y ranks st = Some b & 0 < b.
Definition sane (st : hyper) (o : outcome RR n) : Prop :=
  match o with
  | Done st' => [/\ positive st', forall i, 0 < h_sa st' i, 0 < h_sb st' &
                 (forall i, h_alpha st i <= acut) -> forall i, h_alpha st' i <= acut]
  | Bad => False
  | More => True
  end.
Lemma updateP st : fresh st -> positive st -> [exists i, h_act acut kcut KtK st i] ->
  exists2 st', upd st = Some st' & positive st' /\ ((forall i, h_alpha st i <= acut) -> forall i, h_alpha st' i <= acut).
Proof.
move=> Hf Hp He; rewrite /update.
have [a -> [A1 A2]] : exists2 a, (if opt_alpha then alpha_update chol pinvh expand acut kcut KtK y rvm st else Some (h_alpha st)) = Some a &
    (forall i, 0 < a i) /\ ((forall i, h_alpha st i <= acut) -> forall i, a i <= acut).
  case: opt_alpha; first exact: alpha_updateP.
  by exists (h_alpha st); split=> //; apply: Hp.1.
have [b -> B0] : exists2 b, (if opt_beta then beta_update chol pinvh expand acut kcut KtK y ranks st else Some (h_beta st)) = Some b & 0 < b.
  by case: opt_beta Hb => [H|_]; [apply: H | exists (h_beta st) => //; apply: Hp.2].
by eexists; first reflexivity; split.
Qed.
Lemma update_sa st st' : upd st = Some st' -> h_sa st' = h_sa st /\ h_sb st' = h_sb st.
Proof.
by rewrite /update; case: (if opt_alpha then _ else _) => // a; case: (if opt_beta then _ else _) => // b [<-].
Qed.
Lemma passesP fuel max j st : fresh st -> positive st -> sane st (run fuel max j st).
Proof.
elim: fuel j st => [|f IH] j st Hf Hp //=; case: ifP => [He|_]; last first.
  by split; rewrite ?Hf.1 ?Hf.2 //; [apply: Hp.1 | apply: Hp.2].
have [st' E [P' L']] := updateP Hf Hp He; rewrite E; case: ifP => _.
  rewrite /sane; have [-> ->] := update_sa E; split; rewrite ?Hf.1 ?Hf.2 //; [apply: Hp.1 | apply: Hp.2].
have Hp' : positive (setup st') by [].
have := IH j.+1 (setup st') (fresh_setup st') Hp'; case: (run _ _ _ _) => //= s'' [Q1 Q2 Q3 Q4]; split=> // H.
by apply: Q4; apply: L'.
Qed.
End Loop.
End Core.

(* --- derivative of the evidence with respect to a shared precision *)
Section Shared.
Variables (N n : nat) (p : 'I_N -> RR) (Phi : 'M[RR]_(N, n)) (t : 'cV[RR]_N) (A : pred 'I_n) (a : RR).
Hypotheses (p_gt0 : forall i, 0 < p i) (a0 : 0 < a).
Notation C x := (Cov p Phi A (fun=> x)).
Let M := \sum_(j | A j) (col j Phi *m (col j Phi)^T).
Lemma Cov_shared x : C x = diag_mx (\row_i (p i)^-1) + x^-1 *: M.
Proof. by rewrite /Cov /M scaler_sumr. Qed.
Lemma Cov_shared_der : derm (fun x => C x) a ((- 1 / a ^+ 2) *: M).
Proof.
move=> i j; have D : der (fun x => x^-1 * M i j + diag_mx (\row_i (p i)^-1) i j) a ((- 1 / a ^+ 2) * M i j + 0).
  apply: der_add (der_const _ _); rewrite mulrC.
  apply: der_ext (der_scale (M i j) (@der_inv id a 1 _ (der_id a))) => [x|]; first exact: mulrC.
  by rewrite gt_eqF.
rewrite addr0 in D; apply: der_eq (der_ext _ D) _; last by rewrite scaE.
by move=> x; rewrite Cov_shared addE scaE addrC.
Qed.
Lemma ev_shared_der : let Ci := invmx (C a) in
  der (fun x => gauss_ln (C x) t) a
    (((\sum_(j | A j) bilf Ci (col j Phi) (col j Phi)) / a ^+ 2 - (\sum_(j | A j) bilf Ci (col j Phi) t ^+ 2) / a ^+ 2) / 2%:R).
Proof.
move=> Ci; have ap j : A j -> 0 < (fun=> a) j by [].
have H1 := der_lndet Cov_shared_der (det_Cov Phi p_gt0 ap).
have hi : a < a + 1 by rewrite ltr_addl ltr01.
have U x : 0 < x -> x < a + 1 -> C x \in unitmx by move=> x0 _; apply: Cov_unit.
have H2 := derm_mul (derm_mul (derm_const t^T a) (derm_inv a0 hi U Cov_shared_der)) (derm_const t a).
have H3 := der_add (der_add (der_const (N%:R * rln (2%:R * (PI : RR))) a) H1) (H2 0 0).
apply: der_ext (der_eq (der_opp (der_scale 2%:R^-1 H3)) _) => [x|]; first by rewrite /gauss_ln [_ / _]mulrC.
rewrite [2%:R^-1 * _]mulrC -[- (_ / 2%:R)]mulNr; congr (_ / _); rewrite mul0mx add0r mulmx0 addr0 add0r -/Ci.
have -> : \tr (Ci *m ((- 1 / a ^+ 2) *: M)) = - ((\sum_(j | A j) bilf Ci (col j Phi) (col j Phi)) / a ^+ 2).
  rewrite -scalemxAr mxtraceZ mulNr mul1r mulNr mulrC; congr (- (_ / _)).
  rewrite /M mulmx_sumr raddf_sum; apply: eq_bigr => j _ /=.
  by rewrite mulmxA mxtrace_mulC mulmxA /bilf /mxtrace big_ord1.
have -> : (t^T *m (- (Ci *m ((- 1 / a ^+ 2) *: M) *m Ci)) *m t) 0 0 = (\sum_(j | A j) bilf Ci (col j Phi) t ^+ 2) / a ^+ 2.
  rewrite -scalemxAr -scalemxAl mulmxN mulNmx oppE -scalemxAr -scalemxAl scaE mulNr mul1r mulNr opprK mulrC; congr (_ / _).
  rewrite /M mulmx_sumr mulmx_suml mulmx_sumr mulmx_suml summxE; apply: eq_bigr => j _.
  have -> : t^T *m (Ci *m (col j Phi *m (col j Phi)^T) *m Ci) *m t = (t^T *m Ci *m col j Phi) *m ((col j Phi)^T *m Ci *m t) by rewrite !mulmxA.
  rewrite mxE big_ord1 -/(bilf Ci t (col j Phi)) -/(bilf Ci (col j Phi) t) bilfC ?expr2 //.
  exact: Cov_inv_sym.
by rewrite opprD opprK.
Qed.
End Shared.

(* --- with max_iterations = k the loop ends within k passes; what the state on exit is *)
Section Exit.
Variables (R : realFieldType) (chol : forall m, 'M[R]_m -> option 'M[R]_m) (pinvh : forall m, 'M[R]_m -> 'M[R]_m).
Variables (n : nat) (expand : bool) (acut kcut tol : R) (KtK : 'M[R]_n) (y : 'cV[R]_n) (m : nat) (ranks : seq (seq (frow R m))).
Variables (opt_alpha opt_beta rvm : bool).
Notation upd := (update chol pinvh expand acut kcut KtK y ranks opt_alpha opt_beta rvm).
Notation run := (passes chol pinvh expand acut kcut tol KtK y ranks opt_alpha opt_beta rvm).
Lemma passes_end fuel k j st : (k <= j + fuel)%N -> (j < k)%N -> run fuel (Some k) j st <> More _ _.
Proof.
elim: fuel j st => [|f IH] j st; first by rewrite addn0 ltnNge => ->.
rewrite addnS => H1 H2 /=; case: ifP => // _; case: (upd st) => // st'; case: ifP => // /norP[_].
by rewrite -ltnNge /= => H; apply: IH; rewrite // addSn.
Qed.
(* either the derived attributes are those of the hyperparameters, or these are one update ahead *)
Lemma passes_exit fuel max j (st st' : hyper R n) : h_sa st = h_alpha st /\ h_sb st = h_beta st ->
  run fuel max j st = Done st' ->
  (h_sa st' = h_alpha st' /\ h_sb st' = h_beta st') \/
  upd (Hyper (h_sa st') (h_sb st') (h_sa st') (h_sb st')) = Some st'.
Proof.
elim: fuel j st => [|f IH] j st Hf //=; case: ifP => [_|_ [<-]]; last by left.
case E: (upd st) => [s1|] //; case: ifP => [_ [<-]|_]; last by apply: IH.
right; have -> : Hyper (h_sa s1) (h_sb s1) (h_sa s1) (h_sb s1) = st; last by [].
have [-> ->] : h_sa s1 = h_sa st /\ h_sb s1 = h_sb st.
  by move: E; rewrite /update; case: (if opt_alpha then _ else _) => // a; case: (if opt_beta then _ else _) => // b [<-].
by case: st Hf {E} => a b sa sb [/= -> ->].
Qed.
End Exit.
