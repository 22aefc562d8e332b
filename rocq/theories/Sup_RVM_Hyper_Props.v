(* C84, C85, C88: opt_alpha_beta. *)
From Coq Require Import Reals Lra.
From Verif Require Import Base Fld Numq Rstruct Calc Sup_Model Sup_Fit_Model Sup_Ev_Alg Sup_RVM_Model Sup_RVM_Core Sup_RVM_Ev Sup_RVM_Marg Sup_RVM_Step Sup_RVM_Props Sup_RVM_Der Sup_RVM_Noise_Model Sup_RVM_Noise Sup_RVM_AlphaDer Sup_RVM_Hyper_Model Sup_RVM_Hyper.
Import Num.Theory Order.TTheory.
Local Open Scope ring_scope.

Lemma after_setupE (R : realFieldType) n (w : 'cV[R]_n) (r : frow R n) : after_setup w r = Some ((fk r *m w) 0 0).
Proof.
rewrite /after_setup eqxx [X in _ = Some X]mxE; congr Some; apply: eq_bigr => j _; congr (_ * _).
by rewrite valK.
Qed.

Section Real.
Variables (chol : forall m, 'M[RR]_m -> option 'M[RR]_m) (pinvh : forall m, 'M[RR]_m -> 'M[RR]_m).
Hypotheses (Hchol : chol_ok chol) (Hpinvh : pinvh_ok pinvh).
Variables (n : nat) (acut kcut tol : RR) (ranks : seq (seq (frow RR n))).
Notation dat := (flatten ranks).
Notation KtK := (KtK_of idm ranks).
Notation y := (y_of idm ranks).
Notation act alpha := (act_of acut kcut KtK alpha).
Notation hyper := (hyper RR n).

Section Beta.
Hypothesis Hs : all (fun r => fs r == 1) dat.
Variable st : hyper.
Hypotheses (Hf : fresh st) (Hp : positive st).
Notation w := (weights chol pinvh false acut kcut (h_beta st) KtK y (h_alpha st)).
Definition sqe : RR := \sum_(r <- dat) `|fy r - linear_pred w r| ^+ 2.
Lemma sq_errorE : sq_error chol pinvh false acut kcut KtK y ranks st = Some sqe.
Proof.
rewrite /sq_error /sqe (h_wE _ _ _ _ _ _ _ Hf); elim: dat Hs => [|r s IH] /=; first by rewrite big_nil.
by case/andP => /eqP E H; rewrite after_setupE IH // big_cons E mul1r.
Qed.
Lemma countE : \sum_(rk <- ranks) \sum_(r <- rk) fs r = (size dat)%:R.
Proof.
rewrite -big_flatten /=; elim: dat Hs => [|r s IH] /=; first by rewrite big_nil.
by case/andP => /eqP E H; rewrite big_cons IH // E mulrS.
Qed.
Lemma s1_gt0 : all (fun r => 0 < fs r) dat. Proof. by apply: sub_all Hs => r /eqP ->; exact: ltr01. Qed.
Lemma pa1 j : act (h_alpha st) j -> 0 < h_alpha st j. Proof. by move=> _; apply: Hp.1. Qed.
Lemma sqe_gt0 : has (fun r => fy r != 0) dat -> 0 < sqe.
Proof.
move=> Ht; have p0 := rp_gt0 Hp.2 s1_gt0.
have ge0 (r : frow RR n) : 0 <= `|fy r - linear_pred w r| ^+ 2 by rewrite exprn_ge0 // normr_ge0.
rewrite lt_neqAle sumr_ge0 ?andbT //; apply/eqP => E.
have Z i : fy (row_of i) = linear_pred w (row_of (dat := dat) i).
  move/esym/eqP: E; rewrite /sqe big_tnth psumr_eq0 // => /allP/(_ i (mem_index_enum i)).
  by rewrite /= sqrf_eq0 normr_eq0 subr_eq0 => /eqP.
have T0 : targets dat = 0.
  have Cu := Cov_unit (design dat) p0 pa1.
  rewrite -[targets dat](mulKVmx Cu); suff -> : invmx (Cov (@prec _ (h_beta st) dat) (design dat) (act (h_alpha st)) (h_alpha st)) *m targets dat = 0 by rewrite mulmx0.
  rewrite (woodbury (design dat) p0 pa1) mulmxBl.
  have -> : diag_mx (\row_i @prec _ (h_beta st) dat i) *m PA_of (design dat) (act (h_alpha st)) *m invmx (GA (@prec _ (h_beta st) dat) (design dat) (act (h_alpha st)) (h_alpha st))
     *m (PA_of (design dat) (act (h_alpha st)))^T *m diag_mx (\row_i @prec _ (h_beta st) dat i) *m targets dat =
     diag_mx (\row_i @prec _ (h_beta st) dat i) *m (design dat *m w).
    rewrite -(PA_weights chol pinvh) (wA_GA Hchol Hpinvh p0 (rHG _ ranks) (rHy _ ranks) Hp.2 pa1) zAE !mulmxA.
    by [].
  rewrite -mulmxBr; apply/matrixP => i j; rewrite [j]ord1 mul_diag_mx !mxE Z /linear_pred !mxE.
  apply/eqP; rewrite mulf_eq0 subr_eq0; apply/orP; right; apply/eqP; apply: eq_bigr => k _; by rewrite [design _ _ _]mxE.
have {}Ht : ~~ all (fun r => fy r == 0) dat by rewrite -has_predC.
move/negP: Ht; apply; apply/(@all_tnthP _ _ _ (in_tuple dat)) => i; rewrite -[tnth _ _]/(row_of i).
by move/matrixP/(_ i 0): T0; rewrite !mxE => ->.
Qed.
Lemma beta_updateE : has (fun r => fy r != 0) dat -> h_chol chol pinvh false acut kcut KtK st ->
  beta_update chol pinvh false acut kcut KtK y ranks st =
  Some (((size dat)%:R - sum_gamma chol pinvh false acut kcut KtK st) / sqe).
Proof. by move=> Ht Hc; rewrite /beta_update Hc sq_errorE gt_eqF ?sqe_gt0 // countE. Qed.
Lemma beta_updateP : has (fun r => fy r != 0) dat ->
  exists2 b, beta_update chol pinvh false acut kcut KtK y ranks st = Some b & 0 < b.
Proof.
move=> Ht; case Hc : (h_chol chol pinvh false acut kcut KtK st); last first.
  by exists (h_beta st); [rewrite /beta_update Hc | exact: Hp.2].
rewrite beta_updateE //; eexists; first reflexivity.
rewrite divr_gt0 ?sqe_gt0 // subr_gt0.
apply: (@sum_gamma_lt chol pinvh Hchol Hpinvh _ _ (fun b => @prec _ b dat) (design dat)) => //.
- by move=> b i b0; apply: (rp_gt0 b0 s1_gt0).
- by move=> b; apply: rHG.
by move: Ht; rewrite has_count; case: dat.
Qed.
End Beta.

(* --- C88, real parameters *)
Theorem C88_real (opt_alpha opt_beta rvm : bool) fuel max (st : hyper) :
  0 <= kcut -> 0 < acut -> all (fun r => 0 < fs r) dat ->
  (opt_beta -> all (fun r => fs r == 1) dat /\ has (fun r => fy r != 0) dat) ->
  h_sa st = h_alpha st -> h_sb st = h_beta st -> (forall i, 0 < h_alpha st i) -> 0 < h_beta st ->
  match opt_alpha_beta chol pinvh false acut kcut tol KtK y ranks opt_alpha opt_beta rvm fuel max st with
  | Done st' => [/\ forall i, 0 < h_alpha st' i, 0 < h_beta st' & (forall i, h_alpha st i <= acut) -> forall i, h_alpha st' i <= acut]
  | Bad => False
  | More => if max is Some k then (fuel < k)%N else true
  end.
Proof.
move=> k0 c0 Hs Hb E1 E2 A0 B0; rewrite /opt_alpha_beta; case: ifP => [|_]; last by split.
case/andP => _ Hm.
have M := @passes_end _ chol pinvh n false acut kcut tol KtK y n ranks opt_alpha opt_beta rvm fuel.
have : sane acut st (passes chol pinvh false acut kcut tol KtK y ranks opt_alpha opt_beta rvm fuel max 0 st).
  apply: (@passesP chol pinvh Hchol Hpinvh _ _ (fun b => @prec _ b dat) (design dat)) => //.
  - by move=> b i b0; apply: rp_gt0.
  - by move=> b; apply: rHG.
  by move=> ob s1 F1 P1; have [H1 H2] := Hb ob; apply: beta_updateP.
case E: (passes _ _ _ _ _ _ _ _ _ _ _ _ _ _ _ _) => [st'| |] //=; first by case=> [[A1 B1] _ _ L].
case: max Hm E => // k /=; rewrite -ltnNge => k1 E _; rewrite ltnNge; apply/negP => H.
by apply: M k1 E; rewrite add0n.
Qed.
End Real.
