(* Examples for C80 to C82 with real parameters, and the weighted log-space likelihood. *)
From Coq Require Import Reals Lra.
From Verif Require Import Base Fld Numq Rstruct Sup_Model Sup_Fit_Model Sup_Ev_Alg Sup_RVM_Model Sup_RVM_Core Sup_RVM_Ev Sup_RVM_Marg Sup_RVM_Step Sup_RVM_Props Sup_RVM_Ex.
Import Num.Theory Order.TTheory.
Local Open Scope ring_scope.

(* one feature, one data point: K = 1, target 2, noise 1; alpha = 1 *)
Definition r_row : frow RR 1 := FRow (const_mx 1) 1 2%:R.
Definition r_ranks := [:: [:: r_row]].
Definition r_alpha (j : 'I_1) : RR := 1.
Notation rK := (KtK_of idm r_ranks).
Notation rY := (y_of idm r_ranks).
Notation rS := (s_of chol1 (fun m A => invmx A) false 10%:R 0 1 rK).
Notation rQ := (q_of chol1 (fun m A => invmx A) false 10%:R 0 1 rK rY).
Lemma rKE i j : rK i j = 1.
Proof. by rewrite mxE /r_ranks !big_cons !big_nil /= !mxE !addr0 !mulr1. Qed.
Lemma rYE i : rY i 0 = 2%:R.
Proof. by rewrite mxE /r_ranks !big_cons !big_nil /= !mxE !addr0 !mul1r. Qed.
Notation act := (act_of 10%:R 0 rK).
Lemma r_act alpha j : act alpha j = (alpha j < 10%:R).
Proof. by rewrite /act_of /active /valid_kern rKE normr1 ltr01 andbT. Qed.
Lemma r_pos : all (fun r => 0 < fs r) (flatten r_ranks). Proof. by rewrite /= ltr01. Qed.
Lemma r_good alpha : (forall j, alpha j < 10%:R -> 0 < alpha j) -> forall j, act alpha j -> 0 < alpha j.
Proof. by move=> H j; rewrite r_act; apply: H. Qed.
Lemma r_sq alpha i : (forall j, alpha j < 10%:R -> 0 < alpha j) -> rS alpha i = 1 /\ rQ alpha i = 2%:R.
Proof.
move=> /r_good Ha.
have Hp j : predD1 (act alpha) i j -> 0 < alpha j by case/andP => _ /Ha.
have Ho j : predD1 (act alpha) i j -> gram (@prec _ 1 (flatten r_ranks)) (design (flatten r_ranks)) i j = 0.
  by case/andP; rewrite [i]ord1 [j]ord1.
have p0 : forall i, 0 < @prec _ 1 (flatten r_ranks) i := rp_gt0 ltr01 r_pos.
have [E1 E2] := orth_S (targets (flatten r_ranks)) p0 Hp Ho.
have G : (cfac RR false * 1) *: rK = gram (@prec _ 1 (flatten r_ranks)) (design (flatten r_ranks)) by apply: rHG.
have Y : (cfac RR false * 1) *: rY = gvec (@prec _ 1 (flatten r_ranks)) (design (flatten r_ranks)) (targets (flatten r_ranks)).
  by apply: rHy.
have := s_loo chol1_ok invmx_ok p0 G ltr01 Ha i; have := q_loo chol1_ok invmx_ok p0 G Y ltr01 Ha i.
rewrite /sl /ql /Cloo E1 E2 -G -Y !scaE /cfac !mul1r rKE rYE => HQ HS.
by split; [exact: HS | exact: HQ].
Qed.
(* the leave-one-out quantities and the step: alpha' = s^2 / (q^2 - s) = 1/3 *)
Example C80_ex : rS r_alpha ord0 = 1 /\ rQ r_alpha ord0 = 2%:R.
Proof. by apply: r_sq => j _; exact: ltr01. Qed.
Example C81_ex : update_precisions rln chol1 (fun m A => invmx A) false 10%:R 0 1 rK rY ord0 r_alpha ord0 = 3%:R^-1.
Proof.
have [E1 E2] := C80_ex; rewrite /update_precisions [argmax _ _]ord1 /theta E1 E2.
have -> : `|2%:R| ^+ 2 - 1 = 3%:R :> RR by rewrite gtr0_norm ?ltr0n //; numq RR.
have -> : 0 < 3%:R :> RR by numq RR.
by rewrite /set_alpha [_ == _]eqxx; numq RR.
Qed.
(* the evidence: a normal distribution with variance 1 + 1/alpha = 2 at the value 2 *)
Example C82_ex : exp_log_marg_lik rln PI chol1 (fun m A => invmx A) 10%:R 0 [:: [:: LRow r_row 1]] r_alpha =
  - (rln (2%:R * (PI : RR)) + rln 2%:R + 2%:R) / 2%:R.
Proof.
rewrite (C82_exp chol1_ok invmx_ok) /=.
- rewrite /model_evidence /gauss_ln /Cov.
  have C : diag_mx (\row_i (@prec _ 1 [:: r_row] i)^-1) + \sum_(j | act r_alpha j) (r_alpha j)^-1 *: (col j (design [:: r_row]) *m (col j (design [:: r_row]))^T) = 2%:R%:M.
    apply/matrixP => i j; rewrite [i]ord1 [j]ord1.
    rewrite (bigD1 ord0) ?r_act /= ?big_pred0 => [|k|]; first last.
    + by rewrite /r_alpha ltr1n.
    + by rewrite [k]ord1 eqxx andbF.
    rewrite addr0 addE scaE [in X in X + _]mxE [in X in X + _]mxE /= /prec /row_of (tnth_nth r_row) /= !mulr1 mulr1n mxE.
    have -> : design [:: r_row] = const_mx 1.
      by apply/matrixP => a b; rewrite !mxE /row_of (tnth_nth r_row) [a]ord1 /= mxE.
    by rewrite big_ord1 !mxE /r_alpha eqxx mulr1n; numq RR.
  rewrite C det_scalar expr1 invmx_scalar mul_mx_scalar -scalemxAl scaE.
  have -> : ((targets [:: r_row])^T *m targets [:: r_row]) 0 0 = 4%:R.
    by rewrite mxE big_ord1 !mxE /row_of (tnth_nth r_row) /=; numq RR.
  rewrite mul1r mulNr; congr (- (_ / _)); congr (_ + _); numq RR.
- by rewrite ltr01.
- by rewrite eqxx.
- by move=> j _; exact: ltr01.
Qed.

(* with a weighting 2 the likelihood of the log-space fit is not the likelihood of the repeated data *)
Theorem C82_log_weights_refuted : exists (ranks : seq (seq (frow RR 1 * nat))) (noise : RR) (alpha : 'I_1 -> RR),
  [/\ 0 < noise, all (all (fun x => (fs x.1 == 1) && (0 < x.2)%N)) ranks &
  forall chol pinvh, chol_ok chol -> pinvh_ok pinvh ->
  log_log_marg_lik rln PI chol pinvh 10%:R 0 true noise (1 / noise) [seq [seq wmul x | x <- rk] | rk <- ranks] alpha !=
  log_log_marg_lik rln PI chol pinvh 10%:R 0 false noise (1 / noise) [seq repeated rk | rk <- ranks] alpha].
Proof.
exists [:: [:: (r_row, 2%N)]], 1, r_alpha; split; first exact: ltr01.
  by rewrite /= eqxx.
move=> chol pinvh H1 H2; rewrite C82_log_weights_partial; last by rewrite /= eqxx.
rewrite -subr_eq0 addrC addrA addNr add0r.
by rewrite !big_cons !big_nil !addr0 /=; numq RR.
Qed.
