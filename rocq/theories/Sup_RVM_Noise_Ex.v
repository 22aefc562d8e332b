(* Refutation and example for C86. *)
From Coq Require Import Reals Lra.
From Verif Require Import Base Fld Numq Rstruct Calc Sup_Model Sup_Fit_Model Sup_Ev_Alg Sup_RVM_Model Sup_RVM_Core Sup_RVM_Ev Sup_RVM_Marg Sup_RVM_Step Sup_RVM_Props Sup_RVM_Ex Sup_RVM_Ex2 Sup_RVM_Der Sup_RVM_Noise_Model Sup_RVM_Noise.
Import Num.Theory Order.TTheory.
Local Open Scope ring_scope.

Section Wit.
Variables (chol : forall m, 'M[RR]_m -> option 'M[RR]_m) (pinvh : forall m, 'M[RR]_m -> 'M[RR]_m).
Hypotheses (Hchol : chol_ok chol) (Hpinvh : pinvh_ok pinvh).
Variables (beta : RR) (alpha : 'I_1 -> RR).
Hypotheses (b0 : 0 < beta) (Ha : 0 < alpha ord0) (Ha10 : alpha ord0 < 10%:R).
Notation act := (act_of 10%:R 0 rK alpha).
Lemma r_good1 : forall j, act j -> 0 < alpha j. Proof. by move=> j _; rewrite [j]ord1. Qed.
Lemma r_sl i : sl (@prec _ beta (flatten r_ranks)) (design (flatten r_ranks)) 10%:R 0 rK alpha i = beta /\
  ql (@prec _ beta (flatten r_ranks)) (design (flatten r_ranks)) (targets (flatten r_ranks)) 10%:R 0 rK alpha i = beta * 2%:R.
Proof.
have Hp j : predD1 act i j -> 0 < alpha j by case/andP => _ /r_good1.
have Ho j : predD1 act i j -> gram (@prec _ beta (flatten r_ranks)) (design (flatten r_ranks)) i j = 0.
  by case/andP; rewrite [i]ord1 [j]ord1.
have p0 := rp_gt0 b0 r_pos.
have [E1 E2] := orth_S (targets (flatten r_ranks)) p0 Hp Ho.
have G : (cfac RR false * beta) *: rK = gram (@prec _ beta (flatten r_ranks)) (design (flatten r_ranks)) by apply: rHG.
have Y : (cfac RR false * beta) *: rY = gvec (@prec _ beta (flatten r_ranks)) (design (flatten r_ranks)) (targets (flatten r_ranks)).
  by apply: rHy.
by rewrite /sl /ql /Cloo E1 E2 -G -Y !scaE /cfac !mul1r rKE rYE mulr1.
Qed.
Lemma r_weights i : weights chol pinvh false 10%:R 0 beta rK rY alpha i 0 = beta * 2%:R / (alpha ord0 + beta).
Proof.
have G := rHG beta r_ranks; have Y := rHy beta r_ranks.
rewrite (weightsE Hchol Hpinvh (rp_gt0 b0 r_pos) G Y b0 r_good1) r_act [i]ord1 Ha10.
by have [-> ->] := r_sl ord0.
Qed.
Lemma r_gamma : \sum_(k < #|act|) gamma chol pinvh false beta k = 1 - alpha ord0 / (alpha ord0 + beta).
Proof.
have G := rHG beta r_ranks.
transitivity (\sum_(k < #|act|) (fun j => 1 - alpha j / (alpha j + beta)) (enum_val k)).
  apply: eq_bigr => k _; rewrite /gamma (diag_SinvE Hchol Hpinvh (rp_gt0 b0 r_pos) G b0 r_good1).
  by have [-> _] := r_sl (enum_val k); rewrite /cfac mul1r.
rewrite -(big_enum_val (fun j => 1 - alpha j / (alpha j + beta))) (big_pred1 ord0) // => j.
by rewrite [j]ord1 -[_ \in _]/(act ord0) r_act Ha10.
Qed.
End Wit.

Lemma r_unit : all (fun r => fs r == 1) (flatten r_ranks). Proof. by rewrite /= eqxx. Qed.
(* K = 1, target 2, alpha = 1, noise 2: the likelihood is a normal density of variance 1 + v at 2, with
   derivative 1/18 in v = 2; the code returns 8/9 *)
Lemma r_code chol pinvh (Hchol : chol_ok chol) (Hpinvh : pinvh_ok pinvh) :
  log_noise_der chol pinvh 10%:R 0 2%:R (with_pred chol pinvh 10%:R 0 r_ranks r_alpha 2%:R) r_alpha = 8%:R / 9%:R.
Proof.
have b0 : 0 < 1 / 2%:R :> RR by numq RR.
have a0 : 0 < r_alpha ord0 by rewrite /r_alpha ltr01.
have a1 : r_alpha ord0 < 10%:R by rewrite /r_alpha; numq RR.
rewrite /log_noise_der fst_pred (r_gamma Hchol Hpinvh b0 a0 a1) /with_pred /= !big_cons !big_nil /=.
rewrite !addr0 /linear_pred mxE big_ord1 mxE (r_weights Hchol Hpinvh b0 a0 a1) /r_alpha.
rewrite real_normK ?num_real //; numq RR.
Qed.
Theorem C86_refuted : exists (ranks : seq (seq (frow RR 1))) (alpha : 'I_1 -> RR) (noise d : RR),
  [/\ 0 < noise, all (fun r => fs r == 1) (flatten ranks), forall i, 0 < alpha i &
  forall chol pinvh, chol_ok chol -> pinvh_ok pinvh ->
    der (fun v => log_log_marg_lik rln PI chol pinvh 10%:R 0 false v (1 / v) ranks alpha) noise d /\
    log_noise_der chol pinvh 10%:R 0 noise (with_pred chol pinvh 10%:R 0 ranks alpha noise) alpha != d].
Proof.
exists r_ranks, r_alpha, 2%:R, (1 / 18%:R); split; rewrite ?ltr0n ?r_unit //.
  by move=> i; exact: ltr01.
move=> chol pinvh H1 H2; split; last by rewrite r_code //; numq RR.
have A : forall i, act_of 10%:R 0 rK r_alpha i -> 0 < r_alpha i by move=> i _; exact: ltr01.
have t0 : 0 < 2%:R :> RR by rewrite ltr0n.
apply: der_eq (C86_partial H1 H2 r_unit A t0) _; rewrite r_code //; numq RR.
Qed.
(* noise 1: the value of the code is the derivative, 1/4 *)
Example C86_ex : log_noise_der chol1 (fun m A => invmx A) 10%:R 0 1 (with_pred chol1 (fun m A => invmx A) 10%:R 0 r_ranks r_alpha 1) r_alpha = 4%:R^-1 /\
  der (fun v => log_log_marg_lik rln PI chol1 (fun m A => invmx A) 10%:R 0 false v (1 / v) r_ranks r_alpha) 1 4%:R^-1.
Proof.
have E : log_noise_der chol1 (fun m A => invmx A) 10%:R 0 1 (with_pred chol1 (fun m A => invmx A) 10%:R 0 r_ranks r_alpha 1) r_alpha = 4%:R^-1.
  have b0 : 0 < 1 / 1 :> RR by numq RR.
  have a0 : 0 < r_alpha ord0 by rewrite /r_alpha ltr01.
  have a1 : r_alpha ord0 < 10%:R by rewrite /r_alpha; numq RR.
  rewrite /log_noise_der fst_pred (r_gamma chol1_ok invmx_ok b0 a0 a1) /with_pred /= !big_cons !big_nil /=.
  rewrite !addr0 /linear_pred mxE big_ord1 mxE (r_weights chol1_ok invmx_ok b0 a0 a1) /r_alpha.
  rewrite real_normK ?num_real //; numq RR.
split=> //.
have A : forall i, act_of 10%:R 0 rK r_alpha i -> 0 < r_alpha i by move=> i _; exact: ltr01.
apply: der_eq (C86_partial chol1_ok invmx_ok r_unit A ltr01) _; rewrite E; numq RR.
Qed.
