(* C101: the hypothesis on the inactive weights is needed; an example. *)
From Coq Require Import Reals Lra.
From Verif Require Import Base Fld Rstruct Calc Sup_Fit_Model Sup_RVM_Model Sup_RVM_Core Sup_Glm_Irls_Model Sup_Glm_Irls.
From Verif Require Sup_Glm_Grad.
Import Num.Theory Order.TTheory.
Local Open Scope ring_scope.
Lemma glm_beta1 : glm_beta 1 = 1. Proof. by rewrite /glm_beta oner_neq0 divr1. Qed.

(* One configuration, two features equal to one of which the second is inactive with weight 1, fitted amplitude
   e^2 + e^-2: the loss is stationary at weight 1 of the active feature, but a step moves away from it.  All
   other hypotheses of C101_fixed hold. *)
Theorem C101_refuted :
  exists (m p : nat) (K : nat -> nat -> RR) (s y alpha : nat -> RR) (active : nat -> bool) (noise : RR) (w : nat -> RR),
  [/\ 0 < noise, forall i, (i < m)%N -> 0 <= s i, forall j, (j < p)%N -> active j -> 0 < alpha j,
      forall j, (j < p)%N -> active j ->
        derivable_pt_lim (fun t => get_loss m p K s y alpha active (glm_beta noise) (along w (unit_dir j) t)) 0 0
    & forall chol lstsq, chol_ok chol -> lstsq_ok lstsq ->
        exists j, (j < p)%N && active j /\ irls_step chol lstsq m p K s y alpha active noise w j <> w j].
Proof.
pose K := fun _ _ : nat => 1 : RR. pose one := fun _ : nat => 1 : RR.
pose two : RR := 1 + 1. pose E2 : RR := exp two. pose y := fun _ : nat => E2 + E2^-1 : RR. pose active := fun j => j == 0%N.
have E20 : E2 != 0 by rewrite gt_eqF // exp_gt0.
have pr1 i : rpred 2 K one i = E2.
  by rewrite /Sup_Glm_Grad.rpred /= /K /one /E2; congr exp; rewrite !RplusE !RmultE mulr1 add0r.
exists 1%N, 2%N, K, one, y, one, active, 1, one; split => [||||chol lstsq Hc Hl].
- exact: ltr01.
- by move=> i _; apply: ler01.
- by move=> j _ _; apply: ltr01.
- move=> j jp aj; have := @grad_dir 1 2 K one y one active 1 ltr01 one j jp aj.
  have -> : rvec 1 2 K one y 1 one j = 1.
    by rewrite /rvec /= pr1 RplusE add0r /K /one /y divr1 !mul1r [E2 + _]addrC addrK mulfV.
  by rewrite /one mulr1 subrr.
have ap : forall j, (j < 2)%N -> active j -> 0 < one j by move=> j _ _; exact: ltr01.
have sp : forall i, (i < 1)%N -> 0 <= one i by move=> i _; exact: ler01.
exists 0%N; split=> //.
have [k k0] := @act_ev 2 active 0%N isT isT.
move=> H; have S := @solE chol lstsq Hc Hl 1 2 K one y one active 1 ltr01 sp ap one.
have := congr1 (fun M : 'cV_ _ => M k 0) S; rewrite mxE.
have E1 l : l = k.
  apply: enum_val_inj; apply: val_inj; apply: (etrans _ (esym k0)).
  by have := enum_valP l; rewrite unfold_in /gact /active => /eqP.
rewrite (bigD1 k) //= big1 => [|l]; last by rewrite (E1 l) eqxx.
rewrite addr0 mxE AE -!/(ev _) -step_act k0 H /gauss_newton /= pr1 mxE [irls_y _ _ _ _ _ _ _ _ _]mxE /=.
rewrite !RplusE !add0r /irls_S /irls_z /irls_e pr1 /K /one !divr1 ger0_norm ?ltW ?exp_gt0 // !mul1r !mulr1 /y.
rewrite (_ : ln E2 = two); last by rewrite /E2 ln_exp.
have -> : E2 ^+ 2 * (two + (E2 + E2^-1 - E2) / E2) = (E2 * E2 + 1) + E2 * E2.
  rewrite [E2 + _]addrC addrK expr2 mulrDr -!mulrA !mulVKf // /two mulrDr mulr1; rewrite mulfV //.
  by rewrite [RHS]addrC addrA mulrDr.
by move/eqP; rewrite -subr_eq0 opprD addrA subrr add0r oppr_eq0 mulf_eq0 orbb (negbTE E20).
Qed.

(* one configuration with amplitude 3, one feature 1, alpha = noise = 1, weight 0: the new weight is 1 *)
Example C101_example chol lstsq : chol_ok chol -> lstsq_ok lstsq ->
  irls_step chol lstsq 1 1 (fun _ _ => 1) (fun _ => 1) (fun _ => 3%:R) (fun _ => 1) (fun _ => true) 1 (fun _ => 0) 0 = 1.
Proof.
move=> Hc Hl; pose K := fun _ _ : nat => 1 : RR. pose one := fun _ : nat => 1 : RR. pose y := fun _ : nat => 3%:R : RR.
pose w := fun _ : nat => 0 : RR. pose active := fun _ : nat => true.
have ap : forall j, (j < 1)%N -> active j -> 0 < one j by move=> j _ _; exact: ltr01.
have sp : forall i, (i < 1)%N -> 0 <= one i by move=> i _; exact: ler01.
have pr1 i : rpred 1 K w i = 1.
  by rewrite /Sup_Glm_Grad.rpred /= /K /w RmultE mulr0 RplusE addr0; apply: exp_0.
have [k k0] := @act_ev 1 active 0%N isT isT.
have S := @solE chol lstsq Hc Hl 1 1 K one y one active 1 ltr01 sp ap w.
have := congr1 (fun M : 'cV_ _ => M k 0) S; rewrite mxE.
have E1 l : l = k by apply: enum_val_inj; rewrite [enum_val l]ord1 [enum_val k]ord1.
rewrite (bigD1 k) //= big1 => [|l]; last by rewrite (E1 l) eqxx.
rewrite addr0 mxE AE -!/(ev _) -step_act k0 /gauss_newton /= pr1 mxE [irls_y _ _ _ _ _ _ _ _ _]mxE /=.
rewrite !RplusE !add0r /irls_S /irls_z /irls_e pr1 /K /one !divr1 /y normr1 expr1n !mul1r.
rewrite (_ : ln 1 = 0) ?ln_1 // add0r (_ : 3%:R - 1 = 1 + 1 :> RR); last by rewrite -[3%N]/(2 + 1)%N natrD addrK mulr2n.
rewrite -[X in _ = X]mulr1 => /mulfI; apply; by rewrite -mulr2n pnatr_eq0.
Qed.
