(* Coq's real numbers as an ordered field of the mathematical components library, so that
   matrices and the logarithm can be used together. *)
From Coq Require Import Reals Epsilon FunctionalExtensionality Lra.
From Verif Require Import Base.
Import Num.Theory Order.TTheory.
Local Open Scope R_scope.

Definition eqr (x y : R) : bool := if Req_EM_T x y is left _ then true else false.
Lemma eqrP : Equality.axiom eqr.
Proof. by move=> x y; rewrite /eqr; case: Req_EM_T => H; constructor. Qed.
Canonical R_eqMixin := EqMixin eqrP.
Canonical R_eqType := Eval hnf in EqType R R_eqMixin.

Definition pickR (P : pred R) (n : nat) : option R :=
  let x := epsilon (inhabits 0) P in if P x then Some x else None.
Lemma pickR_some P n x : pickR P n = Some x -> P x.
Proof. by rewrite /pickR; case: ifP => // H [<-]. Qed.
Lemma pickR_ex (P : pred R) : (exists x, P x) -> exists n, pickR P n.
Proof. by move=> H; exists 0%N; rewrite /pickR (epsilon_spec (inhabits 0) P H). Qed.
Lemma pickR_ext (P Q : pred R) : P =1 Q -> pickR P =1 pickR Q.
Proof. by move=> H n; have -> : P = Q by apply: functional_extensionality. Qed.
Definition R_choiceMixin : choiceMixin R := Choice.Mixin pickR_some pickR_ex pickR_ext.
Canonical R_choiceType := Eval hnf in ChoiceType R R_choiceMixin.

Lemma RplusA : associative Rplus.
Proof. by move=> *; rewrite Rplus_assoc. Qed.
Lemma RmultA : associative Rmult.
Proof. by move=> *; rewrite Rmult_assoc. Qed.
Lemma R1_neq0 : (1 : R_eqType) != 0.
Proof. by apply/eqP/R1_neq_R0. Qed.
Definition R_zmodMixin := ZmodMixin RplusA Rplus_comm Rplus_0_l Rplus_opp_l.
Canonical R_zmodType := Eval hnf in ZmodType R R_zmodMixin.
Definition R_ringMixin := RingMixin RmultA Rmult_1_l Rmult_1_r Rmult_plus_distr_r Rmult_plus_distr_l R1_neq0.
Canonical R_ringType := Eval hnf in RingType R R_ringMixin.
Canonical R_comRingType := Eval hnf in ComRingType R Rmult_comm.

Definition Rinvx (x : R) : R := if x != 0 then / x else x.
Definition unitR (x : R) : bool := x != 0.
Lemma RmultVx : {in unitR, left_inverse 1 Rinvx Rmult}.
Proof. by move=> x; rewrite -topredE /unitR /Rinvx /= => H; rewrite H Rinv_l //; apply/eqP. Qed.
Lemma RmultxV : {in unitR, right_inverse 1 Rinvx Rmult}.
Proof. by move=> x; rewrite -topredE /unitR /Rinvx /= => H; rewrite H Rinv_r //; apply/eqP. Qed.
Lemma intro_unitR x y : y * x = 1 /\ x * y = 1 -> unitR x.
Proof. by case=> H _; apply/eqP=> H0; move: H; rewrite H0 Rmult_0_r => /esym /eqP; rewrite (negbTE R1_neq0). Qed.
Lemma Rinvx_out : {in predC unitR, Rinvx =1 id}.
Proof. by move=> x; rewrite inE /= /unitR /Rinvx -if_neg => ->. Qed.
Definition R_unitRingMixin := UnitRingMixin RmultVx RmultxV intro_unitR Rinvx_out.
Canonical R_unitRingType := Eval hnf in UnitRingType R R_unitRingMixin.
Canonical R_comUnitRingType := Eval hnf in [comUnitRingType of R].
Lemma R_idomainMixin x y : x * y = 0 -> (x == 0) || (y == 0).
Proof. by move/Rmult_integral => [->|->]; rewrite eqxx ?orbT. Qed.
Canonical R_idomainType := Eval hnf in IdomainType R R_idomainMixin.
Lemma R_fieldMixin : GRing.Field.mixin_of [unitRingType of R].
Proof. by done. Qed.
Canonical R_fieldType := Eval hnf in FieldType R R_fieldMixin.

Definition Rleb (x y : R) : bool := if Rle_dec x y is left _ then true else false.
Definition Rltb (x y : R) : bool := if Rlt_dec x y is left _ then true else false.
Lemma RlebP x y : reflect (x <= y) (Rleb x y).
Proof. by rewrite /Rleb; case: Rle_dec => H; constructor. Qed.
Lemma RltbP x y : reflect (x < y) (Rltb x y).
Proof. by rewrite /Rltb; case: Rlt_dec => H; constructor. Qed.

Lemma Rleb_norm_add x y : Rleb (Rabs (x + y)) (Rabs x + Rabs y).
Proof. by apply/RlebP/Rabs_triang. Qed.
Lemma addr_Rgtb0 x y : Rltb 0 x -> Rltb 0 y -> Rltb 0 (x + y).
Proof. by move=> /RltbP Hx /RltbP Hy; apply/RltbP; lra. Qed.
Lemma Rnorm0_eq0 x : Rabs x = 0 -> x = 0.
Proof. by move=> H; case: (Req_dec x 0) => // /Rabs_no_R0. Qed.
Lemma Rleb_leVge x y : Rleb 0 x -> Rleb 0 y -> (Rleb x y) || (Rleb y x).
Proof. by move=> _ _; case: (Rle_dec x y) => [/RlebP -> //|H]; apply/orP; right; apply/RlebP; lra. Qed.
Lemma RnormM : {morph Rabs : x y / x * y}.
Proof. by move=> x y; apply: Rabs_mult. Qed.
Lemma Rleb_def x y : (Rleb x y) = (Rabs (y - x) == y - x).
Proof. by apply/(sameP (RlebP x y))/(iffP idP) => [/eqP H|H]; [move: (Rabs_pos (y - x)); lra|apply/eqP/Rabs_pos_eq; lra]. Qed.
Lemma Rltb_def x y : (Rltb x y) = (y != x) && (Rleb x y).
Proof.
apply/(sameP (RltbP x y))/(iffP idP) => [/andP[/eqP H /RlebP H2]|H]; first by lra.
by apply/andP; split; [apply/eqP; lra|apply/RlebP; lra].
Qed.
Definition R_numMixin := NumMixin Rleb_norm_add addr_Rgtb0 Rnorm0_eq0 Rleb_leVge RnormM Rleb_def Rltb_def.
Canonical R_porderType := Eval hnf in POrderType ring_display R R_numMixin.
Canonical R_numDomainType := Eval hnf in NumDomainType R R_numMixin.
Canonical R_normedZmodType := Eval hnf in NormedZmodType R R R_numMixin.
Canonical R_numFieldType := Eval hnf in [numFieldType of R].
Lemma Rreal_axiom (x : R) : (Rleb 0 x) || (Rleb x 0).
Proof. by case: (Rle_dec 0 x) => [/RlebP -> //|H]; apply/orP; right; apply/RlebP; lra. Qed.
Lemma Rleb_total (x y : R) : (Rleb x y) || (Rleb y x).
Proof. by case: (Rle_dec x y) => [/RlebP -> //|H]; apply/orP; right; apply/RlebP; lra. Qed.
Definition R_total : totalPOrderMixin R_porderType := Rleb_total.
Canonical R_latticeType := Eval hnf in LatticeType R R_total.
Canonical R_distrLatticeType := Eval hnf in DistrLatticeType R R_total.
Canonical R_orderType := Eval hnf in OrderType R R_total.
Canonical R_realDomainType := Eval hnf in [realDomainType of R].
Canonical R_realFieldType := Eval hnf in [realFieldType of R].

Delimit Scope ring_scope with Ri.
Local Open Scope ring_scope.
(* the operations are those of the standard library *)
Lemma RplusE (x y : R) : Rplus x y = x + y. Proof. by []. Qed.
Lemma RmultE (x y : R) : Rmult x y = x * y. Proof. by []. Qed.
Lemma RoppE (x : R) : Ropp x = - x. Proof. by []. Qed.
Lemma RminusE (x y : R) : Rminus x y = x - y. Proof. by []. Qed.
Lemma RinvE (x : R) : x != 0 -> Rinv x = x^-1.
Proof. by move=> H; rewrite /GRing.inv /= /Rinvx H. Qed.
Lemma RdivE (x y : R) : y != 0 -> Rdiv x y = x / y.
Proof. by move=> H; rewrite /Rdiv RinvE. Qed.
Lemma RleP (x y : R) : reflect (Rle x y) (x <= y). Proof. exact: RlebP. Qed.
Lemma RltP (x y : R) : reflect (Rlt x y) (x < y). Proof. exact: RltbP. Qed.
Lemma RabsE (x : R) : Rabs x = `|x|. Proof. by []. Qed.

(* the logarithm *)
Lemma lnM (x y : R) : 0 < x -> 0 < y -> ln (x * y)%Ri = ln x + ln y.
Proof. by move=> /RltP Hx /RltP Hy; rewrite -RmultE ln_mult. Qed.
Lemma lnV (x : R) : 0 < x -> ln (x^-1)%Ri = - ln x.
Proof. by move=> H; rewrite -RinvE ?gt_eqF // ln_Rinv //; apply/RltP. Qed.
Lemma ln1 : ln 1%Ri = 0. Proof. exact: ln_1. Qed.
Lemma ln_lt_pred (x : R) : 0 < x -> x != 1 -> ln x < x - 1.
Proof.
move=> /RltP Hx /eqP Hx1; apply/RltP; have H : ln x <> 0.
  by move=> H; apply: Hx1; rewrite -(exp_ln x Hx) H exp_0.
have := exp_ineq1 (ln x) H; rewrite exp_ln // -RminusE => H1; change (1%Ri : R) with R1; lra.
Qed.
Lemma ln_le_pred (x : R) : 0 < x -> ln x <= x - 1.
Proof. by case: (altP (x =P 1)) => [->|H H0]; [rewrite ln1 subrr|apply/ltW/ln_lt_pred]. Qed.
(* the logarithm with the ring notations *)
Definition rln (x : R_realFieldType) : R_realFieldType := ln x.
Lemma rlnM (x y : R_realFieldType) : 0 < x -> 0 < y -> rln (x * y) = rln x + rln y. Proof. exact: lnM. Qed.
Lemma rlnV (x : R_realFieldType) : 0 < x -> rln x^-1 = - rln x. Proof. exact: lnV. Qed.
Lemma rln_div (x y : R_realFieldType) : 0 < x -> 0 < y -> rln (x / y) = rln x - rln y.
Proof. by move=> Hx Hy; rewrite rlnM ?invr_gt0 // rlnV. Qed.
Lemma rln1 : rln 1 = 0. Proof. exact: ln1. Qed.
Lemma rln_lt_pred (x : R_realFieldType) : 0 < x -> x != 1 -> rln x < x - 1. Proof. exact: ln_lt_pred. Qed.
Lemma rln_le_pred (x : R_realFieldType) : 0 < x -> rln x <= x - 1. Proof. exact: ln_le_pred. Qed.
Lemma rln_prod (I : Type) (r : seq I) (P : pred I) (f : I -> R_realFieldType) : (forall i, P i -> 0 < f i) ->
  rln (\prod_(i <- r | P i) f i) = \sum_(i <- r | P i) rln (f i).
Proof.
move=> H; suff [] : rln (\prod_(i <- r | P i) f i) = \sum_(i <- r | P i) rln (f i) /\ 0 < \prod_(i <- r | P i) f i by [].
elim/big_rec2: _ => [|i x y Hi [E Hx]]; first by rewrite rln1 ltr01.
by rewrite rlnM ?H // E mulr_gt0 ?H.
Qed.
