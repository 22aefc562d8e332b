(* scripts/cpd-backflow/cpd_backflow/corrfunc.py: spin_spin_correlation (L5-29) and get_correlations
   (L31-47).  Real arrays (the final .real is the identity); half, quarter, third, sixth are the
   constants 0.5, 0.25, 1/3, 1/6 as elements of the field. *)
From Verif Require Import Base.
Local Open Scope ring_scope.

Section Corr.
Variables (F : fieldType) (norb : nat).
Implicit Types (PA PB : nat -> nat -> F).
(* L18: -(rdm2 / 6 + rdm2.transpose(0, 3, 2, 1) / 3) *)
Definition spinful (rdm2 : nat -> nat -> nat -> nat -> F) (i j k l : nat) : F := - (rdm2 i j k l / 6%:R + rdm2 i l k j / 3%:R).
(* L21-29 *)
Definition spin_spin_correlation (rdm1 : nat -> nat -> F) (rdm2 : nat -> nat -> nat -> nat -> F) PA PB : F :=
  let one := \sum_(i < norb) \sum_(j < norb) \sum_(k < norb) PA i k * PB j k * rdm1 i j in
  let two := \sum_(i < norb) \sum_(j < norb) \sum_(k < norb) \sum_(l < norb) PA i j * PB k l * spinful rdm2 i j k l in
  1 / 4%:R * one + 1 / 2%:R * two.
(* L38-40 *)
Definition site_proj (s i j : nat) : F := if (i == s) && (j == s) then 1 else 0.
(* L41-47 *)
Definition get_correlations (rdm1 : nat -> nat -> F) (rdm2 : nat -> nat -> nat -> nat -> F) (a b : nat) : F :=
  spin_spin_correlation rdm1 rdm2 (site_proj a) (site_proj b).
End Corr.
