(* The hydrogen geometries of the scripts and the radial correlations on the 6x6 sheet:
   scripts/ARGPS/argps/configs/hydrogen.py (closest_divisors L6-10, chain L13-18, sheet L21-29),
   scripts/cpd-backflow/cpd_backflow/configs/hsheet.py (closest_divisors L6-9, sheet L11-19),
   scripts/cpd-backflow/cpd_backflow/corrfunc.py and plots/hsheet_corr.py (radial_correlations L49-70, L56-76). *)
From Verif Require Import Base.
Local Open Scope ring_scope.

(* round(math.sqrt(n)) with an exact square root, which is never halfway between two integers: the largest a with
   (2 a - 1)^2 <= 4 n *)
Fixpoint round_sqrt_from (n a : nat) : nat :=
  if a is a'.+1 then (if ((2 * a').+1 * (2 * a').+1 <= 4 * n)%N then a else round_sqrt_from n a') else 0.
Definition round_sqrt (n : nat) : nat := round_sqrt_from n n.
(* while n % a > 0: a -= 1; None: n % 0 raises *)
Fixpoint divisor_below (n a : nat) : option nat :=
  if a is a'.+1 then (if (0 < n %% a)%N then divisor_below n a' else Some a) else None.
Definition closest_divisors (n : nat) : option (nat * nat) :=
  if divisor_below n (round_sqrt n) is Some a then Some (a, n %/ a)%N else None.

Section Geometry.
Variable F : numFieldType.
(* the coordinates of the atoms, all of them hydrogen *)
Definition chain (n_atoms : nat) (distance : F) : seq (F * F * F) := [seq (x%:R * distance, 0, 0) | x <- iota 0 n_atoms].
Definition sheet (n_atoms : nat) (dist : F) : option (seq (F * F * F)) :=
  if closest_divisors n_atoms is Some (Lx, Ly) then
    Some (flatten [seq [seq (x%:R * dist, y%:R * dist, 0) | y <- iota 0 Ly] | x <- iota 0 Lx])
  else None.

(* radial_correlations: [C_0, C_1, C_sqrt2, C_2] *)
Definition bulk : seq nat := [:: 14; 15; 20; 21]%N.
Definition shell_1 (a : nat) : seq nat := [:: a - 6; a - 1; a + 6; a + 1]%N.
Definition shell_sqrt2 (a : nat) : seq nat := [:: a - 7; a + 5; a + 7; a - 5]%N.
Definition shell_2 (a : nat) : seq nat := [:: a - 12; a - 2; a + 12; a + 2]%N.
Definition accumulate (corr : nat -> nat -> F) (shell : nat -> seq nat) : F :=
  foldl (fun c a => foldl (fun c b => c + corr a b) c (shell a)) 0 bulk.
Definition radial_correlations (corr : nat -> nat -> F) : seq F :=
  [:: foldl +%R 0 [seq corr a a | a <- bulk] / (size bulk)%:R; accumulate corr shell_1 / 4%:R;
      accumulate corr shell_sqrt2 / 4%:R; accumulate corr shell_2 / 4%:R].
End Geometry.
