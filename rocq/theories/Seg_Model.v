(* models/segmented_qGPS.py, one configuration *)
From Verif Require Import Base.
Local Open Scope ring_scope.

(* jnp.cumsum keeps the dtype of its argument; wrap is the wrap-around of that dtype *)
Definition cumsum (wrap : nat -> nat) (s : seq nat) : seq nat := scanl (fun a b => wrap (a + b)%N) 0%N s.
(* counts[..., 1:] = cumsum(..[:-1]), counts[..., 0] = 0 by jnp.pad *)
Definition padded (wrap : nat -> nat) (s : seq nat) : seq nat := 0%N :: cumsum wrap s.
Definition all_but_last (s : seq nat) : seq nat := take (size s).-1 s.

(* count_spins, L13-30; local indices 0: down, 1: up, of a 32-bit integer type *)
Definition count_spins (indices : seq nat) : seq nat * seq nat :=
  (padded id [seq (Nat.land (o + 1) 2 %/ 2)%N | o <- all_but_last indices],
   padded id [seq Nat.land (o + 1) 1 | o <- all_but_last indices]).

(* count_fermions, L33-53; states_to_local_indices of the fermionic space returns uint8
   (hilbert/discrete_fermion.py L72-73), so the cumulative sums are uint8 *)
Definition w8 (n : nat) : nat := (n %% 256)%N.
Definition count_fermions (configs : seq nat) : seq nat * seq nat :=
  (padded w8 [seq Nat.land o 1 | o <- all_but_last configs],
   padded w8 [seq (Nat.land o 2 %/ 2)%N | o <- all_but_last configs]).

(* setup, L71-91: (max_up, max_dn); total_sz2 is twice the total magnetisation *)
Definition spin_bounds (L : nat) (total_sz2 : int) : int * int :=
  if (L %% 2 == 0)%N then
    let l := (total_sz2 %/ 2)%Z in let h := (L %/ 2)%N%:Z in (h + l, h - l)
  else
    let m := total_sz2 in let h := ((L%:Z - `|m|%N%:Z) %/ 2)%Z in
    if 0 < m then (h + m, h) else (h, h - m).

Section Seg.
Variable F : comRingType.
(* epsilon[o, m, i, n_up, n_dn] *)
Variable eps : nat -> nat -> nat -> nat -> nat -> F.
(* evaluate_site_product and the sum over the support dimension, L112-122 *)
Definition seg_log_psi (M : nat) (indices : seq nat) (counts : seq nat * seq nat) : F :=
  \sum_(m < M) \prod_(i < size indices) eps (nth 0%N indices i) m i (nth 0%N counts.1 i) (nth 0%N counts.2 i).
End Seg.
