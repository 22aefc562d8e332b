(* models/jastrow.py *)
From Verif Require Import Base.
Local Open Scope ring_scope.

(* up_down_occupancies, L10-23: x & 1, (x & 2) / 2 cast to int *)
Definition occ_up (o : nat) : nat := Nat.land o 1.
Definition occ_dn (o : nat) : nat := (Nat.land o 2 %/ 2)%N.

Section Jastrow.
Variable F : comRingType.
(* Jastrow.__call__, L40-53, one sample.  apply_symmetries: one copy of the configuration per
   site permutation; [perms = [:: iota 0 L]] is the default without symmetries *)
Definition jastrow (K : nat -> nat -> F) (perms : seq (seq nat)) (x : seq nat) : F :=
  let L := size x in
  let kernel i j := K i j + K j i in
  \sum_(p <- perms)
    let y := [seq nth 0%N x k | k <- p] in
    \sum_(i < L) \sum_(j < L)
      (1 - (occ_up (nth 0%N y i))%:R) * kernel i j * (1 - (occ_dn (nth 0%N y j))%:R).
End Jastrow.
