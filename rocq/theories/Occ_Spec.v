(* Meaning of occupancy configurations: the only link between the code's uint8
   encoding and the Fock space of Fock_Spec. *)
From Verif Require Import Base Fock_Spec.

(* 0 empty, 1 up, 2 down, 3 both *)
Definition has_spin (s : spin) (o : nat) : bool :=
  if s is Up then (o == 1) || (o == 3) else (o == 2) || (o == 3).
Definition fock_of (x : seq nat) : fock := (map (has_spin Up) x, map (has_spin Dn) x).
Definition valid (x : seq nat) : bool := all (fun o => o < 4) x.
Definition n_spin (s : spin) (x : seq nat) : nat := count (has_spin s) x.
(* the integer by which the code denotes a spin species *)
Definition spin_int (s : spin) : nat := if s is Up then 1 else 2.
(* inverse of fock_of on valid configurations *)
Definition cfg_of (f : fock) : seq nat := [seq (nat_of_bool p.1 + 2 * nat_of_bool p.2) | p <- zip f.1 f.2].
(* slice b of a flattened array delimited by a sections array *)
Definition sec_lo (secs : seq nat) (b : nat) : nat := if b is b'.+1 then nth 0 secs b' else 0.
Definition sec_slice (T : Type) (l : seq T) (secs : seq nat) (b : nat) : seq T :=
  take (nth 0 secs b - sec_lo secs b) (drop (sec_lo secs b) l).
