(* datasets/h2o.py L79-90: to_config *)
From Verif Require Import Base.

(* binary digits of a positive number, least significant first, as produced by repeated
   division; [fuel] >= a is enough *)
Fixpoint digits_lsb (fuel a : nat) : seq bool :=
  if fuel is f.+1 then (if a == 0 then [::] else odd a :: digits_lsb f a./2) else [::].
(* bin(a)[2:]: most significant digit first; bin(0)[2:] is "0" *)
Definition py_bin (a : nat) : seq bool := if a == 0 then [:: false] else rev (digits_lsb a a).

(* [0] * (n - (len(bin(a)) - 2)) + [1 if digit == "1" else 0 ...]; then .reverse().
   A negative repetition count gives the empty list, as truncated subtraction does. *)
Definition det_string (a n : nat) : seq nat :=
  rev (nseq (n - size (py_bin a)) 0 ++ map nat_of_bool (py_bin a)).

(* np.array(string_a, uint8) + 2 * np.array(string_b, uint8); None when the lengths differ
   (numpy broadcasting error; broadcasting of length-1 arrays is not modelled) *)
Definition to_config (alpha beta n : nat) : option (seq nat) :=
  let sa := det_string alpha n in
  let sb := det_string beta n in
  if size sa == size sb then Some [seq p.1 + 2 * p.2 | p <- zip sa sb] else None.
