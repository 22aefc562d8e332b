(* Textbook Metropolis-Hastings: every chain separately, amplitudes evaluated from scratch,
   no cache.  Uses the same random streams. *)
From Verif Require Import Base.
Import Num.Theory Order.TTheory.
Local Open Scope ring_scope.

Section Ref.
Variables (F : realFieldType) (X Key Sites : Type) (x0 : X).
Variable expf : F -> F.
Variables (split3 : Key -> Key * Key * Key) (uniform : Key -> seq F).
Variable transition : Key -> seq X -> seq X * option (seq F) * Sites.
Variable logprob : X -> F.   (* machine_pow * Re log psi *)

Definition proposal (k : Key) (xs : seq X) : seq X := (transition (split3 k).1.2 xs).1.1.
Definition correction (k : Key) (xs : seq X) (b : nat) : F :=
  if (transition (split3 k).1.2 xs).1.2 is Some cs then nth 0 cs b else 0.
Definition accepted (k : Key) (xs : seq X) (b : nat) : bool :=
  nth 0 (uniform (split3 k).2) b
  < expf (logprob (nth x0 (proposal k xs) b) - logprob (nth x0 xs b) + correction k xs b).
Definition ref_step (k : Key) (xs : seq X) : seq X :=
  [seq (if accepted k xs b then nth x0 (proposal k xs) b else nth x0 xs b) | b <- iota 0 (size xs)].
Definition next_key (k : Key) : Key := (split3 k).1.1.
(* chains, key and number of accepted moves after n steps *)
Fixpoint ref_run (n : nat) (k : Key) (xs : seq X) (acc : nat) : seq X * Key * nat :=
  if n is n'.+1 then
    ref_run n' (next_key k) (ref_step k xs) (acc + count (accepted k xs) (iota 0 (size xs)))
  else (xs, k, acc).
End Ref.
