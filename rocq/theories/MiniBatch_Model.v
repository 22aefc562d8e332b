(* Mini-batches of ARStateFitting, driver/autoreg_state_fitting.py L46-60.
   jax.random.choice(key, ids, (k,), p=probas, replace=False) returns the k largest of
   log p_i + (independent Gumbel noise); this is assumed to be k successive draws, each with
   probability proportional to p among the ids not yet drawn (the Gumbel-max property), and p need
   not be normalised.  One rank; p_i = |y_i|^2 > 0 (L42). *)
From Verif Require Import Base Split_Model.
Import Num.Theory.
Local Open Scope ring_scope.

Section MiniBatch.
Variables (F : realFieldType) (n : nat) (p : 'I_n -> F).

(* expectation of G over the list of k drawn ids, A: the ids still available *)
Fixpoint draw_ex (k : nat) (A : {set 'I_n}) (G : seq 'I_n -> F) : F :=
  if k is k'.+1 then
    \sum_(i in A) p i / (\sum_(j in A) p j) * draw_ex k' (A :\ i) (fun s => G (i :: s))
  else G [::].

(* L46-65: expectation of the loss of one step; err i: |psi(x_i) - y_i|^2, the loss is the mean over
   the mini-batch (L83, Split_Model) *)
Definition batch_loss (mini_batch_size : nat) (err : 'I_n -> F) : F :=
  draw_ex mini_batch_size setT (fun ids => mean err ids).
End MiniBatch.
