(* The mean over unique samples as a random variable, vqs/mc/mc_state/state_unique_samples.py
   L57-120 with expect L184-253 (Unique_Model).  The raw samples are independent draws with
   probabilities p (exact sampling, e.g. ARDirectSampler); max_sampling_steps calls of self.sample,
   each with batch_per_rank samples on each of n_nodes ranks.  All of them are drawn here; the code
   stops calling the sampler when it has n_samples different ones, which does not matter as later
   draws are not used. *)
From Verif Require Import Base Unique_Model.
Local Open Scope ring_scope.

Section Bias.
Variables (F : realFieldType) (X : finType) (p : X -> F).

(* expectation over N independent draws *)
Fixpoint iid_ex (N : nat) (G : seq X -> F) : F :=
  if N is N'.+1 then \sum_x p x * iid_ex N' (fun s => G (x :: s)) else G [::].

Variables (per_rank n_nodes max_sampling_steps batch_per_rank : nat).

(* the draws as the batches returned by self.sample (L69, L89): per call, per rank *)
Definition as_batches (s : seq X) : seq (seq (seq X)) :=
  [seq reshape (nseq n_nodes batch_per_rank) b
  | b <- reshape (nseq max_sampling_steps (n_nodes * batch_per_rank)%N) s].
Definition n_draws := (max_sampling_steps * (n_nodes * batch_per_rank))%N.

(* expectation of the mean returned for the local estimator loc *)
Definition unique_mean (loc : X -> F) : F :=
  iid_ex n_draws (fun s =>
    if samples_with_counts F per_rank n_nodes (Some max_sampling_steps) (as_batches s) is Some ranks
    then expect_mean loc ranks else 0).
End Bias.
