(* vqs/mc/mc_state/state_unique_samples.py: MCStateUniqueSamples.samples_with_counts (L57-120)
   and grad_expect_hermitian_chunked (L184-253).  A configuration is an element of an eqType
   (the code uses the tuple of its entries as dictionary key).  The sampler is a stream of
   batches: for every call of self.sample the list, over the MPI ranks, of the samples drawn.
   n_samples = n_samples_per_rank * n_nodes (NetKet).  Chunking of the local estimators is in Expect_Model; the
   dtype casts are not modelled. *)
From Verif Require Import Base.
Import Num.Theory Order.TTheory.
Local Open Scope ring_scope.

Section Unique.
Variables (T : eqType).
Implicit Types (d : seq (T * nat)).

(* unique_samps[samp] += 1 for a defaultdict (insertion ordered), L60, L79 *)
Fixpoint dict_incr d (s : T) : seq (T * nat) :=
  match d with
  | [::] => [:: (s, 1%N)]
  | p :: d' => if p.1 == s then (s, p.2.+1) :: d' else p :: dict_incr d' s
  end.

(* for samp in all_samples: ... break, L78-81 *)
Fixpoint add_batch (n : nat) d (l : seq T) : seq (T * nat) :=
  match l with
  | [::] => d
  | s :: l' => let d' := dict_incr d s in if (n <= size d')%N then d' else add_batch n d' l'
  end.

(* the while loop, L71-93; returns the dictionary and the last all_samples.  None if the
   stream of batches ends although another one is requested *)
Definition max_reached (max_steps : option nat) (count : nat) : bool :=
  if max_steps is Some m then (m <= count)%N else false.
Fixpoint sample_loop (n : nat) (max_steps : option nat) d (count : nat) (batches : seq (seq (seq T))) :
    option (seq (T * nat) * seq T) :=
  match batches with
  | [::] => None
  | b :: batches' =>
    let all_samples := flatten b in
    let d' := add_batch n d all_samples in
    if max_reached max_steps count.+1 || (n <= size d')%N then Some (d', all_samples)
    else sample_loop n max_steps d' count.+1 batches'
  end.

Section Weights.
Variables (C : numFieldType) (per_rank n_nodes : nat) (max_steps : option nat).
Let n := (per_rank * n_nodes)%N.

(* L95-110: unique_samples and relative_counts before the split; None: all_samples is unbound
   because the loop is never entered (NameError), or empty *)
Definition unique_and_counts (batches : seq (seq (seq T))) : option (seq T * seq C) :=
  if max_reached max_steps 0 then None
  else if sample_loop n max_steps [::] 0 batches is Some (d, s0 :: _) then
    let max_id := minn (size d) n in
    Some (take max_id (map fst d) ++ nseq (n - max_id) s0,
          take max_id [seq (p.2)%:R | p <- d] ++ nseq (n - max_id) 0)
  else None.

(* L112-116: the part of rank r *)
Definition rank_slice (A : Type) (l : seq A) (r : nat) : seq A := take per_rank (drop (r * per_rank) l).

(* L118: the counts of rank r divided by their sum over all ranks *)
Definition rank_counts (counts : seq C) (r : nat) : seq C :=
  let total := \sum_(q <- iota 0 n_nodes) \sum_(c <- rank_slice counts q) c in
  [seq c / total | c <- rank_slice counts r].

(* the property samples_with_counts on every rank *)
Definition samples_with_counts (batches : seq (seq (seq T))) : option (seq (seq T * seq C)) :=
  if unique_and_counts batches is Some (us, cs) then
    Some [seq (rank_slice us r, rank_counts cs r) | r <- iota 0 n_nodes]
  else None.
End Weights.

(* grad_expect_hermitian_chunked, L195-253.  [loc]: local estimator; [oks]: the derivatives of
   the log-amplitude with respect to a complex parameter (vjp with conjugate=True applied to the
   conjugate of loc_vals_centered gives sum counts (E - mean) conj(O)); _sum and mpi_sum sum
   over the ranks *)
Section Expect.
Variables (C : numFieldType) (conj : C -> C) (loc oks : T -> C).
Definition weighted (ranks : seq (seq T * seq C)) (f : T -> C) : C :=
  \sum_(r <- ranks) \sum_(p <- zip r.1 r.2) p.2 * f p.1.
Definition expect_mean ranks : C := weighted ranks loc.
Definition expect_variance ranks : C := weighted ranks (fun x => `|loc x - expect_mean ranks| ^+ 2).
Definition expect_grad ranks : C := weighted ranks (fun x => (loc x - expect_mean ranks) * conj (oks x)).
End Expect.
End Unique.
