(* scripts/cpd-backflow/cpd_backflow/rdms.py, main, L75-115: the accumulation of the local density matrices of
   local_en_on_the_fly into rdm1 and rdm2.  Floating-point types are not modelled. *)
From Verif Require Import Base Occ_Model AbInitioOtf_Model.
Local Open Scope ring_scope.

(* netket's MCState.n_samples setter (library contract): the number of samples is a total over all MPI ranks, and
   is rounded up to a multiple of the number of chains.  Samples of one rank: *)
Definition samples_of_rank (n_chains_per_rank n_nodes n : nat) : nat :=
  let n_chains := (n_chains_per_rank * n_nodes)%N in
  (n_chains_per_rank * ((n + n_chains.-1) %/ n_chains))%N.

(* L114-115: rdm2[:, k, k, :] -= rdm1.T for every k *)
Definition subtract_k (F : fieldType) (rdm1 : nat -> nat -> F) (rdm2 : nat -> nat -> nat -> nat -> F) (k : nat) : nat -> nat -> nat -> nat -> F :=
  fun p q r s => if (q == k) && (r == k) then rdm2 p q r s - rdm1 s p else rdm2 p q r s.
(* L112-115 *)
Definition reorder (F : fieldType) (norb : nat) (rdm1 : nat -> nat -> F) (rdm2 : nat -> nat -> nat -> nat -> F) : nat -> nat -> nat -> nat -> F :=
  foldl (subtract_k rdm1) (fun p q r s => 2%:R * rdm2 p q r s) (iota 0 norb).

Section RDM.
Variables (F : fieldType) (half : F) (n_elecs : nat * nat) (t : nat -> nat -> F) (eri : nat -> nat -> nat -> nat -> F).
Variables (fast : cfg -> option (seq nat -> seq nat -> F)) (psi : cfg -> F) (norb : nat).
(* vs.sample(): chunk number, rank, number of samples *)
Variable draw : nat -> nat -> nat -> seq cfg.

(* L93-102: local_rdm1 and local_rdm2 of one sample *)
Definition local_rdms (x : cfg) : t2 F * t4 F :=
  let r := ab_otf_rdm half n_elecs t eri (fast x) psi x in (r.1.2, r.2).
(* the samples of all ranks in chunk c (L82, L88-90) *)
Definition chunk_samples (n_chains_per_rank n_nodes chunk_size c : nat) : seq (seq cfg) :=
  [seq draw c r (samples_of_rank n_chains_per_rank n_nodes chunk_size) | r <- iota 0 n_nodes].
(* L84-86, L107-110: sums over samples, ranks and chunks, divided by n_samples *)
Definition accumulate (n_samples : nat) (chunks : seq (seq (seq cfg))) (f : cfg -> F) : F :=
  (\sum_(c <- chunks) \sum_(r <- c) \sum_(x <- r) f x) / n_samples%:R.
Definition rdms (n_chains_per_rank n_nodes n_samples chunk_size : nat) : option (t2 F * t4 F) :=
  if (n_samples %% n_nodes != 0)%N then None
  else let per_rank := (n_samples %/ n_nodes)%N in
  if (per_rank %% chunk_size != 0)%N then None
  else let n_chunks := (per_rank %/ chunk_size)%N in
  let chunks := [seq chunk_samples n_chains_per_rank n_nodes chunk_size c | c <- iota 1 n_chunks] in
  let rdm1 p q := accumulate n_samples chunks (fun x => (local_rdms x).1 p q) in
  let rdm2 p q r s := accumulate n_samples chunks (fun x => (local_rdms x).2 p q r s) in
  Some (rdm1, reorder norb rdm1 rdm2).
End RDM.
