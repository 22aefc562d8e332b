(* vqs/mc/mc_state/expect.py (expect_chunked L20-36, expect L39-52, _expect L55-90): the energy
   estimate of a sampled state, together with the way the local energies of the repository are
   evaluated in chunks (nkjax.vmap_chunked in operator/hamiltonian/hubbard.py L201, J1J2.py L126,
   ab_initio.py L957, ab_initio_sparse.py L413).  NetKet's vmap_chunked, nkjax.expect and statistics
   are read as below.  Of the statistics the mean, the variance and the error of the mean for
   sufficiently many chains are modelled; the error from blocks of a few long chains, R_hat and the
   auto-correlation times are not. *)
From Verif Require Import Base.
Import Num.Theory.
Local Open Scope ring_scope.

Section Expect.
Variables (T : Type) (C : numClosedFieldType).

(* NetKet's chunks of a batch: the whole batch if no chunk size is given or it is not smaller than
   the batch; otherwise full chunks one after the other and the remaining elements at the end.
   (A chunk size of 0 is refused by NetKet.) *)
Definition chunks (A : Type) (chunk_size : option nat) (l : seq A) : seq (seq A) :=
  match chunk_size with
  | None => [:: l]
  | Some c =>
    if (size l <= c)%N then [:: l]
    else let k := (size l %/ c)%N in rcons [seq take c (drop (i * c) l) | i <- iota 0 k] (drop (k * c) l)
  end.

(* nkjax.vmap_chunked: the chunks are evaluated one after the other, the results concatenated *)
Definition vmap_chunked (V : Type) (chunk_size : option nat) (f : T -> V) (l : seq T) : seq V :=
  flatten [seq map f c | c <- chunks chunk_size l].

(* nkjax.vjp_chunked for one parameter: the cotangents are paired with the derivatives of the
   log-amplitude chunk by chunk and the contributions of the chunks are added up *)
Definition vjp_chunked (chunk_size : option nat) (g : T -> C) (l : seq (T * C)) : C :=
  foldl (fun acc c => acc + \sum_(p <- c) p.2 * g p.1) 0 (chunks chunk_size l).

(* vstate.samples: one batch (two dimensions), or chains of samples (three dimensions) *)
Inductive samples := Batch of seq T | Chains of seq (seq T).

(* n_chains = samples.shape[0], L65 *)
Definition n_chains (s : samples) : nat :=
  match s with Batch l => size l | Chains ls => size ls end.

(* samples = jax.lax.collapse(samples, 0, 2) if samples.ndim >= 3, L66-67 *)
Definition collapse (s : samples) : seq T :=
  match s with Batch l => l | Chains ls => flatten ls end.

(* the local kernel of the operator: local_en_on_the_fly with the chunk size, hubbard.py L105-201
   (and the other Hamiltonians); [loc]: the local energy of one sample *)
Definition local_values (loc : T -> C) (chunk_size : option nat) (l : seq T) : seq C :=
  vmap_chunked chunk_size loc l.

(* nkjax.expect: L_sigma.reshape((n_chains, -1)) *)
Definition reshape_chains (n : nat) (l : seq C) : seq (seq C) :=
  let w := (size l %/ n)%N in [seq take w (drop (i * w) l) | i <- iota 0 n].

(* _expect up to the statistics on one rank, L65-89 *)
Definition expect_rows (loc : T -> C) (chunk_size : option nat) (s : samples) : seq (seq C) :=
  let n := n_chains s in
  reshape_chains n (local_values loc chunk_size (collapse s)).

(* NetKet's statistics over the MPI ranks; one list of chains per rank *)
Definition amean (l : seq C) : C := (\sum_(x <- l) x) / (size l)%:R.
(* mean: the average over the ranks of the local averages *)
Definition mpi_mean (ranks : seq (seq C)) : C := amean [seq amean l | l <- ranks].
(* var: squared distances to the mean, summed over all ranks, over the total number *)
Definition mpi_var (ranks : seq (seq C)) : C :=
  let m := mpi_mean ranks in
  (\sum_(l <- ranks) \sum_(x <- l) `|x - m| ^+ 2) / (\sum_(l <- ranks) size l)%N%:R.

(* mean, variance and squared error of the mean; the latter is None if there are not more than
   min_chains chains *)
Definition statistics (min_chains : nat) (ranks : seq (seq (seq C))) : C * C * option C :=
  let data := [seq flatten rows | rows <- ranks] in
  let b := [seq [seq amean row | row <- rows] | rows <- ranks] in
  let n_batches := (\sum_(l <- b) size l)%N in
  (mpi_mean data, mpi_var data,
   if (min_chains < n_batches)%N then Some (mpi_var b / n_batches%:R) else None).

(* expect_chunked (Some c) and expect (None), L20-52; one sample array per rank *)
Definition expect (min_chains : nat) (loc : T -> C) (chunk_size : option nat) (ranks : seq samples) : C * C * option C :=
  statistics min_chains [seq expect_rows loc chunk_size s | s <- ranks].

(* state_unique_samples.py, grad_expect_hermitian_chunked L184-253 with its chunk size: mean, variance
   and the gradient with respect to one complex parameter, over the ranks with their samples and
   counts; [conj_oks]: the conjugated derivative of the log-amplitude *)
Definition grad_expect_hermitian_chunked (chunk_size : option nat) (loc conj_oks : T -> C) (ranks : seq (seq T * seq C)) : C * C * C :=
  let vals r := zip r.2 (local_values loc chunk_size r.1) in
  let mean := \sum_(r <- ranks) \sum_(p <- vals r) p.1 * p.2 in
  let variance := \sum_(r <- ranks) \sum_(p <- vals r) p.1 * `|p.2 - mean| ^+ 2 in
  let centered r := [seq p.1 * (p.2 - mean) | p <- vals r] in
  (mean, variance, \sum_(r <- ranks) vjp_chunked chunk_size conj_oks (zip r.1 (centered r))).
End Expect.
