(* driver/minSR.py: minSRVMC._forward_and_backward (L48-232) and the mean of _statistics
   (L235-257).  Arrays are lists, MPI ranks a list of per-rank states, sums over the ranks
   (mpi_sum_jax) sums over that list.  Elsewhere: the conversion of the dense update to a
   pytree (L213-223, MinSR_Pytree_Model), the other entries of _statistics (MinSR_Stats_Model). *)
From Verif Require Import Base.
Local Open Scope ring_scope.

Section MinSR.
Variables (C : fieldType) (conj sqrt : C -> C) (T : Type) (P : nat).
(* [jac x w]: the row of nk.jax.jacobian(..., pdf=w, dense=True, center=False) for the sample x
   (L94-105, L128-142, L152-166, L192-204), the two real rows of mode "complex" recombined;
   whether NetKet multiplies it by sqrt(w) depends on its version, see [netket_jac].
   [eloc]: the local energy *)
Variables (jac : T -> C -> 'rV[C]_P) (eloc : T -> C).

(* numpy .T of a two-dimensional array *)
Definition transpose (m : seq (seq C)) : seq (seq C) :=
  [seq [seq nth 0 row j | row <- m] | j <- iota 0 (size (head [::] m))].

(* self.state.samples with its two leading axes, and the flattened counts (L52-60) *)
Record rank_state := RankState { samples : seq (seq T); counts : seq C }.
Definition flat (rk : rank_state) : seq T := flatten (samples rk).

(* L55-58: the weights of a state without counts *)
Definition plain_counts (sampless : seq (seq (seq T))) : seq rank_state :=
  let total := (\sum_(s <- sampless) size (flatten s))%N in
  [seq RankState s (nseq (size (flatten s)) (1 / total%:R)) | s <- sampless].

(* state.local_estimators of NetKet; older versions return the transposed array
   ([transposed = true]), newer ones an array with the axes of samples *)
Definition local_estimators (transposed : bool) (rk : rank_state) : seq (seq C) :=
  let m := map (map eloc) (samples rk) in if transposed then transpose m else m.

(* L63 *)
Definition loc_ens transposed rk : seq C := flatten (transpose (local_estimators transposed rk)).

Section Step.
Variables (transposed : bool) (ranks : seq rank_state) (n_chunks chunk_size : nat).
Let n_nodes := size ranks.

(* _statistics, L246 *)
Definition e_mean : C :=
  \sum_(rk <- ranks) \sum_(p <- zip (loc_ens transposed rk) (counts rk)) p.1 * p.2.

(* L65 *)
Definition loc_ens_centered rk : seq C :=
  [seq (p.1 - e_mean) * sqrt p.2 | p <- zip (loc_ens transposed rk) (counts rk)].

(* entry i of an array reshaped to (n_chunks, chunk_size), L71-78 *)
Definition chunk (A : Type) (i : nat) (l : seq A) : seq A := take chunk_size (drop (i * chunk_size) l).

Definition jac_rows rk i : seq 'rV[C]_P :=
  [seq jac p.1 p.2 | p <- zip (chunk i (flat rk)) (chunk i (counts rk))].

(* L107-111 *)
Definition loss_grad : 'rV[C]_P :=
  \sum_(i <- iota 0 n_chunks) \sum_(rk <- ranks)
     \sum_(p <- zip (jac_rows rk i) (chunk i (loc_ens_centered rk))) p.2 *: p.1.

(* L113-117 *)
Definition O_avg : 'rV[C]_P :=
  \sum_(i <- iota 0 n_chunks) \sum_(rk <- ranks)
     \sum_(p <- zip (jac_rows rk i) (chunk i (counts rk))) p.2 *: p.1.

(* L71 and L121-125 on rank r; L126-127: gathered and flattened (same for j, L145-151) *)
Definition idx_rank (r i : nat) : seq nat :=
  [seq (k + r * chunk_size + i * chunk_size * (n_nodes - 1))%N | k <- iota (i * chunk_size) chunk_size].
Definition idx_gathered (i : nat) : seq nat := flatten [seq idx_rank r i | r <- iota 0 n_nodes].

(* L138-143 (L162-167 for j) *)
Definition rows_gathered (i : nat) : seq 'rV[C]_P :=
  [seq O - O_avg | O <- flatten [seq jac_rows rk i | rk <- ranks]].

(* O_i.dot(O_j.conj().T), one entry, L169 *)
Definition dot_conj (u v : 'rV[C]_P) : C := \sum_a u 0 a * conj (v 0 a).

Section Solve.
(* state.n_samples and self.solver *)
Variables (n_samples : nat) (solver : 'M[C]_n_samples -> 'cV[C]_n_samples -> 'cV[C]_n_samples).

(* OO.at[ii, jj].set(...) for a meshgrid of index lists, L168-169 *)
Definition at_set (OO : 'M[C]_n_samples) (ii jj : seq nat) (Oi Oj : seq 'rV[C]_P) : 'M[C]_n_samples :=
  \matrix_(p, q) if (val p \in ii) && (val q \in jj)
                 then dot_conj (nth 0 Oi (index (val p) ii)) (nth 0 Oj (index (val q) jj))
                 else OO p q.

(* L81-84 and the double loop L120-169 *)
Definition tangent_kernel : 'M[C]_n_samples :=
  foldl (fun OO i =>
    foldl (fun OO j => at_set OO (idx_gathered i) (idx_gathered j) (rows_gathered i) (rows_gathered j))
          OO (iota 0 n_chunks))
    0 (iota 0 n_chunks).

(* L172-177: gather gives (n_nodes, n_chunks, chunk_size), swapaxes(0, 1) and flatten *)
Definition restacked : seq C :=
  flatten [seq flatten [seq chunk i (loc_ens_centered rk) | rk <- ranks] | i <- iota 0 n_chunks].

(* L179 *)
Definition OO_epsilon : 'cV[C]_n_samples :=
  solver tangent_kernel (\col_p nth 0 restacked (val p)).

(* L181-183 and L189: reshape to (n_chunks, n_nodes, -1), swapaxes(0, 1), scatter: entry i of the
   array received by rank r *)
Definition eps_received (r i : nat) : seq C :=
  let len := (n_samples %/ (n_chunks * n_nodes))%N in
  take len (drop ((i * n_nodes + r) * len) [seq OO_epsilon p 0 | p <- enum 'I_n_samples]).

(* L191-211 *)
Definition dense_update : 'rV[C]_P :=
  \sum_(i <- iota 0 n_chunks) \sum_(r <- zip (iota 0 n_nodes) ranks)
     \sum_(p <- zip (jac_rows r.2 i) (eps_received r.1 i)) p.2 *: map_mx conj (p.1 - O_avg).
End Solve.
End Step.
End MinSR.

(* nk.jax.jacobian with pdf and center=False: the row of the sample x multiplied by sqrt(pdf) or
   not, depending on the NetKet version.  [oks x]: the log-derivatives *)
Definition netket_jac (C : fieldType) (sqrt : C -> C) (T : Type) (P : nat) (scaled : bool)
    (oks : T -> 'rV[C]_P) (x : T) (w : C) : 'rV[C]_P :=
  if scaled then sqrt w *: oks x else oks x.

(* L226-230: the real part is taken for real parameters *)
Definition cast_update (C : fieldType) (re : C -> C) (complex_parameters : bool) (P : nat) (dp : 'rV[C]_P) : 'rV[C]_P :=
  if complex_parameters then dp else map_mx re dp.
