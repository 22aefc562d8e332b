(* np.array_split(arr, n) (NumPy, assumed): n consecutive parts, the first len(arr) mod n of
   them one longer.  Used in driver/abstract_state_fitting.py L43-45, in
   vqs/mc/mc_state/state_stratified_sampling.py L45-47 and L85. *)
From Verif Require Import Base.

Definition part_size (len n r : nat) : nat := len %/ n + (r < len %% n).
Definition part_start (len n r : nat) : nat := r * (len %/ n) + minn r (len %% n).
Definition array_split (A : Type) (l : seq A) (n : nat) : seq (seq A) :=
  [seq take (part_size (size l) n r) (drop (part_start (size l) n r) l) | r <- iota 0 n].

(* AbstractStateFittingDriver.__init__, driver/abstract_state_fitting.py L43-50: the data set
   (configurations, amplitudes) is split array by array, the lists of parts are zipped
   (tree_map over the two lists), rank r keeps entry r.  mpi_bcast from rank 0 gives every rank
   rank 0's data and is the identity here (one data set). *)
Definition fitting_shards (A B : Type) (xs : seq A) (ys : seq B) (n_nodes : nat) : seq (seq A * seq B) :=
  zip (array_split xs n_nodes) (array_split ys n_nodes).

(* _loss and _loss_and_grad, driver/autoreg_state_fitting.py L79-95: loss is the mean over the
   mini-batch of the rank, the reported loss the mean over the ranks, the gradient the *sum*
   over the ranks (L93).  [err d]: |psi(x) - y|^2 of one data item, [derr d]: its derivative
   with respect to one parameter (real or imaginary part; the final conjugation is per
   component and left out) *)
Section Fitting.
Local Open Scope ring_scope.
Variables (F : fieldType) (D : Type) (err derr : D -> F).
Definition mean (f : D -> F) (batch : seq D) : F := (\sum_(d <- batch) f d) / (size batch)%:R.
Definition loss (batches : seq (seq D)) : F := (\sum_(b <- batches) mean err b) / (size batches)%:R.
Definition loss_grad (batches : seq (seq D)) : F := \sum_(b <- batches) mean derr b.
End Fitting.
