(* scripts/GPS_for_ab_initio/H4x4x4.py, L182-222: the one-body density matrices per spin.  log values
   are modelled by amplitudes: exp(a - b) is a quotient.  norb is the size of the configurations. *)
From Verif Require Import Base Occ_Model Hopping_Model.
Local Open Scope ring_scope.

(* get_conn_1RDM, L182-204, for one configuration: mels[spin, i, j] and x_prime[spin, i, j];
   axis entry 0 is spin up (1), 1 is spin down (2) *)
Definition conn_1rdm (x : cfg) (spin i j : nat) : int * cfg :=
  let up_count := cumcount 1 x in
  let down_count := cumcount 2 x in
  if spin == 0%N then apply_hopping i j x 1 (Some up_count)
  else apply_hopping i j x 2 (Some down_count).

Section Rdm.
Variables (F : fieldType) (psi : cfg -> F).
(* L220: exp(all_log_vals_conn - log_vals) * mels, one sample *)
Definition rdm_term (spin i j : nat) (x : cfg) : F :=
  let: (mel, x_prime) := conn_1rdm x spin i j in psi x_prime / psi x * mel%:~R.
(* get_1RDM, L206-222: [ranks] are the samples of every MPI rank; _mpi_sum adds over the ranks *)
Definition get_1rdm (ranks : seq (seq cfg)) (spin i j : nat) : F :=
  let total_samples := (\sum_(x <- ranks) size x)%N in
  (\sum_(samples <- ranks) \sum_(x <- samples) rdm_term spin i j x) / total_samples%:R.
End Rdm.
