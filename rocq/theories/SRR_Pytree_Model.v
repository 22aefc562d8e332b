(* driver/VMC_SRRMSProp.py with complex parameters: nk.jax.jacobian replaces them by their real and
   imaginary parts (modes "real" and "complex": rows hold the derivatives for all real parts, then those
   for all imaginary parts; contract of NetKet, as the 2*n_parameters of L146-149), repacking L70-74,
   conversion of the update to the pytree of parameters L231. *)
From Verif Require Import Base SRR_Model.
Local Open Scope ring_scope.

Section Pytree.
Variables (R : rcfType) (P : nat).
(* a holomorphic amplitude with log-derivatives a + i b for the complex parameters: derivatives a + i b
   for the real parts and -b + i a for the imaginary parts *)
Definition split_rank (rk : rank_data R P) : rank_data R (P + P) :=
  RankData [seq row_mx p.1 (- p.2) | p <- zip (o_re rk) (o_im rk)]
           [seq row_mx p.2 p.1 | p <- zip (o_re rk) (o_im rk)] (energies rk).

(* L70-74 and L231, ravel_pytree: the vector must have one entry per parameter *)
Definition unravel (n_parameters : nat) (u : seq (R * R)) : option (seq (R * R)) :=
  if size u == n_parameters then Some u else None.
Definition driver_dp (complex_mode complex_parameters : bool) (n_parameters : nat) (updates : seq R) :
    option (seq (R * R)) :=
  unravel n_parameters
    (if complex_mode && complex_parameters then repack updates else [seq (x, 0) | x <- updates]).
(* number of columns of the jacobian *)
Definition n_columns (complex_parameters : bool) (n_parameters : nat) : nat :=
  if complex_parameters then (2 * n_parameters)%N else n_parameters.
End Pytree.
