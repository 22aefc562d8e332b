(* Model of GPSKet/operator/hamiltonian/J1J2.py local_en_on_the_fly (one sample).  Spins are the integers -1/1; hilbert.states_to_local_indices is NetKet's map of a
   spin to its position in the local states [-1, 1]; exp(log_amp_connected - log_amp) is the
   amplitude ratio.  The construction of the operator (get_J1_J2_Hamiltonian, L17-54) is NetKet's
   and not modelled: operators and acting_on are arbitrary. *)
From Verif Require Import Base.
Local Open Scope ring_scope.

Definition state_to_local_index (v : int) : nat := if v == 1 then 1%N else 0%N.

Section J1J2.
Variable F : fieldType.
(* Some of logpsi with the cache of the sample (applied to the new spins and the update sites) if
   use_fast_update, L81-88 and L105-110; None otherwise *)
Variable fast : option (seq int -> seq nat -> F).
Variable psi : seq int -> F.
(* J1J2.py L92-122, inner_vmap *)
Definition inner_vmap (sample : seq int) (operator_element : nat -> nat -> F) (acting_on : nat * nat) : F :=
  let i := acting_on.1 in let j := acting_on.2 in
  let basis_index := (state_to_local_index (nth 0%R sample i) * 1
                      + state_to_local_index (nth 0%R sample j) * 2)%N in
  let off_diag_connected := [:: 0; 2; 1; 3]%N in
  let compute_element (connected_index : nat) : F :=
    let mel := operator_element basis_index connected_index in
    let new0 : int := 2 * (connected_index %% 2)%N%:Z - 1 in
    let new1 : int := 2 * (connected_index %/ 2)%N%:Z - 1 in
    let connected := if fast is Some f then f [:: new0; new1] [:: i; j]
                     else psi (set_nth 0 (set_nth 0 sample i new0) j new1) in
    mel * (connected / psi sample) in
  let off_diag : F := if nth 0%N off_diag_connected basis_index != basis_index
                  then compute_element (nth 0%N off_diag_connected basis_index) else 0 in
  off_diag + operator_element basis_index basis_index.

(* L124 *)
Definition j1j2_local_en (operators : seq (nat -> nat -> F)) (acting_on : seq (nat * nat)) (sample : seq int) : F :=
  \sum_(oa <- zip operators acting_on) inner_vmap sample oa.1 oa.2.
End J1J2.
