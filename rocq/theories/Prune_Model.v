(* The Hamiltonian chosen by a pruning threshold, and its local energies.
   scripts/cpd-backflow/cpd_backflow/systems.py L153-155, L178-182; scripts/GPS_for_ab_initio/H_chain_timing_analysis.py L60-66.
   The integrals are those of one run (prune1, prune2 of Basis_Model); None: no threshold in the configuration. *)
From Verif Require Import Base Occ_Model AbInitio_Model AbInitioOtf_Model Sparse_Model Basis_Model.
Import Order.Theory Num.Theory.
Local Open Scope ring_scope.

Section Pruned.
Variables (F : numFieldType) (half : F) (n : nat).
(* h1[abs(h1) < threshold] = 0.0: an element is kept when its modulus is not below the threshold *)
Definition keep_abs (t v : F) : bool := t <= `|v|.
Definition pruned_energy (threshold : option F) (n_elec : nat * nat) h g fast (psi : cfg -> F) x : F :=
  let h' := prune1 keep_abs threshold h in
  let g' := prune2 keep_abs threshold g in
  if threshold is Some t then
    if t == 0 then ab_otf half n_elec (t_mat half n h' g') g' fast psi x
    else sp_otf n_elec (h1_csr n h') (h2_csr n g') fast psi x
  else ab_otf half n_elec (t_mat half n h' g') g' fast psi x.
End Pruned.
