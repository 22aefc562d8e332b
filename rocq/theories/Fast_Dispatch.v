(* C90: how the on-the-fly Hamiltonians decide between full evaluations and cached updates, and
   which of the shipped models survive it with their default settings. *)
From Verif Require Import Base Fock_Spec Occ_Model Occ_Spec Update_Proto Fast_Contract Hubbard_Model AbInitioOtf_Model Fast_Props.
Local Open Scope ring_scope.

(* A model class: the attribute apply_fast_update (None: no such attribute), the keywords
   accepted by __call__, and the values returned.  A call with an unknown keyword raises. *)
Record machine (F : fieldType) := Machine {
  ma_fast : option bool;
  ma_cache_kw : bool; (* cache_intermediates *)
  ma_sites_kw : bool; (* update_sites *)
  ma_psi : seq nat -> F;
  ma_cached : seq nat -> seq nat -> seq nat -> F (* cache of x, occupancies, sites *)
}.

Section Dispatch.
Variable F : fieldType.
(* a local energy with the meaning of its arguments in hub_otf, ab_otf, sp_otf: the cached evaluation if
   any, the amplitude, the sample *)
Variable energy : option (seq nat -> seq nat -> F) -> (seq nat -> F) -> seq nat -> F.
(* get_local_kernel: hubbard.py L214-223, ab_initio.py L968-983, ab_initio_sparse.py L440-455
   (try: vstate.model.apply_fast_update; except: False), followed by the first evaluation of the
   sample with cache_intermediates (hubbard.py L119-126, ab_initio.py L377-384, ab_initio_sparse.py L118-125) and
   those of the connected configurations with update_sites (hubbard.py L134-139); None: TypeError *)
Definition local_kernel (m : machine F) (x : seq nat) : option F :=
  let use_fast_update := if ma_fast m is Some b then b else false in
  if use_fast_update then
    if ma_cache_kw m && ma_sites_kw m then Some (energy (Some (ma_cached m x)) (ma_psi m) x) else None
  else Some (energy None (ma_psi m) x).
End Dispatch.

(* The interfaces of the shipped model classes, with their default value of apply_fast_update:
   attribute, cache_intermediates, update_sites *)
Inductive model_class :=
| Cqgps            (* qGPS.py L120, L142 *)
| Cplaquette       (* plaquetteqGPS.py L41, L75 *)
| Carqgps          (* autoreg_qGPS.py L170 *)
| Carmodphase      (* autoreg_qGPS.py L221 *)
| Carplaquette     (* autoreg_plaquetteqGPS.py L96 *)
| Carfull          (* autoreg_qGPS_full.py L55, L142-144 *)
| Carmodphasefull  (* autoreg_qGPS_full.py L427-442, inherits apply_fast_update of L55 *)
| Cslater          (* slater.py L86, L116 *)
| Cslaterqgps      (* slater_qGPS.py L38, L46 *)
| Cslaterjastrow   (* slater_jastrow.py L36, L44 *)
| Cbackflow        (* backflow.py L26, L34 *)
| Cbackflowjastrow (* backflow_jastrow.py L31, L39 *)
| Ccpd             (* cpd_backflow.py L103, L139 *)
| Casymm           (* asymm_qGPS.py L46, L50 *)
| Casymmprod       (* asymm_qGPS.py L106, L113 *)
| Cjastrow         (* jastrow.py L41 *)
| Csegmented       (* segmented_qGPS.py L94 *)
| Cpfaffian        (* pfaffian.py L108 and L156 *)
.
Definition interface (c : model_class) : option bool * bool * bool :=
  match c with
  | Cqgps | Cplaquette | Carfull | Cslater | Cslaterqgps | Cbackflow | Ccpd => (Some true, true, true)
  | Carmodphasefull | Cslaterjastrow | Cbackflowjastrow | Casymm | Casymmprod => (Some true, false, false)
  | Carqgps | Carmodphase | Carplaquette | Cjastrow | Csegmented | Cpfaffian => (None, false, false)
  end.
Definition of_class (F : fieldType) (c : model_class) psi cached : machine F :=
  let: (a, k, s) := interface c in Machine a k s psi cached.

Section Props.
Variable F : fieldType.

(* a model whose cached evaluation is right, or which has none and does not claim to, gets the
   energy of its amplitudes *)
Theorem C90_kernel_hubbard (m : machine F) x U edges t :
  (ma_fast m = Some true -> [/\ ma_cache_kw m, ma_sites_kw m & fast_ok_uniq (Some (ma_cached m x)) (ma_psi m) x]) ->
  valid x -> ma_psi m x != 0 ->
  all (fun e => [&& e.1 < size x, e.2 < size x & e.1 != e.2])%N edges ->
  local_kernel (hub_otf U edges t) m x = Some (hub_otf U edges t None (ma_psi m) x).
Proof.
rewrite /local_kernel; case: (ma_fast m) => [[]|] // /(_ erefl) [-> -> H] Hv Hp He /=.
by rewrite C89_hubbard.
Qed.

Theorem C90_kernel_ab_initio (m : machine F) x half t eri :
  (ma_fast m = Some true -> [/\ ma_cache_kw m, ma_sites_kw m & fast_ok (Some (ma_cached m x)) (ma_psi m) x]) ->
  valid x -> ma_psi m x != 0 ->
  local_kernel (ab_otf half (n_spin Up x, n_spin Dn x) t eri) m x
  = Some (ab_otf half (n_spin Up x, n_spin Dn x) t eri None (ma_psi m) x).
Proof.
rewrite /local_kernel; case: (ma_fast m) => [[]|] // /(_ erefl) [-> -> H] Hv Hp /=.
by have [-> _ _ _] := C89_contract_suffices Hv Hp H.
Qed.

(* which classes raise with their defaults, whatever the parameters, sample and Hamiltonian:
   exactly those that inherit or declare apply_fast_update without accepting the keywords *)
Theorem C90_default_kernels (c : model_class) energy psi cached x :
  local_kernel energy (of_class (F := F) c psi cached) x = None
  <-> c = Carmodphasefull \/ c = Cslaterjastrow \/ c = Cbackflowjastrow \/ c = Casymm \/ c = Casymmprod.
Proof. by case: c; split=> //; try (by do ![case=> //]); move=> _; tauto. Qed.

Theorem C90_default_kernel_raises_refuted : exists (c : model_class) (psi : seq nat -> F) cached x,
  [/\ valid x, psi x != 0 & forall energy, local_kernel energy (of_class c psi cached) x = None].
Proof. by exists Cslaterjastrow, (fun=> 1), (fun _ _ _ => 1), [:: 1; 2]%N; split=> //; rewrite oner_eq0. Qed.
End Props.

Example C90_example :
  local_kernel (fun fast psi x => psi x) (of_class (F := rat_fieldType) Cslaterjastrow (fun=> 1) (fun _ _ _ => 1)) [:: 1; 2]%N = None
  /\ local_kernel (fun fast psi x => psi x) (of_class (F := rat_fieldType) Cslater (fun=> 1) (fun _ _ _ => 1)) [:: 1; 2]%N = Some 1.
Proof. by []. Qed.

Print Assumptions C90_kernel_hubbard. Print Assumptions C90_kernel_ab_initio.
Print Assumptions C90_default_kernels. Print Assumptions C90_default_kernel_raises_refuted.
