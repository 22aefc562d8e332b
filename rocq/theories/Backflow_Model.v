(* models/backflow.py (Backflow), models/backflow_jastrow.py, models/slater_jastrow.py,
   models/slater_qGPS.py and the qGPS correction of scripts/cpd-backflow/cpd_backflow/models.py
   (L51-88, L251-281).  Per sample; determinants and exponentials instead of log-amplitudes. *)
From Verif Require Import Base Occ_Model AbInitioOtf_Model Elec_Model QGPS_Model Jastrow_Model Slater_Model.
Local Open Scope ring_scope.

Section Backflow.
Variables (F : fieldType) (L nu nd : nat).
(* spin_symmetry_by_structure is [restricted]; then nelec[0] = nelec[1], otherwise slogdet is
   called on non-square matrices *)
Variables (fixed_magnetization restricted : bool).
(* apply_symmetries acts on electron positions (L69), one map of sites per symmetry *)
Variable syms : seq (nat -> nat).
(* orbitals: None or an array (rows, columns) *)
Variable orbitals : option (nat -> nat -> F).

(* ɸ + Δ or Δ (L106-112, L122-125); corrections are indexed (row, orbital, symmetry) *)
Definition bf_entry (corr : nat -> nat -> nat -> F) (r j t : nat) : F :=
  if orbitals is Some o then o r j + corr r j t else corr r j t.

(* L68-127 *)
Definition bf_amp (corr : nat -> nat -> nat -> F) (x : seq nat) : F :=
  let up := nonzero_sized nu (fun k => has (nth 0%N x k) 1) (size x) in
  let dn := nonzero_sized nd (fun k => has (nth 0%N x k) 2) (size x) in
  \sum_(t < size syms)
    let y_up := [seq nth id syms t i | i <- up] in
    let y_dn := [seq nth id syms t i | i <- dn] in
    if fixed_magnetization then
      let off := if restricted then 0%N else nu in
      \det (\matrix_(i < nu, j < nu) bf_entry corr (nth 0%N y_up i) j t)
      * \det (\matrix_(i < nd, j < nd) bf_entry corr (nth 0%N y_dn i) (off + j)%N t)
    else
      let y := y_up ++ [seq (i + L)%N | i <- y_dn] in
      \det (\matrix_(i < nu + nd, j < nu + nd) bf_entry corr (nth 0%N y i) j t).

(* correction_fun, a module with its own cache: evaluation of a configuration, and with
   update_sites *)
Variables (C : Type) (corr_full : seq nat -> (nat -> nat -> nat -> F) * C).
Variable corr_fast : C -> seq nat -> seq nat -> (nat -> nat -> nat -> F) * C.

(* the cache: "samples" (L45-48) and that of the correction *)
Record bf_cache := BfCache { bf_samples : seq nat; bf_corr : C }.
(* L54-60: scan with reverse=True *)
Definition bf_update_config (saved sites occs : seq nat) : seq nat :=
  foldl (fun x k => set_nth 0%N x (nth 0%N sites k) (nth 0%N occs k)) saved (rev (iota 0 (size sites))).
(* __call__ without and with update_sites, L33-127, cache_intermediates set *)
Definition bf_full (x : seq nat) : F * bf_cache :=
  let: (corr, c) := corr_full x in (bf_amp corr x, BfCache x c).
Definition bf_fast (b : bf_cache) (occs sites : seq nat) : F * bf_cache :=
  let: (corr, c) := corr_fast (bf_corr b) occs sites in
  let full_x := bf_update_config (bf_samples b) sites occs in
  (bf_amp corr full_x, BfCache full_x c).
End Backflow.

(* The qGPS used as correction, scripts models.py L54-88: support dimension M * rows * cols,
   out_trafo (L273-280) reshapes it to (M, rows, cols) and sums over M.  Symmetries of the qGPS
   are the default ones, one copy. *)
Section QgpsCorrection.
Variables (F : fieldType) (M rows cols : nat) (eps : nat -> nat -> nat -> F).
Definition total_supp_dim : nat := (M * rows * cols)%N.
Definition out_trafo (prods : seq (seq F)) (r j t : nat) : F :=
  \sum_(k < M) nth 0 (nth [::] prods t) (k * (rows * cols) + (r * cols + j))%N.
Definition qcorr_full (x : seq nat) : (nat -> nat -> nat -> F) * cache F :=
  let c := qgps_full eps total_supp_dim (SymSet None false) x in (out_trafo (ca_prod c), c).
Definition qcorr_fast (c : cache F) (occs sites : seq nat) : (nat -> nat -> nat -> F) * cache F :=
  let c' := qgps_fast eps total_supp_dim (SymSet None false) c occs sites in (out_trafo (ca_prod c'), c').

(* init_fun, scripts models.py L61-71, with zero noise (sigma = 0): ones, epsilon[:, m, 0] = the
   flattened orbitals for m < first_supp_dim and 0 for the rest *)
Definition bf_init (phi : nat -> nat -> F) (o m site : nat) : F :=
  let first := (rows * cols)%N in
  let e := 1 in
  let e := if (m < first)%N && (site == 0%N) then phi (m %/ cols)%N (m %% cols)%N else e in
  if ~~ (m < first)%N && (site == 0%N) then 0 else e.
End QgpsCorrection.

(* SlaterJastrow.__call__, slater_jastrow.py L44-62; expf the exponential *)
Section Products.
Variables (F : fieldType) (expf : F -> F) (L nu nd : nat) (blocked constant_time : bool).
Variables (cs : seq (component F (nu + nd))) (chi : seq F).
Definition slater_jastrow (K : nat -> nat -> F) (perms : seq (seq nat)) (x : seq nat) : F :=
  slater_amplitude chi (slater_full L blocked constant_time cs x) * expf (jastrow K perms x).

(* SlaterqGPS.__call__, slater_qGPS.py L46-66, without and with update_sites *)
Variables (eps : nat -> nat -> nat -> F) (M : nat) (s : symset).
Definition slater_qgps (c : slater_cache F nu nd * cache F) : F * (slater_cache F nu nd * cache F) :=
  (slater_amplitude chi c.1 * expf (default_out (ca_prod c.2)), c).
Definition slater_qgps_full (x : seq nat) :=
  slater_qgps (slater_full L blocked constant_time cs x, qgps_full eps M s x).
Definition slater_qgps_fast (c : slater_cache F nu nd * cache F) (occs sites : seq nat) :=
  slater_qgps (slater_fast L constant_time cs c.1 occs sites, qgps_fast eps M s c.2 occs sites).
End Products.

(* BackflowJastrow, backflow_jastrow.py L39-61.  A field holds an array or a module; a Backflow
   is constructed from positional arguments hilbert, correction_fun, orbitals (backflow.py
   L18-23).  Calling an array, or turning a module into an array, raises (None). *)
Section BackflowJastrow.
Variables (F : fieldType) (expf : F -> F) (L nu nd : nat) (fixed_magnetization restricted : bool).
Variable syms : seq (nat -> nat).
Inductive pyval : Type :=
| PyArray of (nat -> nat -> F)
| PyModule of (seq nat -> nat -> nat -> nat -> F)
| PyNone.
Definition backflow_call (correction_fun orbitals : pyval) (x : seq nat) : option F :=
  (* L37-40, L108, L123: jnp.array(self.orbitals) *)
  let orb := match orbitals with
    | PyNone => Some None
    | PyArray o => Some (Some o)
    | PyModule _ => None
    end in
  if orb is Some orb then
    if correction_fun is PyModule f then
      Some (bf_amp L nu nd fixed_magnetization restricted syms orb (f x) x)
    else None
  else None.
(* L44-54: positional arguments self.orbitals[d], self.correction_fun[d] in this order; L55:
   logsumexp over the determinants; L56-61 *)
Definition backflow_jastrow (K : nat -> nat -> F) (perms : seq (seq nat)) (orbitals correction_fun : seq pyval)
    (x : seq nat) : option F :=
  if size orbitals == size correction_fun then
    let terms := [seq backflow_call (nth PyNone orbitals d) (nth PyNone correction_fun d) x | d <- iota 0 (size orbitals)] in
    if all isSome terms then Some (expf (jastrow K perms x) * \sum_(v <- pmap id terms) v) else None
  else None.
End BackflowJastrow.
