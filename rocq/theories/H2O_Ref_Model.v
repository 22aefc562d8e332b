(* scripts/GPS_for_ab_initio/H2O.py, L128-287: the models PfaffianqGPS and SlaterqGPS of the script
   and the initial parameters of the reference states; SlaterqGPS of H4x4x4.py L120-131 is the case
   M != 0.  One sample; amplitudes instead of their logarithms, [None] is a nan.  The orbitals phi
   come from PySCF and are arbitrary. *)
From Verif Require Import Base Occ_Model AbInitioOtf_Model Elec_Model QGPS_Model Slater_Model Pfaff_Model Backflow_Model.
Local Open Scope ring_scope.

Section H2O.
Variables (F : fieldType) (R : realFieldType) (absv : F -> R) (expf : F -> F).
(* norb, nelec // 2 (hi._n_elec = (n, n), L114), the global M of the script *)
Variables (norb n M : nat).
(* the parameters of the qGPS *)
Variables (eps : nat -> nat -> nat -> F) (s : symset).

(* update_fun, L141-155: the saved configuration overwritten at the update sites, last one first *)
Definition full_x (saved sites occs : seq nat) : seq nat :=
  foldl (fun carry count => set_nth 0%N carry (nth 0%N sites count) (nth 0%N occs count)) saved
        (rev (iota 0 (size sites))).

(* L160-164: occupancies_to_electrons(full_x, hi._n_elec).at[:, nelec // 2 :].add(norb) *)
Definition electrons (x : seq nat) : seq nat :=
  let y := nth [::] (occupancies_to_electrons [:: x] (n, n)) 0 in
  [seq (if k < n then nth 0 y k else nth 0 y k + norb)%N | k <- iota 0 (size y)].

(* PfaffianqGPS.__call__, L133-169.  f and rots: parameter and S2_projection (cos, sin, character)
   of the ZeroMagnetizationPfaffian without symmetries.  The second component is what is cached
   if cache_intermediates is set. *)
Variables (f : nat -> nat -> F) (rots : seq (F * F * F)).
Definition pfaffian_qgps (x : seq nat) (c : cache F) : entry F * (seq nat * cache F) :=
  let p := zero_mag_pfaffian absv norb f rots [:: electrons x] in
  ((if M == 0%N then p else omul p (Some (expf (default_out (ca_prod c))))), (x, c)).
Definition pfaffian_qgps_full (x : seq nat) := pfaffian_qgps x (qgps_full eps M s x).
Definition pfaffian_qgps_fast (c : seq nat * cache F) (occs sites : seq nat) :=
  pfaffian_qgps (full_x c.1 sites occs) (qgps_fast eps M s c.2 occs sites).

(* SlaterqGPS.__call__, L177-189 *)
Variables (blocked constant_time : bool) (cs : seq (component F (n + n))) (chi : seq F).
Definition slater_m (c : slater_cache F n n * cache F) : F * (slater_cache F n n * cache F) :=
  if M == 0%N then (slater_amplitude chi c.1, c) else slater_qgps expf chi c.
Definition slater_m_full (x : seq nat) :=
  slater_m (slater_full norb blocked constant_time cs x, qgps_full eps M s x).
Definition slater_m_fast (c : slater_cache F n n * cache F) (occs sites : seq nat) :=
  slater_m (slater_fast norb constant_time cs c.1 occs sites, qgps_fast eps M s c.2 occs sites).
End H2O.

Section Init.
Variables (F : fieldType) (norb n : nat).
(* phi, L211-214: norb x n orbital coefficients *)
Variable phi : nat -> nat -> F.

(* pfaffian_init, L217-220: einsum("in,jn->ij", phi, phi) *)
Definition pfaffian_init (i j : nat) : F := \sum_(k < n) phi i k * phi j k.

(* slater_init, L223-226: the same orbitals for U_up and U_down *)
Definition slater_init (i : nat) : 'rV[F]_n := \row_k phi i k.

(* full_slater_init, L229-237: jnp.block([[phi, 0], [0, phi]]) *)
Definition full_slater_init (p : nat) : 'rV[F]_(n + n) :=
  \row_j (if (p < norb)%N then if (j < n)%N then phi p j else 0
          else if (j < n)%N then 0 else phi (p - norb)%N (j - n)%N).

(* the components of the Slater models: reference state 1 (L249-252), 2 with the rotations of the
   S2 projection (L254-262), 5 (L277-284) *)
Definition ref1 : component F (n + n) := Component (block_U norb slater_init slater_init) id.
Definition ref2 (rots : seq (F * F * F)) : seq (component F (n + n)) :=
  [seq Component (apply_rotation norb r.1.1 r.1.2 (block_U norb slater_init slater_init)) id | r <- rots].
Definition ref5 : component F (n + n) := Component full_slater_init id.
End Init.
