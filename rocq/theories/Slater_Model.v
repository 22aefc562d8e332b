(* models/slater.py: Slater.__call__ (L115-692), per sample.  Log-determinants are modelled by
   the determinants themselves (sums of logs by products).  One entry of the determinant /
   spin-rotation / symmetry axes (M, S, T) is a [component]: an orbital matrix and a map of
   sites; the code vmaps over these axes.  Positions below L are spin-up, position L + i is
   site i spin-down.  The value -1 used as padding is None. *)
From Verif Require Import Base Occ_Model AbInitioOtf_Model Elec_Model.
Local Open Scope ring_scope.

(* row p of full_U (2L rows) and the action of one symmetry on sites *)
Record component (F : fieldType) (N : nat) := Component { co_U : nat -> 'rV[F]_N; co_sym : nat -> nat }.

(* L142-177: full_U from the up and down orbitals, [[U_up, 0], [0, U_down]] *)
Definition block_U (F : fieldType) (L nu nd : nat) (Uup : nat -> 'rV[F]_nu) (Udn : nat -> 'rV[F]_nd) (p : nat) : 'rV[F]_(nu + nd) :=
  if (p < L)%N then row_mx (Uup p) 0 else row_mx 0 (Udn (p - L)%N).

(* apply_rotation, L195-218, one row of U_rotated; ca, sa: cos and sin of angle / 2.  S2_projection
   is only allowed with fixed_magnetization (setup, L105-106) *)
Definition apply_rotation (F : fieldType) (L nu nd : nat) (ca sa : F) (U : nat -> 'rV[F]_(nu + nd)) (p : nat) : 'rV[F]_(nu + nd) :=
  if (p < L)%N then \row_j (if (j < nu)%N then U p 0 j * ca + U (p + L)%N 0 j * sa else U p 0 j * ca - U (p + L)%N 0 j * sa)
  else \row_j (if (j < nu)%N then U (p - L)%N 0 j * sa + U p 0 j * ca else - U (p - L)%N 0 j * sa + U p 0 j * ca).

(* comparison `a >= b` of positions padded with -1 *)
Definition geo (a b : option nat) : bool :=
  match b, a with None, _ => true | Some b, Some a => (b <= a)%N | Some _, None => false end.

Section Slater.
Variables (F : fieldType) (L nu nd : nat).
(* self.S2_projection is None and self.fixed_magnetization, L244; self.constant_time_updates *)
Variables (blocked constant_time : bool).
Notation N := (nu + nd)%N.

(* occupancies_to_electrons(x).at[:, N_up:].add(L), L225-228 without symmetries, L523-527,
   L662-666 *)
Definition positions (x : seq nat) : seq nat :=
  nonzero_sized nu (fun k => has (nth 0%N x k) 1) (size x)
  ++ [seq (i + L)%N | i <- nonzero_sized nd (fun k => has (nth 0%N x k) 2) (size x)].

(* symmetries applied to positions: L226-228, L410-415, L511-518 *)
Definition sym_pos (sym : nat -> nat) (p : nat) : nat := (sym (p %% L) + (p %/ L) * L)%N.

(* U_submats, L238-240 *)
Definition submat (c : component F N) (x : seq nat) : 'M[F]_N :=
  let up := nonzero_sized nu (fun k => has (nth 0%N x k) 1) (size x) in
  let dn := nonzero_sized nd (fun k => has (nth 0%N x k) 2) (size x) in
  let y := [seq co_sym c i | i <- up] ++ [seq (co_sym c i + L)%N | i <- dn] in
  \matrix_(i, j) co_U c (nth 0%N y i) 0 j.

(* evaluate_SD, L243-261 *)
Definition evaluate_SD (A : 'M[F]_N) : F :=
  if blocked then \det (ulsubmx A) * \det (drsubmx A) else \det A.

(* per component: log_dets, inverted_submats, update_matrices *)
Record comp_cache := CompCache { cc_det : F; cc_inv : 'M[F]_N; cc_upd : option (seq 'rV[F]_N) }.
Record slater_cache := SlaterCache {
  sc_samples : seq nat; sc_cum : seq nat; sc_site_el : seq (option nat); sc_comps : seq comp_cache }.

(* L618-623: einsum(full_U, inverted_submats) *)
Definition update_matrix (c : component F N) (inv : 'M[F]_N) : option (seq 'rV[F]_N) :=
  if constant_time then Some [seq co_U c p *m inv | p <- iota 0 (2 * L)] else None.

(* L655-659: cumulative electron count over up, then down positions *)
Definition spin_bits (x : seq nat) : seq nat :=
  [seq nat_of_bool (has o 1) | o <- x] ++ [seq nat_of_bool (has o 2) | o <- x].
Definition cum_count (x : seq nat) : seq nat := scanl addn 0%N (spin_bits x).

(* L668-681: sites_to_els.at[electron_positions[i]].set(i) for all electrons i *)
Definition site_el (x : seq nat) : seq (option nat) :=
  let pos := positions x in
  foldl (fun v i => set_nth None v (nth 0%N pos i) (Some i)) (nseq (2 * L) None) (iota 0 (size pos)).

(* __call__ without update_sites, L140-277, L605-684 *)
Definition slater_full (cs : seq (component F N)) (x : seq nat) : slater_cache :=
  SlaterCache x (cum_count x) (site_el x)
    [seq (let A := submat c x in CompCache (evaluate_SD A) (invmx A) (update_matrix c (invmx A))) | c <- cs].

(* L285-297: old & bit minus new & bit *)
Definition occ_update (old new s : nat) : int := (nat_of_bool (has old s))%:Z - (nat_of_bool (has new s))%:Z.
Definition updates (old new : seq nat) : seq int :=
  [seq occ_update p.1 p.2 1 | p <- zip old new] ++ [seq occ_update p.1 p.2 2 | p <- zip old new].
Definition split_sites (sites : seq nat) : seq nat := sites ++ [seq (i + L)%N | i <- sites].
(* L312-327: positions of the entries equal to v, exactly K of them, padded with -1 *)
Definition moved_sites (v : int) (ups : seq int) (splits : seq nat) (K : nat) : seq (option nat) :=
  take K ([seq Some (nth 0%N splits k) | k <- [seq k <- iota 0 (size ups) | nth 0 ups k == v]] ++ nseq K None).
(* L328-330 *)
Definition electron_ids (s2e : seq (option nat)) (rems : seq (option nat)) : seq (option nat) :=
  [seq if r is Some p then nth None s2e p else None | r <- rems].

(* L337-393: sign of the update.  loop_fun; state: sign, cum_elec_count_add, cum_elec_count_rm *)
Definition cum_at (cum : seq nat) (s : option nat) : int := (if s is Some p then nth 0%N cum p else last 0%N cum)%:Z.
Definition shift_counts (add rem : option nat) (sites : seq (option nat)) (cs : seq int) : seq int :=
  [seq (let c1 := if geo p.1 add then p.2 else p.2 + 1 in if geo p.1 rem then c1 else c1 - 1) | p <- zip sites cs].
Definition sign_step (adds rems : seq (option nat)) (st : F * seq int * seq int) (index : nat) : F * seq int * seq int :=
  let: (sign, ca, cr) := st in
  let add := nth None adds index in let rem := nth None rems index in
  let passed : int := (absz (nth (0 : int) cr index - nth (0 : int) ca index)%R)%:Z in
  let passed := if ~~ geo add rem then passed - 1 else passed in
  (sign * (-1) ^+ odd (absz passed), shift_counts add rem adds ca, shift_counts add rem rems cr).
Definition sign_update (cum : seq nat) (adds rems : seq (option nat)) : F :=
  (foldl (sign_step adds rems) (1, map (cum_at cum) adds, map (cum_at cum) rems) (iota 0 (size adds))).1.1.

(* array indexing of a row by an electron id; -1 is the last column *)
Definition entry (v : 'rV[F]_N) (e : option nat) : F :=
  if insub (if e is Some e then e else N.-1) is Some i then v 0 i else 0.
Definition sym_opt (c : component F N) (s : option nat) : option nat := omap (sym_pos (co_sym c)) s.

(* get_determinant_update, L425-442 (cached update matrix) and L461-479 (on the fly) *)
Definition upd_row (c : component F N) (cc : comp_cache) (a : option nat) : 'rV[F]_N :=
  if cc_upd cc is Some um then (if a is Some p then nth 0 um p else last 0 um)
  else (if a is Some p then co_U c p else co_U c (2 * L).-1) *m cc_inv cc.
Definition up_mat (c : component F N) (cc : comp_cache) (K : nat) (adds els : seq (option nat)) : 'M[F]_K :=
  let adds_sym := map (sym_opt c) adds in
  \matrix_(k, l) if (nth None adds_sym k != None) && (nth None adds_sym l != None)
    then entry (upd_row c cc (nth None adds_sym k)) (nth None els l) else (k == l)%:R.

(* update_el_pos, L529-547 *)
Definition update_el_pos (adds els : seq (option nat)) (pos : seq nat) : seq nat :=
  foldl (fun v i => set_nth 0%N v (odflt (size pos).-1 (nth None els i)) (odflt 0%N (nth None adds i)))
        pos (iota 0 (count (fun a => a != None) adds)).
(* jnp.argsort, L548 *)
Definition argsort (l : seq nat) : seq nat := sort (fun i j => nth 0%N l i <= nth 0%N l j)%N (iota 0 (size l)).

(* update_inverse, L550-574 *)
Definition orbital_row (c : component F N) (s : option nat) : 'rV[F]_N :=
  if s is Some p then co_U c p else co_U c (2 * L).-1.
Definition update_inverse (c : component F N) (inv_old : 'M[F]_N) (K : nat) (adds rems els : seq (option nat))
    (permutation : seq nat) : 'M[F]_N :=
  let adds_sym := map (sym_opt c) adds in
  let rems_sym := map (sym_opt c) rems in
  let active k := nth None adds_sym k != None in
  let V : 'M[F]_(K, N) := \matrix_(k, j) (if active k then
     (orbital_row c (nth None adds_sym k) - orbital_row c (nth None rems_sym k)) 0 j else 0) in
  let VAInv := V *m inv_old in
  let VAInvU : 'M[F]_K := \matrix_(k, l) (if active l then entry (row k VAInv) (nth None els l) else 0) in
  let inverted_mat := invmx (1%:M + VAInvU) in
  let invU : 'M[F]_(N, K) := \matrix_(i, l) entry (row i inv_old) (nth None els l) in
  let new_inverse_first := inv_old - invU *m (inverted_mat *m VAInv) in
  \matrix_(i, j) entry (row i new_inverse_first) (Some (nth 0%N permutation j)).

(* L633-648: scan with reverse=True *)
Definition slater_update_config (saved sites occs : seq nat) : seq nat :=
  foldl (fun x k => set_nth 0%N x (nth 0%N sites k) (nth 0%N occs k)) saved (rev (iota 0 (size sites))).

(* __call__ with update_sites, L280-602, and cache_intermediates, L605-684.  x: new occupancies *)
Definition slater_fast (cs : seq (component F N)) (sc : slater_cache) (x sites : seq nat) : slater_cache :=
  let K := size sites in
  let old := [seq nth 0%N (sc_samples sc) i | i <- sites] in
  let ups := updates old x in
  let adds := moved_sites (-1) ups (split_sites sites) K in
  let rems := moved_sites 1 ups (split_sites sites) K in
  let els := electron_ids (sc_site_el sc) rems in
  let sign := sign_update (sc_cum sc) adds rems in
  let perm := argsort (update_el_pos adds els (positions (sc_samples sc))) in
  let new_samples := slater_update_config (sc_samples sc) sites x in
  SlaterCache new_samples (cum_count new_samples) (site_el new_samples)
    [seq (let c := p.1 in let cc := p.2 in
          let det := \det (up_mat c cc K adds els) * cc_det cc * sign in
          let inv := update_inverse c (cc_inv cc) K adds rems els perm in
          CompCache det inv (update_matrix c inv)) | p <- zip cs (sc_comps sc)].

(* L686-692: default out_transformation (logsumexp over determinants, rotations, symmetries) of
   the values weighted by the S2 characters [chi] *)
Definition slater_amplitude (chi : seq F) (sc : slater_cache) : F :=
  \sum_(p <- zip chi (sc_comps sc)) p.1 * cc_det p.2.
End Slater.
