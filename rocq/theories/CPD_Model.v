(* models/cpd_backflow.py: CPDBackflow, per sample.  Tensors are functions of their indices, the
   last values are determinants instead of their logarithms. *)
From Verif Require Import Base Occ_Model AbInitioOtf_Model Elec_Model.
Local Open Scope ring_scope.

Section CPD.
Variables (F : fieldType) (M L : nat) (nu nd : nat).
Variables (fixed_magnetization restricted : bool).
(* self._epsilon[a, b, occupancy, m, site] *)
Variable eps : nat -> nat -> nat -> nat -> nat -> F.

(* CPD_single_orbital, L14-33, over the occupancies n_b: site products p[b, m] of orbital a *)
Definition cpd_site_prod (n_b : seq nat) (a b m : nat) : F := \prod_(k < size n_b) eps a b (nth 0%N n_b k) m k.
Definition cpd_orbitals (prods : nat -> nat -> nat -> F) (a b : nat) : F := \sum_(m < M) prods a b m.

(* environments, L172-177: n[environments[a, k]] *)
Definition env_occ (env : nat -> seq nat) (n : seq nat) (a : nat) : seq nat := [seq nth 0%N n k | k <- env a].

(* CPD_with_cache, L35-59 *)
Definition cpd_with_cache (prods : nat -> nat -> nat -> F) (occ_new occ_old sites : seq nat) (a b m : nat) : F :=
  prods a b m / (\prod_(q <- zip occ_old sites) eps a b q.1 m q.2) * \prod_(q <- zip occ_new sites) eps a b q.1 m q.2.

(* L192-210: determinants of the orbitals at the electron positions *)
Definition cpd_det (orb : nat -> nat -> F) (n : seq nat) : F :=
  let r_up := nonzero_sized nu (fun k => has (nth 0%N n k) 1) (size n) in
  let r_dn := nonzero_sized nd (fun k => has (nth 0%N n k) 2) (size n) in
  if fixed_magnetization then
    let off := if restricted then 0%N else nu in
    \det (\matrix_(i < nu, j < nu) orb (nth 0%N r_up i) j) * \det (\matrix_(i < nd, j < nd) orb (nth 0%N r_dn i) (off + j)%N)
  else
    let r := r_up ++ [seq (i + L)%N | i <- r_dn] in
    \det (\matrix_(i < nu + nd, j < nu + nd) orb (nth 0%N r i) j).

(* saved_configs, saved_site_products and the returned value *)
Record cpd_cache := CpdCache { cp_config : seq nat; cp_prods : nat -> nat -> nat -> F }.

(* __call__ without update_sites, L165-217 *)
Definition cpd_full (env : option (nat -> seq nat)) (n : seq nat) : F * cpd_cache :=
  let prods a b m := if env is Some e then cpd_site_prod (env_occ e n a) a b m else cpd_site_prod n a b m in
  (cpd_det (cpd_orbitals prods) n, CpdCache n prods).

(* L151-163: scan with reverse=True *)
Definition cpd_update_config (saved sites occs : seq nat) : seq nat :=
  foldl (fun x k => set_nth 0%N x (nth 0%N sites k) (nth 0%N occs k)) saved (rev (iota 0 (size sites))).

(* __call__ with update_sites, L150-217 (environments is None, L142-143).  The new occupancies
   are read from the updated configuration, L182-183 *)
Definition cpd_fast (c : cpd_cache) (occs sites : seq nat) : F * cpd_cache :=
  let n := cpd_update_config (cp_config c) sites occs in
  let occ_new := [seq nth 0%N n i | i <- sites] in
  let occ_old := [seq nth 0%N (cp_config c) i | i <- sites] in
  let prods := cpd_with_cache (cp_prods c) occ_new occ_old sites in
  (cpd_det (cpd_orbitals prods) n, CpdCache n prods).
End CPD.
