(* Model of GPSKet/operator/hamiltonian/ab_initio_sparse.py. *)
From Verif Require Import Base Occ_Model Hopping_Model Hubbard_Model AbInitio_Model AbInitioOtf_Model.
Local Open Scope ring_scope.

Section Csr.
Variable R : comRingType.
Variables (n : nat) (h : nat -> nat -> R) (eri : nat -> nat -> nat -> nat -> R).

(* ab_initio_sparse.py L43-54: (h1_nonzero_range, h1_nonzero_ids_flat, h1_nonzero_vals_flat);
   n is h_mat.shape[0] (all dimensions of h and eri are equal). *)
Definition csr1 := (seq nat * seq nat * seq R)%type.
Definition h1_step (st : csr1) (i : nat) : csr1 :=
  let '(rng, ids, vals) := st in
  let nonzeros := [seq k <- iota 0 n | h i k != 0] in
  (set_nth 0%N rng i.+1 (nth 0%N rng i + size nonzeros)%N, ids ++ nonzeros,
   vals ++ [seq h i k | k <- nonzeros]).
Definition h1_csr : csr1 := foldl h1_step (nseq n.+1 0%N, [::], [::]) (iota 0 n).

(* ab_initio_sparse.py L64-87; the two-dimensional range array is a list of rows *)
Definition csr2 := (seq (seq nat) * seq (nat * nat) * seq R)%type.
Definition set2 (rng : seq (seq nat)) (i j v : nat) : seq (seq nat) :=
  set_nth [::] rng i (set_nth 0%N (nth [::] rng i) j v).
Definition get2 (rng : seq (seq nat)) (i j : nat) : nat := nth 0%N (nth [::] rng i) j.
(* np.nonzero of the n x n matrix eri[i, :, j, :], row major *)
Definition nonzero_pairs (i j : nat) : seq (nat * nat) :=
  [seq p <- allpairs pair (iota 0 n) (iota 0 n) | eri i p.1 j p.2 != 0].
Definition h2_step (i : nat) (st : csr2) (j : nat) : csr2 :=
  let '(rng, ids, vals) := st in
  let nonzeros := nonzero_pairs i j in
  let rng := set2 rng i j.+1 (get2 rng i j + size nonzeros)%N in
  let rng := if (j.+1 == n) && (i.+1 != n)
             then set2 rng i.+1 0 (get2 rng i j + size nonzeros)%N else rng in
  (rng, ids ++ nonzeros, vals ++ [seq eri i p.1 j p.2 | p <- nonzeros]).
Definition h2_csr : csr2 :=
  foldl (fun st i => foldl (h2_step i) st (iota 0 n)) (nseq n (nseq n.+1 0%N), [::], [::]) (iota 0 n).
End Csr.

(* jnp.triu_indices(m, k=1) *)
Definition triu1 (m : nat) : seq (nat * nat) :=
  [seq p <- allpairs pair (iota 0 m) (iota 0 m) | (p.1 < p.2)%N].

(* update_config, L236-248: returns (updated_conf, valid, update_sites).  The occupancy is
   tested before the update. *)
Definition update_config (x : cfg) (site : nat) (update_sites updated_conf : seq nat)
    (spin_int : nat) (create : bool) : seq nat * bool * seq nat :=
  let update_sites := rcons update_sites site in
  let updated_conf := rcons updated_conf (nth 0%N x site) in
  let first := nth 0%N (nonzero_sized 1 (fun k => nth 0%N update_sites k == site) (size update_sites)) 0 in
  let o := nth 0%N updated_conf first in
  let valid := if create then ~~ has o spin_int else has o spin_int in
  (set_nth 0%N updated_conf first (u8 (o%:Z + (if create then spin_int%:Z else - spin_int%:Z))),
   valid, update_sites).

Section Energy.
Variable F : fieldType.
Variables (n_elecs : nat * nat) (c1 : csr1 F) (c2 : csr2 F).
(* Some of logpsi with the cache of x if use_fast_update (L118-125, L133-138), None otherwise *)
Variable fast : option (seq nat -> seq nat -> F).
Variables (psi : cfg -> F) (x : cfg).
Let L := size x.
(* L104-115 *)
Let up_count := cumcount 1 x.
Let down_count := cumcount 2 x.
Let ou := nonzero_sized n_elecs.1 (fun k => has (nth 0%N x k) 1) L.
Let od := nonzero_sized n_elecs.2 (fun k => has (nth 0%N x k) 2) L.

(* jax.lax.fori_loop(lo, hi, fun k val => val + body k, 0) *)
Definition fori_sum (lo hi : nat) (body : nat -> F) : F :=
  foldl (fun val k => val + body k) 0 (index_iota lo hi).

(* compute_1B_up / compute_1B_down, L158-233 *)
Definition sp_1B (s : nat) (cum : seq nat) (i : nat) : F :=
  let '(rng, ids, vals) := c1 in
  fori_sum (nth 0%N rng i) (nth 0%N rng i.+1) (fun k =>
    let a := nth 0%N ids k in
    nth 0 vals k *
    (if ~~ has (nth 0%N x a) s
     then amp_ratio fast psi x [:: occ_minus x s i; occ_plus x s a] [:: i; a] * (parity_multiplicator_hop i a cum)%:~R
     else if i == a then 1 else 0)).

(* two_body_up_up_occ / two_body_down_down_occ, L250-358 *)
Definition sp_parity (p : int) : F := (1 - (odd (absz p))%:Z *+ 2)%:~R.
Definition sp_2B_same (s : nat) (cum : seq nat) (i j : nat) : F :=
  let '(rng, ids, vals) := c2 in
  let c k : int := (nth 0%N cum k)%:Z in
  let parity_ij : int := c i + c j - 2 in
  fori_sum (get2 rng i j) (get2 rng i j.+1) (fun k =>
    let '(a, b) := nth (0, 0)%N ids k in
    let '(occ_b, valid_b, sites_b) := update_config x b [:: i; j] [:: occ_minus x s i; occ_minus x s j] s true in
    let '(occ_a, valid_a, sites_a) := update_config x a sites_b occ_b s true in
    if valid_a && valid_b then
      let parity : int := parity_ij + c a + c b in
      let parity := parity - ((j <= a)%N%:Z + (i <= a)%N%:Z + (j <= b)%N%:Z + (i <= b)%N%:Z
                              - (b <= a)%N%:Z + (i < j)%N%:Z) in
      nth 0 vals k * amp_ratio fast psi x occ_a sites_a * sp_parity parity
    else 0).

(* two_body_up_down_occ, L360-409 *)
Definition sp_2B_ud (i j : nat) : F :=
  let '(rng, ids, vals) := c2 in
  let cu k : int := (nth 0%N up_count k)%:Z in
  let cd k : int := (nth 0%N down_count k)%:Z in
  let '(occ_ij, _, sites_ij) := update_config x j [:: i] [:: occ_minus x 1 i] 2 false in
  let parity_ij : int := cu i + cd j - 2 in
  fori_sum (get2 rng i j) (get2 rng i j.+1) (fun k =>
    let '(a, b) := nth (0, 0)%N ids k in
    let '(occ_b, valid_b, sites_b) := update_config x b sites_ij occ_ij 2 true in
    let '(occ_a, valid_a, sites_a) := update_config x a sites_b occ_b 1 true in
    if valid_a && valid_b then
      let parity : int := parity_ij + cu a + cd b in
      let parity := parity - ((i <= a)%N%:Z + (j <= b)%N%:Z) in
      nth 0 vals k * amp_ratio fast psi x occ_a sites_a * sp_parity parity
    else 0).

(* local_en_on_the_fly, L90-413, one sample *)
Definition sp_otf : F :=
  let en := \sum_(i <- ou) sp_1B 1 up_count i in
  let en := en + \sum_(i <- od) sp_1B 2 down_count i in
  let en := en + \sum_(p <- triu1 (size ou)) sp_2B_same 1 up_count (nth 0%N ou p.1) (nth 0%N ou p.2) in
  let en := en + \sum_(p <- triu1 (size od)) sp_2B_same 2 down_count (nth 0%N od p.1) (nth 0%N od p.2) in
  en + \sum_(p <- allpairs pair (iota 0 (size ou)) (iota 0 (size od)))
         sp_2B_ud (nth 0%N ou p.1) (nth 0%N od p.2).
End Energy.
