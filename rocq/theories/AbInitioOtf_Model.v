(* Model of GPSKet/operator/hamiltonian/ab_initio.py, on-the-fly local energy
   (local_en_on_the_fly, L251-957) for one sample. *)
From Verif Require Import Base Occ_Model Hopping_Model Hubbard_Model AbInitio_Model.
Local Open Scope ring_scope.

(* jnp.nonzero(mask, size=n): indices of the set positions, truncated or padded with 0 *)
Definition nonzero_sized (n : nat) (mask : nat -> bool) (len : nat) : seq nat :=
  take n ([seq k <- iota 0 len | mask k] ++ nseq n 0%N).

(* get_connected_log_amp, L399-413: scan with reverse=True over the update lists *)
Definition apply_updates (x : cfg) (occs sites : seq nat) : cfg :=
  foldr (fun so c => set_nth 0%N c so.1 so.2) x (zip sites occs).

(* get_updated_occ_previous_move, L840-849; returns (updated_occ, full_update_sites) *)
Definition get_updated_occ_previous_move (sample : cfg) (first_update_occ update_sites : seq nat)
    (site_index : nat) (spin_update : int) : seq nat * seq nat :=
  let full_update_sites := rcons update_sites site_index in
  let updated_occ := rcons first_update_occ (nth 0%N sample site_index) in
  let first_matching_index :=
    nth 0%N (nonzero_sized 1 (fun k => nth 0%N full_update_sites k == site_index)
                           (size full_update_sites)) 0 in
  (set_nth 0%N updated_occ first_matching_index
     (u8 ((nth 0%N updated_occ first_matching_index)%:Z + spin_update)), full_update_sites).

(* l[jnp.nonzero(l != i, size=len(l)-1)], L595-600 *)
Definition outer_removed (l : seq nat) (i : nat) : seq nat :=
  [seq nth 0%N l k | k <- nonzero_sized (size l).-1 (fun k => nth 0%N l k != i) (size l)].

Section Otf.
Variable F : fieldType.
Variables (half : F) (n_elecs : nat * nat).
Variables (t : nat -> nat -> F) (eri : nat -> nat -> nat -> nat -> F).
(* Some of logpsi with the cache of x (applied to new occupancies and update sites) if
   use_fast_update, L377-384 and L392-397; None otherwise *)
Variable fast : option (seq nat -> seq nat -> F).
Variables (psi : cfg -> F) (x : cfg).

Let L := size x.
(* L266-278 *)
Let up_count := cumcount 1 x.
Let down_count := cumcount 2 x.
Let ou := nonzero_sized n_elecs.1 (fun k => has (nth 0%N x k) 1) L.
Let od := nonzero_sized n_elecs.2 (fun k => has (nth 0%N x k) 2) L.
Let uu := nonzero_sized (L - n_elecs.1) (fun k => ~~ has (nth 0%N x k) 1) L.
Let ud := nonzero_sized (L - n_elecs.2) (fun k => ~~ has (nth 0%N x k) 2) L.

(* get_connected_log_amp, L391-415 *)
Definition connected (occs sites : seq nat) : F :=
  if fast is Some f then f occs sites else psi (apply_updates x occs sites).
(* exp(log_amp_connected - log_amp) *)
Definition amp_ratio (occs sites : seq nat) : F := connected occs sites / psi x.

Definition occ_minus (s i : nat) := u8 ((nth 0%N x i)%:Z - s%:Z).
Definition occ_plus (s a : nat) := u8 ((nth 0%N x a)%:Z + s%:Z).

(* L284-301 *)
Definition otf_diag : F :=
  \sum_(i <- ou) t i i + \sum_(i <- od) t i i
  + \sum_(i <- ou) \sum_(j <- od) eri i i j j
  + half * (\sum_(i <- ou) \sum_(j <- ou) eri i i j j)
  + half * (\sum_(i <- ou) \sum_(a <- uu) eri i a a i)
  + half * (\sum_(i <- od) \sum_(j <- od) eri i i j j)
  + half * (\sum_(i <- od) \sum_(a <- ud) eri i a a i).

(* get_one_body_term_up / _down, L417-464 and L503-552 *)
Definition otf_value (o u o' : seq nat) (i a : nat) : F :=
  t i a + \sum_(k <- o) eri i a k k + \sum_(k <- o') eri i a k k
  + half * (\sum_(k <- u) eri i k k a) - half * (\sum_(k <- o) eri k a i k).
Definition otf_one_parity (cum : seq nat) (i a : nat) : F := (parity_multiplicator_hop i a cum)%:~R.
Definition otf_one_ratio (s i a : nat) : F := amp_ratio [:: occ_minus s i; occ_plus s a] [:: i; a].
Definition otf_one_term (s : nat) (cum o u o' : seq nat) (i a : nat) : F :=
  otf_value o u o' i a * otf_one_ratio s i a * otf_one_parity cum i a.

(* two_body_up_up / down_down inner_loop, L612-652 *)
Definition otf_two_inner (s : nat) (cum : seq nat) (i a j b : nat) : F :=
  let m : int := parity_multiplicator_hop i a cum * parity_multiplicator_hop j b cum in
  let left_lim := minn j b in
  let right_lim := (maxn j b).-1 in
  let m := if (i <= right_lim)%N && (left_lim < i)%N then - m else m in
  let m := if (a <= right_lim)%N && (left_lim < a)%N then - m else m in
  m%:~R * amp_ratio ([:: occ_minus s i; occ_plus s a] ++ [:: occ_minus s j; occ_plus s b])
                    ([:: i; a] ++ [:: j; b]).
(* L590-697 *)
Definition otf_two (s : nat) (cum o u : seq nat) (val : F) : F :=
  foldl (fun val i => foldl (fun val a =>
    let ro := outer_removed o i in
    let ru := outer_removed u a in
    val + half * (\sum_(j <- ro) \sum_(b <- ru) eri i a j b * otf_two_inner s cum i a j b))
    val u) val o.

(* two_body_up_down inner_loop, L867-896 *)
Definition otf_ud_lists (i a j b : nat) : seq nat * seq nat :=
  let u1 := get_updated_occ_previous_move x [:: occ_minus 1 i; occ_plus 1 a] [:: i; a] j (- 2) in
  get_updated_occ_previous_move x u1.1 u1.2 b 2.
Definition otf_ud_inner (i a j b : nat) : F :=
  let fin := otf_ud_lists i a j b in
  (parity_multiplicator_hop i a up_count * parity_multiplicator_hop j b down_count)%:~R
  * amp_ratio fin.1 fin.2.
(* L851-950 *)
Definition otf_ud (val : F) : F :=
  foldl (fun val i => foldl (fun val a =>
    val + \sum_(j <- od) \sum_(b <- ud) eri i a j b * otf_ud_inner i a j b) val uu) val ou.

(* local_en_on_the_fly with return_local_RDMs=False *)
Definition ab_otf : F :=
  let en := otf_diag in
  let en := en + \sum_(i <- ou) \sum_(a <- uu) otf_one_term 1 up_count ou uu od i a in
  let en := en + \sum_(i <- od) \sum_(a <- ud) otf_one_term 2 down_count od ud ou i a in
  let en := otf_two 1 up_count ou uu en in
  let en := otf_two 2 down_count od ud en in
  otf_ud en.

(* ---- return_local_RDMs=True ---- *)
Definition t2 := nat -> nat -> F.
Definition t4 := nat -> nat -> nat -> nat -> F.
(* T.at[indices].add(values): all listed contributions accumulate *)
Definition scat2 (T : t2) (l : seq ((nat * nat) * F)) : t2 :=
  fun p q => T p q + \sum_(e <- l | e.1 == (p, q)) e.2.
Definition scat4 (T : t4) (l : seq (((nat * nat) * (nat * nat)) * F)) : t4 :=
  fun p q r s => T p q r s + \sum_(e <- l | e.1 == ((p, q), (r, s))) e.2.

(* L303-372 *)
Definition rdm_diag_t : t2 :=
  scat2 (scat2 (fun _ _ => 0) [seq ((i, i), 1) | i <- ou]) [seq ((i, i), 1) | i <- od].
Definition loop4 (l l' : seq nat) (idx : nat -> nat -> (nat * nat) * (nat * nat)) (v : F) (T : t4) : t4 :=
  foldl (fun T i => foldl (fun T j => scat4 T [:: (idx i j, v)]) T l') T l.
Definition rdm_diag_eri : t4 :=
  let T : t4 := fun _ _ _ _ => 0 in
  let T := loop4 ou od (fun i j => ((i, i), (j, j))) 1 T in
  let T := loop4 ou ou (fun i j => ((i, i), (j, j))) half T in
  let T := loop4 ou uu (fun i a => ((i, a), (a, i))) half T in
  let T := loop4 od od (fun i j => ((i, i), (j, j))) half T in
  loop4 od ud (fun i a => ((i, a), (a, i))) half T.

(* L433-462, L466-495 (up), L521-550, L554-581 (down): the five returned values and the
   scatter-adds with the transposed contributions *)
Definition rdm_tc (s : nat) (cum : seq nat) (i a : nat) : F :=
  otf_one_ratio s i a * otf_one_parity cum i a.
Definition rdm_c1 (o o' : seq nat) (tc : F) : t2 :=
  scat2 (scat2 (fun _ _ => 0) [seq ((k, k), tc) | k <- o]) [seq ((k, k), tc) | k <- o'].
Definition rdm_c2 (u : seq nat) (tc : F) : t2 := scat2 (fun _ _ => 0) [seq ((k, k), half * tc) | k <- u].
Definition rdm_c3 (o : seq nat) (tc : F) : t2 := scat2 (fun _ _ => 0) [seq ((k, k), - half * tc) | k <- o].
Definition ix4 (l l' : seq nat) (f : nat -> nat -> nat -> nat -> ((nat * nat) * (nat * nat)) * F) :=
  flatten [seq flatten [seq flatten [seq [seq f i a p q | q <- iota 0 L] | p <- iota 0 L] | a <- l'] | i <- l].
Definition rdm_one (s : nat) (cum o u o' : seq nat) (st : F * t2 * t4) : F * t2 * t4 :=
  let '(en, T, E) := st in
  let tc := rdm_tc s cum in
  let en := en + \sum_(i <- o) \sum_(a <- u) otf_value o u o' i a * tc i a in
  let T := scat2 T (flatten [seq [seq ((i, a), tc i a) | a <- u] | i <- o]) in
  let E := scat4 E (ix4 o u (fun i a p q => (((i, a), (p, q)), rdm_c1 o o' (tc i a) p q))) in
  let E := scat4 E (ix4 o u (fun i a p q => (((i, p), (q, a)), rdm_c2 u (tc i a) p q))) in
  let E := scat4 E (ix4 o u (fun i a p q => (((p, a), (i, q)), rdm_c3 o (tc i a) p q))) in
  (en, T, E).

(* L657-681 *)
Definition rdm_two (s : nat) (cum o u : seq nat) (st : F * t4) : F * t4 :=
  foldl (fun st i => foldl (fun (st : F * t4) a =>
    let ro := outer_removed o i in
    let ru := outer_removed u a in
    (st.1 + half * (\sum_(j <- ro) \sum_(b <- ru) eri i a j b * otf_two_inner s cum i a j b),
     scat4 st.2 (flatten [seq [seq (((i, a), (j, b)), half * otf_two_inner s cum i a j b)
                                | b <- ru] | j <- ro])))
    st u) st o.
(* L901-925 *)
Definition rdm_ud (st : F * t4) : F * t4 :=
  foldl (fun st i => foldl (fun (st : F * t4) a =>
    (st.1 + \sum_(j <- od) \sum_(b <- ud) eri i a j b * otf_ud_inner i a j b,
     scat4 st.2 (flatten [seq [seq (((i, a), (j, b)), otf_ud_inner i a j b) | b <- ud] | j <- od])))
    st uu) st ou.

Definition ab_otf_rdm : F * t2 * t4 :=
  let st := (otf_diag, rdm_diag_t, rdm_diag_eri) in
  let st := rdm_one 1 up_count ou uu od st in
  let: (en, T, E) := rdm_one 2 down_count od ud ou st in
  let r := rdm_two 1 up_count ou uu (en, E) in
  let r := rdm_two 2 down_count od ud r in
  let r := rdm_ud r in
  (r.1, T, r.2).
End Otf.
