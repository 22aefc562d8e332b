(* Model of GPSKet/operator/hamiltonian/hubbard.py. *)
From Verif Require Import Base Occ_Model Hopping_Model.
Local Open Scope ring_scope.

Section Hubbard.
Variable R : comRingType.
Implicit Types (x : cfg) (edges : seq (nat * nat)) (t : seq R) (U : R).

(* FermiHubbard.__init__, hubbard.py L24-28: a scalar t is broadcast over the edges. *)
Inductive t_arg := TList of seq R | TScalar of R.
Definition hubbard_t (edges : seq (nat * nat)) (t : t_arg) : seq R :=
  match t with TList l => l | TScalar c => [seq 1 * c | _ <- edges] end.

Definition hub_state := (outbuf (cfg * R) * seq nat)%type.

(* hubbard.py L65-91, body of the edge loop before `sections[batch_id] = count`:
   four writes. *)
Definition hub_edge U x edges t (up_count down_count : seq nat) (st : outbuf (cfg * R))
    (edge_count : nat) : outbuf (cfg * R) :=
  let edge := nth (0, 0)%N edges edge_count in
  let put st a c s cum :=
    let r := apply_hopping a c x s (Some cum) in
    ob_push st (r.2, - nth 0 t edge_count * (r.1)%:~R) in
  let st := put st edge.1 edge.2 1%N up_count in
  let st := put st edge.2 edge.1 1%N up_count in
  let st := put st edge.1 edge.2 2%N down_count in
  put st edge.2 edge.1 2%N down_count.

(* hubbard.py L53-93, one iteration of the batch loop.  [sections[batch_id] = count]
   is inside the edge loop (L93). *)
Definition hub_sample U edges t (st : hub_state) (bx : nat * cfg) : hub_state :=
  let x := bx.2 in
  let st1 := (ob_push st.1 (x, U * (count (fun o => o == 3%N) x)%:R), st.2) in
  let up_count := cumcount 1 x in
  let down_count := cumcount 2 x in
  foldl (fun (s : hub_state) edge_count =>
           let o := hub_edge U x edges t up_count down_count s.1 edge_count in
           (o, set_nth 0%N s.2 bx.1 (ob_cur o)))
        st1 (iota 0 (size edges)).

(* hubbard.py L45-94, _get_conn_flattened_kernel: returns the output arrays and the
   caller's sections array after the in-place writes. *)
Definition hub_conn_flattened U edges t (xs : seq cfg) (sections : seq nat) : hub_state :=
  foldl (hub_sample U edges t)
        (ob_alloc _ (size xs * (1 + size edges * 4))%N, sections)
        (zip (iota 0 (size xs)) xs).

End Hubbard.

(* ab_initio.py L236-240, get_parity_multiplicator_hop (imported by hubbard.py). *)
Definition parity_multiplicator_hop (i a : nat) (cum : seq nat) : int :=
  let l0 := minn i a in let l1 := maxn i a in
  let parity_count : int := (nth 0%N cum l1.-1)%:Z - (nth 0%N cum l0)%:Z in
  1 - (odd `|parity_count|%N)%:Z *+ 2.

Section OnTheFly.
Variable F : fieldType.
(* hubbard.py L106-201, local_en_on_the_fly for one sample.  [psi] is the amplitude function;
   exp(log_amp' - log_amp) is the amplitude of the connected configuration divided by psi x.
   [fast] is Some of logpsi with the cache of x (applied to the new occupancies and the update
   sites) if use_fast_update, L134-139, None otherwise.  The two sites written by
   `.at[update_sites].set` are distinct whenever the hop branch is taken. *)
Definition hub_otf_hop (fast : option (seq nat -> seq nat -> F)) (psi : cfg -> F) (x : cfg) (spin_int : nat) (cum : seq nat)
    (a c : nat) : F :=
  let start_occ := nth 0%N x a in
  let end_occ := nth 0%N x c in
  if ~~ has start_occ spin_int || has end_occ spin_int then 0
  else
    let new_start := u8 (start_occ%:Z - spin_int%:Z) in
    let new_end := u8 (end_occ%:Z + spin_int%:Z) in
    (parity_multiplicator_hop a c cum)%:~R
    * ((if fast is Some f then f [:: new_start; new_end] [:: a; c]
        else psi (set_nth 0%N (set_nth 0%N x a new_start) c new_end)) / psi x).

Definition hub_otf (U : F) (edges : seq (nat * nat)) (t : seq F) (fast : option (seq nat -> seq nat -> F)) (psi : cfg -> F) (x : cfg) : F :=
  let term s cum :=
    \sum_(0 <= k < size edges)
      (hub_otf_hop fast psi x s cum (nth (0,0)%N edges k).1 (nth (0,0)%N edges k).2
       + hub_otf_hop fast psi x s cum (nth (0,0)%N edges k).2 (nth (0,0)%N edges k).1)
      * - nth 0 t k in
  let e0 := U * (count (fun o => o == 3%N) x)%:R in
  if (0 < size edges)%N then e0 + term 1%N (cumcount 1 x) + term 2%N (cumcount 2 x) else e0.
End OnTheFly.
