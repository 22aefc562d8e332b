(* Model of GPSKet/operator/hamiltonian/ab_initio.py, connected elements. *)
From Verif Require Import Base Occ_Model Hopping_Model.
Local Open Scope ring_scope.

Section AbInitio.
Variable R : comRingType.
(* 0.5 *)
Variable half : R.
Implicit Types (x : cfg) (t : nat -> nat -> R) (eri : nat -> nat -> nat -> nat -> R).

(* AbInitioHamiltonian.__init__, ab_initio.py L26-27:
   t = h - 0.5 * einsum("prrq->pq", eri), n the orbital dimension of eri. *)
Definition t_mat (n : nat) (h : nat -> nat -> R) eri : nat -> nat -> R :=
  fun p q => h p q - half * (\sum_(0 <= r < n) eri p r r q).

(* range_indices[is_occ_up] etc., ab_initio.py L59-71; [b = false] selects the empty ones *)
Definition sel_inds (spin_int : nat) (b : bool) x : seq nat :=
  [seq k <- iota 0 (size x) | has (nth 0%N x k) spin_int == b].

(* ab_initio.py L73-93; Python integers, (len - 1) may be negative *)
Definition connected_con (ou uu od ud : seq nat) : nat :=
  let len (l : seq nat) : int := (size l)%:Z in
  absz (1 + len ou * len uu + len od * len ud
     + len od * len ud * (len od - 1) * (len ud - 1)
     + len ou * len uu * (len ou - 1) * (len uu - 1)
     + len ou * len uu * len od * len ud).

(* acc += f k in a loop *)
Definition acc_add (l : seq nat) (f : nat -> R) (acc : R) : R := foldl (fun a k => a + f k) acc l.
Definition acc_sub (l : seq nat) (f : nat -> R) (acc : R) : R := foldl (fun a k => a - f k) acc l.
Definition acc_add2 (l l' : seq nat) (f : nat -> nat -> R) (acc : R) : R :=
  foldl (fun a i => acc_add l' (f i) a) acc l.

(* ab_initio.py L100-119 *)
Definition ab_diag t eri (ou uu od ud : seq nat) : R :=
  let d := acc_add ou (fun i => t i i) 0 in
  let d := acc_add od (fun i => t i i) d in
  let d := acc_add2 ou od (fun i j => eri i i j j) d in
  let d := acc_add2 ou ou (fun i j => half * eri i i j j) d in
  let d := acc_add2 ou uu (fun i a => half * eri i a a i) d in
  let d := acc_add2 od od (fun i j => half * eri i i j j) d in
  acc_add2 od ud (fun i a => half * eri i a a i) d.

(* ab_initio.py L132-140 and L149-157: [o]/[u] the occupied/empty sites of the hopping
   species, [o'] the occupied ones of the other species *)
Definition ab_value t eri (o u o' : seq nat) (i a : nat) : R :=
  let v := t i a in
  let v := acc_add o (fun k => eri i a k k) v in
  let v := acc_add o' (fun k => eri i a k k) v in
  let v := acc_add u (fun k => half * eri i k k a) v in
  acc_sub o (fun k => half * eri k a i k) v.

Definition buf := outbuf (cfg * R).

(* one-body loops, ab_initio.py L126-142 (up) and L143-159 (down) *)
Definition ab_one t eri x (spin_int : nat) (cum : seq nat) (o u o' : seq nat) (st : buf) : buf :=
  foldl (fun st i => foldl (fun st a =>
    let r := apply_hopping i a x spin_int (Some cum) in
    ob_push st (r.2, (r.1)%:~R * ab_value t eri o u o' i a)) st u) st o.

(* two-body same-spin loops, ab_initio.py L162-183 (up) and L184-204 (down).  The second
   hop reuses the counts of the original configuration. *)
Definition ab_two_mult (i a j b : nat) (m1 m2 : int) : int :=
  let left_limit := minn j b in
  let right_limit := (maxn j b).-1 in
  let m := m1 * m2 in
  let m := if (i <= right_limit)%N && (left_limit < i)%N then m * -1 else m in
  if (a <= right_limit)%N && (left_limit < a)%N then m * -1 else m.
Definition ab_two eri x (spin_int : nat) (cum : seq nat) (o u : seq nat) (st : buf) : buf :=
  foldl (fun st i => foldl (fun st a => foldl (fun st j => foldl (fun st b =>
    if (i != j) && (a != b) then
      let r1 := apply_hopping i a x spin_int (Some cum) in
      let r2 := apply_hopping j b r1.2 spin_int (Some cum) in
      ob_push st (r2.2, half * (ab_two_mult i a j b r1.1 r2.1)%:~R * eri i a j b)
    else st) st u) st o) st u) st o.

(* opposite-spin loops, ab_initio.py L205-217 *)
Definition ab_ud eri x (up_count down_count : seq nat) (ou uu od ud : seq nat) (st : buf) : buf :=
  foldl (fun st i => foldl (fun st a => foldl (fun st j => foldl (fun st b =>
    let r1 := apply_hopping i a x 1 (Some up_count) in
    let r2 := apply_hopping j b r1.2 2 (Some down_count) in
    ob_push st (r2.2, (r1.1 * r2.1)%:~R * eri i a j b)) st ud) st od) st uu) st ou.

Definition ab_state := (buf * seq nat)%type.

(* ab_initio.py L58-218, one iteration of the batch loop *)
Definition ab_sample t eri (st : ab_state) (bx : nat * cfg) : ab_state :=
  let x := bx.2 in
  let up_count := cumcount 1 x in
  let down_count := cumcount 2 x in
  let ou := sel_inds 1 true x in
  let od := sel_inds 2 true x in
  let uu := sel_inds 1 false x in
  let ud := sel_inds 2 false x in
  let o := ob_grow (connected_con ou uu od ud) st.1 in
  let o := ob_push o (x, ab_diag t eri ou uu od ud) in
  let o := ab_one t eri x 1 up_count ou uu od o in
  let o := ab_one t eri x 2 down_count od ud ou o in
  let o := ab_two eri x 1 up_count ou uu o in
  let o := ab_two eri x 2 down_count od ud o in
  let o := ab_ud eri x up_count down_count ou uu od ud o in
  (o, set_nth 0%N st.2 bx.1 (ob_cur o)).

(* ab_initio.py L49-219, _get_conn_flattened_kernel *)
Definition ab_conn_flattened t eri (xs : seq cfg) (sections : seq nat) : ab_state :=
  foldl (ab_sample t eri) (ob_alloc _ 0, sections) (zip (iota 0 (size xs)) xs).
End AbInitio.
