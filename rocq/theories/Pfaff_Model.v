(* models/pfaffian.py, log_pfaffian (L42-81), for one matrix.  Matrices are functions of their
   two indices with N = mat.shape[0] rows; entries and values are [option F], where None is a
   floating point result which is not a finite number.  The log value is modelled by its
   exponential: sums of logarithms are products, -inf is 0. *)
From Verif Require Import Base.
Import Num.Theory Order.TTheory.
Local Open Scope ring_scope.

Section Pfaff.
Variables (F : fieldType) (R : realFieldType).
(* jnp.abs *)
Variable absv : F -> R.
Definition entry := option F.
Definition mat := nat -> nat -> entry.

Definition oadd (x y : entry) : entry := if x is Some a then if y is Some b then Some (a + b) else None else None.
Definition omul (x y : entry) : entry := if x is Some a then if y is Some b then Some (a * b) else None else None.
Definition oopp (x : entry) : entry := if x is Some a then Some (- a) else None.
(* division by zero gives inf or nan *)
Definition odiv (x y : entry) : entry :=
  if x is Some a then if y is Some b then if b == 0 then None else Some (a / b) else None else None.

(* jnp.argmax(jnp.abs(v)): the first nan if there is one, otherwise the first maximum *)
Definition oabs (x : entry) : R := if x is Some a then absv a else 0.
Definition argmax_abs (v : seq entry) : nat :=
  if has (fun x => x == None) v then find (fun x => x == None) v
  else find (fun x => all (fun y => (oabs y <= oabs x)) v) v.

(* matrix.at[r0, c0:].set(f) and matrix.at[r0:, c0].set(f) *)
Definition set_row (M : mat) (r0 c0 : nat) (f : nat -> entry) : mat :=
  fun r c => if (r == r0) && (c0 <= c)%N then f c else M r c.
Definition set_col (M : mat) (r0 c0 : nat) (f : nat -> entry) : mat :=
  fun r c => if (r0 <= r)%N && (c == c0) then f r else M r c.

(* L51-65: exchange rows and columns index + 1 and index + largest_index + 1 *)
Definition exchange (M : mat) (index big : nat) : mat :=
  let U1 := set_row M (index + 1) index (fun c => M (index + big + 1)%N c) in
  let U2 := set_row U1 (index + big + 1) index (fun c => M (index + 1)%N c) in
  let U3 := set_col U2 index (index + 1) (fun r => U2 r (index + big + 1)%N) in
  set_col U3 index (index + big + 1) (fun r => U2 r (index + 1)%N).

(* one pass of the loop, L47-80 *)
Definition pfaff_step (N : nat) (st : entry * mat) (count : nat) : entry * mat :=
  let: (value, M) := st in
  let index := (count * 2)%N in
  let big := argmax_abs [seq M r index | r <- iota (index + 1) (N - (index + 1))] in
  let M := exchange M index big in
  (* L67 *)
  let value := if big != 0%N then oopp value else value in
  (* L69-73 *)
  let value := if M (index + 1)%N index != Some 0 then omul value (M index (index + 1)%N) else Some 0 in
  (* L74-80 *)
  let t := fun c => odiv (M index c) (M index (index + 1)%N) in
  let below := fun r c => (index + 2 <= r)%N && (index + 2 <= c)%N in
  let M1 : mat := fun r c => if below r c then oadd (M r c) (omul (t r) (M c (index + 1)%N)) else M r c in
  let M2 : mat := fun r c => if below r c then oadd (M1 r c) (oopp (omul (M1 r (index + 1)%N) (t c))) else M1 r c in
  (value, M2).

(* log_pfaffian, L42-81: n = mat.shape[0] // 2 *)
Definition log_pfaffian (N : nat) (M : mat) : entry :=
  (foldl (pfaff_step N) (Some 1, M) (iota 0 (N %/ 2))).1.

(* PfaffianState.__call__, L107-128, for one sample: y_syms are the electron positions after the
   symmetries; F_occ[i, j] = Fm[y_i, y_j]; out_transformation is the log of the sum *)
Definition skew_occ (Fm : nat -> nat -> F) (y : seq nat) : mat :=
  fun i j => Some (Fm (nth 0%N y i) (nth 0%N y j) - Fm (nth 0%N y j) (nth 0%N y i)).
Definition pfaffian_state (Fm : nat -> nat -> F) (y_syms : seq (seq nat)) : entry :=
  foldr (fun y acc => oadd (log_pfaffian (size y) (skew_occ Fm y)) acc) (Some 0) y_syms.

(* ZeroMagnetizationPfaffian.__call__, L155-189: the matrix F of one rotation; cos and sin of half
   the angle are ca and sa *)
Definition rotated_F (L : nat) (f : nat -> nat -> F) (ca sa : F) : nat -> nat -> F := fun p q =>
  let i := (p %% L)%N in let j := (q %% L)%N in
  if (p < L)%N then if (q < L)%N then - f i j * ca * sa else f i j * ca * ca
  else if (q < L)%N then - f i j * sa * sa else f i j * ca * sa.
Definition zero_mag_pfaffian (L : nat) (f : nat -> nat -> F) (rots : seq (F * F * F)) (y_syms : seq (seq nat)) : entry :=
  foldr (fun rot acc =>
           let: (ca, sa, w) := rot in
           foldr (fun y acc => oadd (omul (log_pfaffian (size y) (skew_occ (rotated_F L f ca sa) y)) (Some w)) acc) acc y_syms)
        (Some 0) rots.
End Pfaff.
