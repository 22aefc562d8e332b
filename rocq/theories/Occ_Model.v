(* Models of the numpy / numba idioms shared by the fermionic operator code:
   uint8 occupancy arrays, bit tests, cumulative counts, output buffers. *)
From Verif Require Import Base.

(* An occupancy configuration: numpy uint8 array, 0 empty, 1 up, 2 down, 3 doubly
   occupied (hilbert/discrete_fermion.py L11-29 uses the same bits). *)
Definition cfg := seq nat.

(* uint8 wrap-around of an integer result (numpy/numba uint8 arithmetic). *)
Definition u8 (z : int) : nat := `|(z %% 256)%Z|%N.

(* `o & spin_int` as a truth value. *)
Definition has (o spin_int : nat) : bool := Nat.land o spin_int != 0.

(* np.cumsum((x & spin_int).astype(bool)), operator/hamiltonian/hubbard.py L59-63,
   ab_initio.py L59-63. *)
Definition cumcount (spin_int : nat) (x : cfg) : seq nat :=
  scanl addn 0 [seq nat_of_bool (has o spin_int) | o <- x].

(* x[i] += d on a uint8 array. *)
Definition add_at (x : cfg) (i : nat) (d : int) : cfg :=
  set_nth 0 x i (u8 ((nth 0%N x i)%:Z + d)%R).

(* Preallocated output arrays with a write cursor: x_prime[count,:] = ..; mels[count] = ..;
   count += 1.  A slot never written holds None (np.empty); a write past the end clears
   [ok].  The two parallel arrays are modelled as one array of pairs because the code
   always writes both at the same index before moving the cursor. *)
Record outbuf (E : Type) := OutBuf
  { ob_cur : nat; ob_buf : seq (option E); ob_ok : bool }.

Section Buf.
Variable E : Type.
Definition ob_push (st : outbuf E) (e : E) : outbuf E :=
  if ob_cur st < size (ob_buf st)
  then OutBuf (ob_cur st).+1 (set_nth None (ob_buf st) (ob_cur st) (Some e)) (ob_ok st)
  else OutBuf (ob_cur st).+1 (ob_buf st) false.
(* np.append(arr, np.empty(n)), ab_initio.py L95-98 *)
Definition ob_grow (n : nat) (st : outbuf E) : outbuf E :=
  OutBuf (ob_cur st) (ob_buf st ++ nseq n None) (ob_ok st).
Definition ob_alloc (n : nat) : outbuf E := OutBuf 0 (nseq n None) true.
End Buf.
