(* optimizer/sr_rmsprop.py: the preconditioner SRRMSProp as an object with state: validation of diag_shift
   in the constructor (L35-37) and in lhs_constructor (L52-66), the order in which __call__ (L68-92)
   changes the state and raises.  Numerics of a call as in UQGT_Model (one complex leaf).
   Not modelled: info, _lhs, assignments to the attributes from outside. *)
From Verif Require Import Base QGT_Model UQGT_Model.
Import Num.Theory Order.TTheory.
Local Open Scope ring_scope.

Inductive sr_error := TypeErr | AssertionErr.

Section Preconditioner.
Variables (R : realFieldType) (n : nat) (decay eps : R) (sqrt : R -> R).
Variable solver : 'M[R]_(n + n) -> 'cV[R]_(n + n) -> 'cV[R]_(n + n).
(* diag_shift: a number or a schedule, L14 *)
Inductive shift_t := Scalar of R | Schedule of (nat -> R).
Record precond := Precond { p_shift : shift_t; p_ema : leaf R n; p_x0 : option 'cV[R]_(n + n) }.
(* assert (diag_shift >= 0.0) and (diag_shift <= 1.0), L36 and L63 *)
Definition in_range (s : R) : bool := (0 <= s) && (s <= 1).
(* __init__, L21-50; only a number is checked here (L35-36) *)
Definition sr_init (diag_shift : shift_t) (initial_scale : R) : sr_error + precond :=
  let p := Precond diag_shift (initial_ema initial_scale) None in
  if diag_shift is Scalar s then if in_range s then inr p else inl AssertionErr else inr p.
(* lhs_constructor, L52-66: the shift of the operator it builds *)
Definition lhs_shift (diag_shift : shift_t) (step : option nat) : sr_error + R :=
  match diag_shift, step with
  | Scalar s, _ => inr s
  | Schedule _, None => inl TypeErr
  | Schedule f, Some t => if in_range (f t) then inr (f t) else inl AssertionErr
  end.
(* __call__, L68-92: the state afterwards, also when an exception is raised, and the result *)
Definition sr_call (p : precond) (O : seq (seq 'rV[R]_(n + n))) (g : leaf R n) (step : option nat) :
    precond * (sr_error + 'cV[R]_(n + n)) :=
  (* L80 *)
  let p1 := Precond (p_shift p) (update_ema decay true (p_ema p) g) (p_x0 p) in
  (* L83-84: None + 1 *)
  if bias_corrected decay (p_ema p1) step is Some hat then
    (* L87 *)
    match lhs_shift (p_shift p1) step with
    | inl e => (p1, inl e)
    (* L90-92 *)
    | inr s => let x := solver (dense_to_dense id sqrt O s eps (to_real hat)) (to_real g) in
               (Precond (p_shift p1) (p_ema p1) (Some x), inr x)
    end
  else (p1, inl TypeErr).
(* a program that goes on after exceptions: jacobians, gradient and step of every call *)
Definition call_args : Type := seq (seq 'rV[R]_(n + n)) * leaf R n * option nat.
Definition sr_run (p : precond) (l : seq call_args) : precond :=
  foldl (fun p a => (sr_call p a.1.1 a.1.2 a.2).1) p l.
End Preconditioner.
