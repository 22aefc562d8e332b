(* optimizer/solvers.py, optimizer/sr_dense.py, optimizer/sr_rmsprop.py and
   optimizer/qgt/qgt_jacobian_dense_unique_samples.py.  Dense vectors; pytrees and their
   ravelling are not modelled.  None = an exception. *)
From Verif Require Import Base QGT_Model.
Local Open Scope ring_scope.

(* --- a value handed to a solver: a jax array, or a linear operator with a to_dense method *)
Section Solvers.
Variables (C : fieldType) (P : nat) (pinvf : 'M[C]_P -> 'M[C]_P).
Inductive operand : Type := DenseArray of 'M[C]_P | LinOp of 'M[C]_P.
Definition to_dense (A : operand) : option 'M[C]_P := if A is LinOp m then Some m else None.
(* what a solver returns: a vector, or the tuple (vector, info) *)
Inductive solved : Type := Vec of 'cV[C]_P | VecInfo of 'cV[C]_P.
Definition solver_t := operand -> 'cV[C]_P -> option solved.
(* pinv, solvers.py L5-11; [pinvf]: jnp.linalg.pinv *)
Definition pinv : solver_t := fun A b =>
  if to_dense A is Some A then Some (VecInfo (pinvf A *m b)) else None.
(* SRDense.__call__, sr_dense.py L22-36, for the operator built by the constructor (L19-20);
   unravel_fun takes an array *)
Definition sr_dense (solver : solver_t) (lhs : operand) (gradient : 'cV[C]_P) : option 'cV[C]_P :=
  if to_dense lhs is Some m then
    if solver (DenseArray m) gradient is Some (Vec x) then Some x else None
  else None.
(* LinearOperator.solve of netket: out, info = solve_fun(self, y) *)
Definition linop_solve (solver : solver_t) (lhs : operand) (y : 'cV[C]_P) : option 'cV[C]_P :=
  if solver lhs y is Some (VecInfo x) then Some x else None.
End Solvers.

(* --- QGTJacobianDenseUniqueSamples *)
Section UniqueQGT.
Variables (T : Type) (C : fieldType) (conj sqrt : C -> C) (P K : nat).
(* jacobian of the log-amplitude: K real rows per sample in mode "complex" (K = 2), one otherwise *)
Variable O : T -> 'I_K -> 'rV[C]_P.
(* nkjax.jacobian(..., pdf=counts, center=True), L64-74: netket subtracts the mean weighted by pdf
   (summed over the ranks) and multiplies with sqrt(pdf) *)
Definition jac_mean (ranks : seq (seq T * seq C)) (k : 'I_K) : 'rV[C]_P :=
  \sum_(r <- ranks) \sum_(p <- zip r.1 r.2) p.2 *: O p.1 k.
Definition centered_oks (ranks : seq (seq T * seq C)) (r : seq T * seq C) : seq 'rV[C]_P :=
  flatten [seq [seq sqrt p.2 *: (O p.1 k - jac_mean ranks k) | k <- enum 'I_K] | p <- zip r.1 r.2].
(* netket's QGTJacobianDenseT.to_dense: sum over ranks of O^H O, plus diag_shift; a shift None
   cannot be multiplied *)
Definition qgt_dense (Os : seq (seq 'rV[C]_P)) (diag_shift : option C) : option 'M[C]_P :=
  if diag_shift is Some s then
    Some (\matrix_(a, b) (\sum_(rk <- Os) \sum_(o <- rk) conj (o 0 a) * o 0 b + (if a == b then s else 0)))
  else None.

(* the constructor, L28-86: without a state it returns functools.partial with mode and
   holomorphic (L39-42) *)
Record qgt_args := QgtArgs { qa_mode : option nat; qa_holomorphic : option bool; qa_shift : option C }.
Inductive qgt_result := PartialFun of qgt_args | Operator of seq (seq 'rV[C]_P) & option C.
Definition qgt_unique (vstate : option (seq (seq T * seq C))) (a : qgt_args) : qgt_result :=
  if vstate is Some ranks then Operator [seq centered_oks ranks r | r <- ranks] (qa_shift a)
  else PartialFun (QgtArgs (qa_mode a) (qa_holomorphic a) None).
(* calling the partial with a state and no further arguments, as SRDense does (sr_dense.py L20) *)
Definition qgt_apply (f : qgt_result) (ranks : seq (seq T * seq C)) : qgt_result :=
  if f is PartialFun a then qgt_unique (Some ranks) a else f.
End UniqueQGT.

(* --- SRRMSProp, sr_rmsprop.py.  One leaf of n parameters; entries are pairs (real, imaginary),
   a real leaf has imaginary parts 0 *)
Section SRRMSProp.
Variables (R : fieldType) (n : nat) (decay : R).
Definition leaf : Type := 'I_n -> R * R.
(* update_ema, L72-78 *)
Definition update_ema (iscomplex : bool) (nu g : leaf) : leaf := fun i =>
  let sq := if iscomplex then ((g i).1 ^+ 2, (g i).2 ^+ 2) else ((g i).1 ^+ 2, 0) in
  (decay * (nu i).1 + (1 - decay) * sq.1, decay * (nu i).2 + (1 - decay) * sq.2).
(* L83-84, the default step is None *)
Definition bias_corrected (nu : leaf) (step : option nat) : option leaf :=
  if step is Some s then Some (fun i => ((nu i).1 / (1 - decay ^+ s.+1), (nu i).2 / (1 - decay ^+ s.+1))) else None.
(* jnp.full(p.shape, initial_scale, p.dtype), L47-49 *)
Definition initial_ema (initial_scale : R) : leaf := fun _ => (initial_scale, 0).
(* tree_to_real and tree_ravel (qgt_jacobian_dense_rmsprop.py L182-201) of a complex leaf *)
Definition to_real (v : leaf) : 'cV[R]_(n + n) := col_mx (\col_i (v i).1) (\col_i (v i).2).

(* __call__, L68-92, for a complex leaf, with the dense QGT of C48 as operator (all real): new
   _ema and the result *)
Variables (sqrt : R -> R) (eps : R).
Variable solver : 'M[R]_(n + n) -> 'cV[R]_(n + n) -> 'cV[R]_(n + n).
Definition srr_call (nu : leaf) (O : seq (seq 'rV[R]_(n + n))) (diag_shift : R) (g : leaf) (step : option nat) :
    option (leaf * 'cV[R]_(n + n)) :=
  let nu' := update_ema true nu g in
  if bias_corrected nu' step is Some hat then
    (* assert 0 <= diag_shift <= 1 is a precondition *)
    Some (nu', solver (dense_to_dense id sqrt O diag_shift eps (to_real hat)) (to_real g))
  else None.
(* the moment after the gradients l (calls with step 0, 1, 2, ...) *)
Definition ema_run (iscomplex : bool) (initial_scale : R) (l : seq leaf) : leaf :=
  foldl (update_ema iscomplex) (initial_ema initial_scale) l.
End SRRMSProp.
