(* driver/minSR.py: the pytrees of minSRVMC (L212-232) for complex parameters.

   In mode "holomorphic" the rows of the jacobian are the derivatives O with respect to the complex
   parameters and the dense vectors are the pytrees (unravel).  In the other modes the parameters are
   replaced by their real and imaginary parts (nk.jax.tree_to_real, L216): the rows hold the derivatives
   with respect to all real parts, then those with respect to all imaginary parts (two real rows
   recombined to a complex one, L106-107), and reassemble gives re + 1j * im (contract of NetKet). *)
From Verif Require Import Base MinSR_Model.
Local Open Scope ring_scope.

Section Pytree.
Variables (C : fieldType) (i : C) (P : nat).
(* the row of a sample in mode "complex": derivatives for the real and for the imaginary parts *)
Definition complex_row (T : Type) (ox oy : T -> 'rV[C]_P) (x : T) : 'rV[C]_(P + P) := row_mx (ox x) (oy x).
(* L213-221 *)
Definition reassemble (u : 'rV[C]_(P + P)) : 'rV[C]_P := lsubmx u + i *: rsubmx u.

Variables (conj sqrt : C -> C) (T : Type) (scaled : bool) (eloc : T -> C) (transposed : bool).
Variables (ranks : seq (rank_state C T)) (n_chunks chunk_size n_samples : nat).
Variable solver : 'M[C]_n_samples -> 'cV[C]_n_samples -> 'cV[C]_n_samples.
(* self._dp, L221, and self._loss_grad, L223; complex parameters are not cast (L226-230) *)
Definition dp_holomorphic (o : T -> 'rV[C]_P) : 'rV[C]_P :=
  dense_update conj sqrt (netket_jac sqrt scaled o) eloc transposed ranks n_chunks chunk_size solver.
Definition dp_complex (ox oy : T -> 'rV[C]_P) : 'rV[C]_P :=
  reassemble (dense_update conj sqrt (netket_jac sqrt scaled (complex_row ox oy)) eloc transposed ranks n_chunks chunk_size solver).
Definition loss_grad_holomorphic (o : T -> 'rV[C]_P) : 'rV[C]_P :=
  loss_grad sqrt (netket_jac sqrt scaled o) eloc transposed ranks n_chunks chunk_size.
Definition loss_grad_complex (ox oy : T -> 'rV[C]_P) : 'rV[C]_P :=
  reassemble (loss_grad sqrt (netket_jac sqrt scaled (complex_row ox oy)) eloc transposed ranks n_chunks chunk_size).
End Pytree.
