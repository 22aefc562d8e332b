(* optimizer/qgt/qgt_jacobian_dense_rmsprop.py: mat_vec (L173-179) and to_dense (L142-160);
   optimizer/qgt/qgt_onthefly_rmsprop.py: mat_vec (L23-43) and _to_dense (L216-238).
   Vectors are dense: the conversion between pytrees and dense real vectors
   (convert_tree_to_dense_format, tree_ravel) is not modelled.  MPI ranks are a list, mpi_sum_jax a
   sum over it.  [sqrt]: jnp.sqrt. *)
From Verif Require Import Base.
Local Open Scope ring_scope.

Section QGT.
Variables (C : fieldType) (conj sqrt : C -> C) (P : nat).

(* --- QGTJacobianDenseRMSPropT.  A rank holds the list of its jacobian rows; in mode "complex"
   the array (n_samples, 2, n_params) is the list of the 2 n_samples real rows *)
Section Dense.
Variables (O : seq (seq 'rV[C]_P)) (diag_shift eps : C) (ema : 'cV[C]_P).

(* L173-179: w = O @ v; res = tensordot(w.conj(), O).conj(); mpi_sum *)
Definition dense_mat_vec (v : 'cV[C]_P) : 'cV[C]_P :=
  \col_b ((1 - diag_shift) *
            (\sum_(rk <- O) conj (\sum_(o <- rk) conj (\sum_a o 0 a * v a 0) * o 0 b)) +
          diag_shift * (sqrt (ema b 0) + eps) * v b 0).

(* L151-160 *)
Definition dense_to_dense : 'M[C]_P :=
  \matrix_(a, b) ((1 - diag_shift) * (\sum_(rk <- O) \sum_(o <- rk) conj (o 0 a) * o 0 b) +
                  diag_shift * (if a == b then sqrt (ema a 0) + eps else 0)).
End Dense.

(* --- QGTOnTheFlyRMSPropT.  [J]: per rank the rows of the (not centred) jacobian; jvp_fn v is
   J v (L49-53).  [re]: what jax.linear_transpose does to the cotangent of a real parameter (real
   part), the identity for complex parameters *)
Section OnTheFly.
Variables (re : C -> C) (J : seq (seq 'rV[C]_P)) (diag_shift eps : C) (ema : 'cV[C]_P).
Let n_nodes := size J.

(* L28 *)
Definition jvp (rk : seq 'rV[C]_P) (v : 'cV[C]_P) : seq C := [seq \sum_a (j : 'rV[C]_P) 0 a * v a 0 | j <- rk].
(* L29: w.size is the number of samples of the rank *)
Definition scaled_w (rk : seq 'rV[C]_P) (v : 'cV[C]_P) : seq C :=
  [seq x * (1 / (size rk * n_nodes)%:R) | x <- jvp rk v].
(* L30: subtract_mean over the samples of all ranks *)
Definition w_mean (v : 'cV[C]_P) : C :=
  (\sum_(rk <- J) \sum_(x <- scaled_w rk v) x) / (\sum_(rk <- J) size rk)%N%:R.
Definition centred_w (rk : seq 'rV[C]_P) (v : 'cV[C]_P) : seq C := [seq x - w_mean v | x <- scaled_w rk v].
(* L26, L33: vjp_fn(w.conjugate()), conjugated *)
Definition vjp_conj (rk : seq 'rV[C]_P) (v : 'cV[C]_P) (b : 'I_P) : C :=
  conj (re (\sum_(p <- zip (centred_w rk v) rk) conj p.1 * p.2 0 b)).
(* L34-43 *)
Definition otf_mat_vec (v : 'cV[C]_P) : 'cV[C]_P :=
  \col_b ((1 - diag_shift) * (\sum_(rk <- J) vjp_conj rk v b) +
          diag_shift * (sqrt (ema b 0) + eps) * v b 0).
(* L224-238: the rows of out are S e_i; transposed for complex numbers only *)
Definition otf_to_dense (iscomplex : bool) : 'M[C]_P :=
  let out := \matrix_(i, b) otf_mat_vec (delta_mx i 0) b 0 in if iscomplex then out^T else out.
End OnTheFly.
End QGT.
