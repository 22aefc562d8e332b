(* GPSKet/supervised/supervised_qgps.py: QGPSGenLinMod, L1264-1609, with numpy arrays as objects on a
   heap, because the code depends on which arrays are views, copies or the same object.  Modelled:
   the Newton step and the final assignment of the
   weights (L1496-1565) without log_fit_init, it_rew_lst_sq_steps, minimize_fun, and the treatment of
   weightings and fit_data in setup_fit (L1305-1325).  get_loss, get_grad and get_hessian are in Sup_Glm_Grad. *)
From Verif Require Import Base.
Local Open Scope ring_scope.

(* --- arrays on a heap *)
Section Heap.
Variable C : ringType.
Definition heap := seq (seq C).
Definition alloc (h : heap) (v : seq C) : heap * nat := (rcons h v, size h).
Definition read (h : heap) (a : nat) : seq C := nth [::] h a.
Definition write (h : heap) (a : nat) (v : seq C) : heap := set_nth [::] h a v.
(* a[m], m boolean: a new array with the selected entries *)
Definition bool_index (h : heap) (a : nat) (m : seq bool) : heap * nat := alloc h (mask m (read h a)).
(* a[m] = v, in place *)
Fixpoint put (m : seq bool) (x v : seq C) : seq C :=
  match m, x with
  | true :: m', _ :: x' => head 0 v :: put m' x' (behead v)
  | false :: m', y :: x' => y :: put m' x' v
  | _, _ => x
  end.
Definition bool_assign (h : heap) (a : nat) (m : seq bool) (v : seq C) : heap := write h a (put m (read h a) v).
Definition vadd (x y : seq C) : seq C := [seq p.1 + p.2 | p <- zip x y].
Definition vscale (g : C) (x : seq C) : seq C := [seq g * u | u <- x].
End Heap.

Section Newton.
Variables (C : ringType).
(* L1503-1528: whether the Cholesky decomposition of the active block of the Hessian succeeded at these
   weights, and the direction - H^-1 grad on the active elements *)
Variables (cholesky : seq C -> bool) (direction : seq C -> seq C).
Variables (active : seq bool) (gamma : C).

(* setup_fit_alpha_dep L1340-1565.  [self_weights]: None or the array self.weights; [w0]: the vector
   epsilon - prior_mean (and bias) of L1346-1353.  Returns the heap and self.weights *)
Definition newton (h : heap C) (self_weights : option nat) (w0 : seq C) : heap C * nat :=
  (* L1346-1355: a new array, or the array self.weights itself *)
  let: (h1, weights) := if self_weights is Some a then (h, a) else alloc h w0 in
  (* L1530-1546: np.copyto(weights[active], weights[active] + gamma * update_directions) *)
  let h2 :=
    if has id active && cholesky (read h1 weights) then
      let: (h', dst) := bool_index h1 weights active in
      write h' dst (vadd (mask active (read h' weights)) (vscale gamma (direction (read h1 weights))))
    else h1 in
  (* L1553-1562: zeros, or self.weights.fill(0.0) *)
  let: (h3, sw) :=
    if self_weights is Some a then (write h2 a (nseq (size (read h2 a)) 0), a)
    else alloc h2 (nseq (size (read h2 weights)) 0) in
  (* L1564-1565 *)
  (if has id active then bool_assign h3 sw active (mask active (read h3 weights)) else h3, sw).
End Newton.

(* --- setup_fit L1305-1320: exp_amps is a copy of the targets (astype), fit_data the same array;
   self.weightings is the array of the caller where one is passed *)
Section SetupFit.
Variable (C : fieldType).
(* [prefactor]: exp of the prior mean's contribution, [absq x]: |x|^2 *)
Variables (absq : C -> C).
Definition setup_arrays (h : heap C) (targets : nat) (weightings : option nat) (prefactor : seq C)
    : heap C * (nat * nat * nat) :=
  let: (h1, exp_amps) := alloc h (read h targets) in
  let fit_data := exp_amps in
  let h2 := write h1 fit_data [seq p.1 / p.2 | p <- zip (read h1 fit_data) prefactor] in
  let: (h3, ws) :=
    if weightings is Some w then (h2, w) else alloc h2 (nseq (size (read h2 exp_amps)) 1) in
  (write h3 ws [seq p.1 * absq p.2 | p <- zip (read h3 ws) prefactor], (exp_amps, fit_data, ws)).
End SetupFit.
