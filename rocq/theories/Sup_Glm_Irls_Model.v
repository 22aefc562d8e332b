(* GPSKet/supervised/supervised_qgps.py, QGPSGenLinMod.setup_fit_alpha_dep: the iteratively reweighted least
   squares steps (L1400-1438).  Real parameters (L1400-1401 asserts that epsilon is not complex), real numbers
   of Coq's standard library with the true exponential and logarithm.  rpred (= np.exp(K.dot(weights))) and
   get_loss are those of Sup_Glm_Grad.  Sums over the configurations of all ranks (_mpi_sum).
   [chol]: sp.linalg.cholesky(lower=True), None when it raises; [lstsq]: np.linalg.lstsq(..)[0]. *)
From Coq Require Import Reals.
From Verif Require Import Base Rstruct Calc Sup_Fit_Model.
From Verif Require Sup_Glm_Grad.
Local Open Scope ring_scope.
Notation rsum := Sup_Glm_Grad.rsum.
Notation rpred := Sup_Glm_Grad.rpred.

(* setup_fit L1322-1325: self.beta from self.noise_tilde *)
Definition glm_beta (noise : RR) : RR := if noise != 0 then 1 / noise else 1.

Section Irls.
Variables (chol : forall m, 'M[RR]_m -> option 'M[RR]_m) (lstsq : forall m, 'M[RR]_m -> 'cV[RR]_m -> 'cV[RR]_m).
Variables (m p : nat) (K : nat -> nat -> RR) (weightings fit_data alpha : nat -> RR) (active : nat -> bool) (noise : RR).
Implicit Type w : nat -> RR.
(* self.active_elements *)
Definition gact : pred 'I_p := fun i => active i.
(* L1404-1407 *)
Definition irls_e w (i : nat) : RR := (fit_data i - rpred p K w i) / rpred p K w i.
Definition irls_z w (i : nat) : RR := ln (rpred p K w i) + irls_e w i.
Definition irls_S w (i : nat) : RR := weightings i * `|rpred p K w i : RR| ^+ 2 / noise.
(* L1408-1411 *)
Definition irls_KtK w : 'M[RR]_p := \matrix_(a, b) rsum m (fun i => K i a * (irls_S w i * K i b)).
Definition irls_y w : 'cV[RR]_p := \col_a rsum m (fun i => K i a * (irls_S w i * irls_z w i)).
(* L1418 *)
Definition irls_KtK_alpha w : 'M[RR]_p := \matrix_(a, b) (irls_KtK w a b + (if a == b then alpha a else 0)).
(* L1420-1438: cho_solve with the factor, or lstsq; weights[active_elements] is assigned in place.  Without
   an active element nothing is assigned *)
Definition irls_sol w : 'cV[RR]_#|gact| :=
  let A := sub_mat gact (irls_KtK_alpha w) in
  let b := sub_vec gact (irls_y w) in
  match chol A with Some L => invmx L^T *m (invmx L *m b) | None => lstsq A b end.
Definition irls_step w : nat -> RR := fun j =>
  if (j < p)%N && active j then \sum_(k < #|gact| | nat_of_ord (enum_val k) == j) irls_sol w k 0 else w j.
(* L1403 *)
Definition irls (steps : nat) w : nat -> RR := iter steps irls_step w.
End Irls.
