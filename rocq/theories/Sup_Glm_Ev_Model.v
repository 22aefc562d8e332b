(* GPSKet/supervised/supervised_qgps.py, QGPSGenLinMod: log_marg_lik (L1613-1663) and log_marg_lik_beta_der
   (L1666-1700) with the factorisation of the Hessian in setup_fit_alpha_dep (L1492-1551).  Real data (dtype
   float), and complex data with complex_expand, which the constructor requires for complex parameters
   (L1272-1283); get_hessian, rpred and cpred are those of Sup_Glm_Grad.  Real numbers of Coq's standard library.
   [chol]: sp.linalg.cholesky(lower=True), None when it raises; [pinvh]: sp.linalg.pinvh.  Sums over the
   configurations of all ranks. *)
From Coq Require Import Reals.
From Verif Require Import Base Rstruct Calc Sup_Fit_Model Sup_RVM_Model Sup_Glm_Irls_Model.
From Verif Require Sup_Glm_Grad.
Local Open Scope ring_scope.
Notation csub := Sup_Glm_Grad.csub.
Notation cnorm2 := Sup_Glm_Grad.cnorm2.
Notation cscale := Sup_Glm_Grad.cscale.
Notation cplx := Sup_Glm_Grad.cplx.

Section Ev.
Variables (chol : forall m, 'M[RR]_m -> option 'M[RR]_m) (pinvh : forall m, 'M[RR]_m -> 'M[RR]_m).
Variables (m p : nat) (alpha : nat -> RR) (active : nat -> bool).
Notation act := (@gact p active).
(* L1492-1519, L1548-1551: self.cholesky with self.Sinv_L, or self.Sinv *)
Definition glm_factor (H : 'M[RR]_p) : factor RR #|act| :=
  if #|act| == 0%N then Sinv 0 else
  match chol (sub_mat act H) with Some L => SinvL (invmx L) | None => Sinv (pinvh (sub_mat act H)) end.
(* L1619-1628 *)
Definition glm_logdet (expand : bool) (f : factor RR #|act|) : RR :=
  match f with
  | SinvL X => if expand then 1 / 2%:R * (\sum_k rln (1 / 2%:R * `|X k k| ^+ 2)) else 2%:R * (\sum_k rln `|X k k|)
  | Sinv X => if expand then 1 / 2%:R * rln `|\det ((1 / 2%:R) *: X)| else rln `|\det X|
  end.
(* L1680-1689 *)
Definition glm_diag (expand : bool) (f : factor RR #|act|) (k : 'I_#|act|) : RR :=
  let d := match f with SinvL X => \sum_l `|X l k| ^+ 2 | Sinv X => X k k end in
  if expand then d * (1 / 2%:R) else d.
(* L1691-1693 *)
Definition glm_gamma (expand : bool) (f : factor RR #|act|) : RR :=
  \sum_(k < #|act|) (1 - alpha (enum_val k) * glm_diag expand f k).
Definition sum_log_alpha : RR := \sum_(k < #|act|) rln (alpha (enum_val k)).

(* --- real data *)
Section Real.
Variables (K : nat -> nat -> RR) (weightings fit_data : nat -> RR).
(* setup_fit L1321 *)
Definition N_data : RR := rsum m weightings.
(* the Hessian of setup_fit_alpha_dep (L1488) at the weights w; self.weights are w on the active elements and
   zero elsewhere (L1553-1565), only the active ones are read below *)
Definition glm_hess (beta : RR) (w : nat -> RR) : 'M[RR]_p :=
  \matrix_(a, b) Sup_Glm_Grad.get_hessian m p K weightings fit_data alpha beta w a b.
(* L1644-1650 / L1674-1678, L1695-1697 *)
Definition glm_pred (w : nat -> RR) (i : nat) : RR := exp (\sum_(k < #|act|) K i (enum_val k) * w (enum_val k)).
Definition glm_err (w : nat -> RR) : RR := rsum m (fun i => weightings i * `|fit_data i - glm_pred w i : RR| ^+ 2).
Definition glm_lik (beta : RR) (w : nat -> RR) : RR :=
  let l := (rln beta - rln (2%:R * PI)) * N_data in
  let l := l + glm_logdet false (glm_factor (glm_hess beta w)) in
  let l := l + sum_log_alpha in
  let loss := beta * glm_err w + \sum_(k < #|act|) alpha (enum_val k) * `|w (enum_val k)| ^+ 2 in
  (l - loss) * (1 / 2%:R).
Definition glm_beta_der (beta : RR) (w : nat -> RR) : RR :=
  (N_data / beta - glm_gamma false (glm_factor (glm_hess beta w)) / beta - glm_err w) * (1 / 2%:R).
End Real.

(* --- complex data, complex_expand: p is twice the number of columns of self.K, K = hstack((K, 1j K)) *)
Section Complex.
Variables (K : nat -> nat -> cplx) (weightings : nat -> RR) (fit_data : nat -> cplx).
Definition glm_hessx (beta : RR) (w : nat -> RR) : 'M[RR]_p :=
  \matrix_(a, b) Sup_Glm_Grad.get_hessianx m p K weightings fit_data alpha beta w a b.
Definition glm_predx (w : nat -> RR) (i : nat) : cplx :=
  Sup_Glm_Grad.cexp (\sum_(k < #|act|) w (enum_val k) * fst (K i (enum_val k)) : RR,
                     \sum_(k < #|act|) w (enum_val k) * snd (K i (enum_val k)) : RR).
Definition glm_errx (w : nat -> RR) : RR :=
  rsum m (fun i => weightings i * (cnorm2 (csub (fit_data i) (glm_predx w i)) : RR)).
Definition glm_likx (beta : RR) (w : nat -> RR) : RR :=
  let l := (rln beta - rln PI) * N_data weightings in
  let l := l + glm_logdet true (glm_factor (glm_hessx beta w)) in
  let l := l + 1 / 2%:R * sum_log_alpha in
  let loss := beta * glm_errx w + \sum_(k < #|act|) alpha (enum_val k) / 2%:R * `|w (enum_val k)| ^+ 2 in
  l - loss.
Definition glm_beta_derx (beta : RR) (w : nat -> RR) : RR :=
  N_data weightings / beta - glm_gamma true (glm_factor (glm_hessx beta w)) / beta - glm_errx w.
End Complex.
End Ev.
