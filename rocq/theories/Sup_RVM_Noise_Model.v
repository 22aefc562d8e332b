(* GPSKet/supervised/supervised_qgps.py: derivatives of log_marg_lik with respect to the noise and the
   hyperparameter iteration.  QGPSLearningExp.setup_fit_noise_dep (L560-600) and log_marg_lik_noise_der
   (L689-797); QGPSLogSpaceFit.log_marg_lik_noise_der (L1191-1228);
   gamma of QGPSLearning.opt_alpha_beta (L354-368).  Real parameters (dtype float) unless said otherwise. *)
From Verif Require Import Base Sup_Model Sup_Fit_Model Sup_RVM_Model.
Import Num.Theory Order.TTheory.
Local Open Scope ring_scope.

Section ExpNoise.
Variables (R : realFieldType) (ln sqrt : R -> R) (pi : R).
Variables (chol : forall m, 'M[R]_m -> option 'M[R]_m) (pinvh : forall m, 'M[R]_m -> 'M[R]_m).
Variables (n : nat) (acut kcut : R).
(* one data point: row of K, |exp_amps|^2, |pred|^2 with pred = self.predict(self.confs), entry of
   noise_reweighting, weighting (1 without weightings) and entry of fit_data; no amplitude is zero *)
Record nrow := NRow { nk : 'rV[R]_n; na : R; npd : R; nrw : R; nw : R; ny : R }.
(* self.iterative_noise_est; self.noise_reweighting is not None *)
Variables (iter_est rewt : bool).
Definition amp2 (r : nrow) : R := if rewt then na r / nrw r else na r.
(* L560-583, noise_tilde != 0 *)
Definition s_diag (nu : R) (r : nrow) : R :=
  (if iter_est then 1 / (ln (1 + sqrt (4%:R * nu / npd r + 1)) + ln (1 / 2%:R))
   else 1 / ln (1 + nu / amp2 r)) * nw r.
Definition nrow_l (nu : R) (r : nrow) : lrow R n := LRow (FRow (nk r) (s_diag nu r) (ny r)) (nw r).
Definition nranks (nu : R) (ranks : seq (seq nrow)) : seq (seq (lrow R n)) := [seq [seq nrow_l nu r | r <- rk] | rk <- ranks].
(* log_marg_lik after setup_fit_noise_dep with noise_tilde = nu *)
Definition noise_lik (ranks : seq (seq nrow)) alpha (nu : R) : R :=
  exp_log_marg_lik ln pi chol pinvh acut kcut (nranks nu ranks) alpha.

(* L690-754 *)
Definition del_S (nu : R) (r : nrow) : R :=
  if iter_est then
    let q := if rewt then npd r / nrw r else npd r in
    let sq := sqrt (4%:R * nu / q + 1) in 1 / (sq + 1) * 2%:R / (q * sq)
  else 1 / (amp2 r * (1 + nu / amp2 r)).
(* L756-759 *)
Definition Delta_S (nu : R) (r : nrow) : R := - (s_diag nu r ^+ 2 * del_S nu r) / nw r.
Section Der.
Variables (ranks : seq (seq nrow)) (alpha : 'I_n -> R) (nu : R).
Let rows : seq (seq (frow R n)) := [seq [seq lr r | r <- rk] | rk <- nranks nu ranks].
Let KtK := KtK_of [rmorphism of idfun] rows.
Let y := y_of [rmorphism of idfun] rows.
Let act := act_of acut kcut KtK alpha.
Let w := wA chol pinvh false acut kcut 1 KtK y alpha.
(* L770: K[:, active_elements] *)
Definition krowA (r : nrow) : 'rV[R]_#|act| := \row_k nk r 0 (enum_val k).
(* L762, L771 on one rank *)
Definition KtK_der (rk : seq nrow) : 'M[R]_#|act| :=
  \matrix_(k, l) \sum_(r <- rk) krowA r 0 k * (Delta_S nu r * krowA r 0 l).
(* L773-778 *)
Definition trace_term (rk : seq nrow) : R :=
  match factor_of chol pinvh false acut kcut 1 KtK alpha with
  | SinvL X => \tr (KtK_der rk *m (X^T *m X))
  | Sinv X => \tr (KtK_der rk *m X)
  end.
(* L783-797: one rank, then the sum over the ranks, halved *)
Definition rank_der (rk : seq nrow) : R :=
  trace_term rk - (\sum_(r <- rk) s_diag nu r * del_S nu r)
  - (\sum_(r <- rk) ny r * (Delta_S nu r * ny r)) - (w^T *m (KtK_der rk *m w)) 0 0
  + 2%:R * (\sum_(r <- rk) ny r * (Delta_S nu r * (krowA r *m w) 0 0)).
Definition noise_der : R := (\sum_(rk <- ranks) rank_der rk) * (1 / 2%:R).
End Der.
End ExpNoise.

Section Hyper.
Variables (R : realFieldType) (chol : forall m, 'M[R]_m -> option 'M[R]_m) (pinvh : forall m, 'M[R]_m -> 'M[R]_m).
Variables (n : nat) (expand : bool) (acut kcut : R) (KtK : 'M[R]_n) (y : 'cV[R]_n).
Implicit Type alpha : 'I_n -> R.
(* gamma, L354-368 *)
Definition gamma (beta : R) alpha (k : 'I_#|act_of acut kcut KtK alpha|) : R :=
  let d := diag_Sinv chol pinvh expand beta k in
  let d := if expand then d * (1 / 2%:R) else d in 1 - alpha (enum_val k) * d.
End Hyper.

Section LogNoise.
Variables (R : realFieldType) (chol : forall m, 'M[R]_m -> option 'M[R]_m) (pinvh : forall m, 'M[R]_m -> 'M[R]_m).
Variables (n : nat) (acut kcut : R).
(* L1192-1228 without weightings; every data point with its value of self.predict(self.confs).
   noise_tilde = [noise], self.beta = 1 / noise_tilde (L1242) *)
Definition log_noise_der (noise : R) (ranks : seq (seq (frow R n * R))) (alpha : 'I_n -> R) : R :=
  let KtK := KtK_of [rmorphism of idfun] [seq [seq x.1 | x <- rk] | rk <- ranks] in
  let sum_gamma := \sum_(k < #|act_of acut kcut KtK alpha|) gamma chol pinvh false (1 / noise) k in
  let bd := - sum_gamma * noise in
  let Ndat := \sum_(rk <- ranks) (size rk)%:R in
  let sq_err := \sum_(rk <- ranks) \sum_(x <- rk) `|fy x.1 - x.2| ^+ 2 in
  let bd := bd + Ndat * noise in
  let bd := bd - sq_err in
  let bd := bd * (1 / 2%:R) in
  - noise ^+ 2 * bd.
(* the value of predict once update_epsilon_with_weights has stored the weights: K.weights *)
Definition linear_pred (w : 'cV[R]_n) (r : frow R n) : R := (fk r *m w) 0 0.
End LogNoise.
