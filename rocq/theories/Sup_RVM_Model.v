(* GPSKet/supervised/supervised_qgps.py, Bayesian part: setup_fit_alpha_dep (L261-319) with both
   factorisations, compute_sparsity_quantities (L898-944), update_precisions (L946-1015),
   fit_step_growing_RVM (L1017-1066), log_marg_lik of QGPSLearningExp (L618-687) and of
   QGPSLogSpaceFit (L1140-1189), log_marg_lik_alpha_der (L321-338).
   Matrices are real: real parameters, or complex ones with complex_expand ([expand]).  [ln], [pi]:
   np.log, np.pi.  [chol]: sp.linalg.cholesky(lower=True), None when it raises; [pinvh]:
   sp.linalg.pinvh.  alpha = np.PINF is represented by alpha_cutoff: both make an element inactive
   and the alpha of an inactive element is not read by the functions below. *)
From Verif Require Import Base Sup_Model Sup_Fit_Model.
Import Num.Theory Order.TTheory.
Local Open Scope ring_scope.

Section RVM.
Variables (R : realFieldType) (ln : R -> R).
Variables (chol : forall m, 'M[R]_m -> option 'M[R]_m) (pinvh : forall m, 'M[R]_m -> 'M[R]_m).
Variables (n : nat) (expand : bool) (acut kcut beta : R) (KtK : 'M[R]_n) (y : 'cV[R]_n).
Implicit Type alpha : 'I_n -> R.

(* L262-265 *)
Definition act_of alpha : pred 'I_n := active acut kcut alpha KtK.
(* L267-272 *)
Definition al_eff alpha (i : 'I_n) : R := if expand then alpha i / 2%:R else alpha i.
Definition KA_of alpha := KtK_alpha_of beta (al_eff alpha) KtK.
Definition Aact alpha := sub_mat (act_of alpha) (KA_of alpha).

(* self.cholesky with self.Sinv_L (L282-294), or self.Sinv (L275-278, L298-305); solve_triangular
   of the identity is the inverse of the factor *)
Inductive factor (m : nat) := SinvL of 'M[R]_m | Sinv of 'M[R]_m.
Definition factor_of alpha : factor #|act_of alpha| :=
  if #|act_of alpha| == 0%N then Sinv 0 else
  match chol (Aact alpha) with Some L => SinvL (invmx L) | None => Sinv (pinvh (Aact alpha)) end.

(* L292, L302, L319: weights[active_elements]; and the whole array *)
Definition wA alpha : 'cV[R]_#|act_of alpha| :=
  beta *: match factor_of alpha with
          | SinvL X => X^T *m (X *m sub_vec (act_of alpha) y)
          | Sinv X => X *m sub_vec (act_of alpha) y
          end.
Definition weights alpha : 'cV[R]_n := \col_i \sum_(k < #|act_of alpha| | enum_val k == i) wA alpha k 0.

(* --- compute_sparsity_quantities; KtK[:, active] *)
Definition colsA alpha : 'M[R]_(n, #|act_of alpha|) := \matrix_(i, k) KtK i (enum_val k).
Definition S_of alpha (i : 'I_n) : R :=
  let bxx := beta * KtK i i in
  match factor_of alpha with
  | SinvL X => let xxr := colsA alpha *m X^T in bxx - beta ^+ 2 * (\sum_k `|xxr i k| ^+ 2)
  | Sinv X => let XXa := colsA alpha in let XS := XXa *m X in bxx - beta ^+ 2 * (\sum_k XS i k * XXa i k)
  end.
Definition Q_of alpha (i : 'I_n) : R :=
  let bxy := beta * y i 0 in
  match factor_of alpha with
  | SinvL X => let xxr := colsA alpha *m X^T in let rxy := X *m sub_vec (act_of alpha) y in
               bxy - beta ^+ 2 * (xxr *m rxy) i 0
  | Sinv X => let XS := colsA alpha *m X in bxy - beta ^+ 2 * (XS *m sub_vec (act_of alpha) y) i 0
  end.
(* L917-943 *)
Definition corrected alpha (V : 'I_n -> R) (i : 'I_n) : R :=
  if act_of alpha i then
    if expand then alpha i * V i / (alpha i - 2%:R * S_of alpha i) else alpha i * V i / (alpha i - S_of alpha i)
  else V i.
Definition s_of alpha := corrected alpha (S_of alpha).
Definition q_of alpha := corrected alpha (Q_of alpha).

(* --- update_precisions *)
Definition theta alpha (i : 'I_n) : R := `|q_of alpha i| ^+ 2 - s_of alpha i.
(* L980-992; None: nan or an infinity, which nan_to_num turns into -inf.  1/delta_alpha is infinite
   for delta_alpha = 0, the first term of L987 is then zero *)
Definition deltaL alpha (i : 'I_n) : option R :=
  let S := S_of alpha i in let Q2 := `|Q_of alpha i| ^+ 2 in
  let A := al_eff alpha i in
  if 0 < theta alpha i then
    if act_of alpha i then
      let Anew := s_of alpha i ^+ 2 / theta alpha i in
      let delta := 1 / Anew - 1 / A in
      if (Anew == 0) || (A == 0) || (1 + S * delta <= 0) then None else
      Some ((if delta == 0 then 0 else Q2 / (S + 1 / delta)) - ln (1 + S * delta))
    else if (S <= 0) || (Q2 == 0) then None else Some ((Q2 - S) / S + ln (S / Q2))
  else if act_of alpha i then
    if (A == 0) || (1 - S / A <= 0) then None else Some (Q2 / (S - A) - ln (1 - S / A))
  else Some 0.
(* np.argmax (L996): the first index with the largest value *)
Definition below (u v : option R) : bool :=
  match u, v with None, Some _ => true | Some u, Some v => u < v | _, None => false end.
Definition argmax (i0 : 'I_n) (f : 'I_n -> option R) : 'I_n :=
  foldl (fun b i => if below (f b) (f i) then i else b) i0 (enum 'I_n).
(* L998-1013 *)
Definition set_alpha alpha (i : 'I_n) (a : R) : 'I_n -> R := fun j => if j == i then a else alpha j.
Definition update_precisions (i0 : 'I_n) alpha : 'I_n -> R :=
  let i := argmax i0 (deltaL alpha) in
  if 0 < theta alpha i then
    set_alpha alpha i (if expand then 2%:R * (s_of alpha i ^+ 2 / theta alpha i) else s_of alpha i ^+ 2 / theta alpha i)
  else if act_of alpha i && (2 <= #|act_of alpha|)%N then set_alpha alpha i acut
  else alpha.

(* --- fit_step_growing_RVM after setup_fit: L1034-1056, then the loop L1058-1061.  [eps32]:
   np.finfo(np.float32).eps *)
Definition first_alpha (i0 : 'I_n) (eps32 : R) alpha : 'I_n -> R :=
  if [exists i, act_of alpha i] then alpha else
  if [exists i, `|KtK i i| < eps32] then set_alpha alpha i0 eps32 else
  let proj i := `|y i 0| ^+ 2 / KtK i i in
  let ind := argmax i0 (fun i => Some (proj i)) in
  let est := KtK ind ind / (proj ind - 1 / beta) in
  let a := if 0 < est then est else 1 in
  set_alpha alpha ind (if expand then 2%:R * a else a).
Definition growing_alpha (i0 : 'I_n) (eps32 : R) (iterations : nat) alpha : 'I_n -> R :=
  iter iterations (update_precisions i0) (first_alpha i0 eps32 alpha).

(* --- log_marg_lik: the part which depends on alpha, L655-682 = L1157-1184 *)
Definition logdet_term alpha : R :=
  match factor_of alpha with
  | SinvL X => if expand then 1 / 2%:R * (\sum_k ln (1 / 2%:R * `|X k k| ^+ 2)) else 2%:R * (\sum_k ln `|X k k|)
  | Sinv X => if expand then 1 / 2%:R * ln `|\det ((1 / 2%:R) *: X)| else ln `|\det X|
  end.
Definition alpha_term alpha : R :=
  let l := \sum_(i | act_of alpha i && (0 < alpha i)) ln (alpha i) in if expand then 1 / 2%:R * l else l.
Definition weight_term alpha : R := ((wA alpha)^T *m (Aact alpha *m wA alpha)) 0 0.
Definition alpha_part alpha : R := logdet_term alpha + alpha_term alpha + weight_term alpha.

(* --- log_marg_lik_alpha_der; complex_expand with a real dtype is not distinguished from
   complex_expand = False (the condition of L335 holds in both) *)
Definition diag_Sinv alpha (k : 'I_#|act_of alpha|) : R :=
  match factor_of alpha with SinvL X => \sum_l `|X l k| ^+ 2 | Sinv X => X k k end.
Definition alpha_der alpha (i : 'I_n) : R :=
  let d := - (\sum_(k < #|act_of alpha| | enum_val k == i) diag_Sinv k) in
  let d := if expand then d * (1 / 2%:R) else d in
  (d + 1 / alpha i - weights alpha i 0 * weights alpha i 0) * (1 / 2%:R).
End RVM.

(* --- the data-dependent part of log_marg_lik, summed over the ranks.  A data point: row of K,
   S_diag (with the weightings multiplied in, L582-583), its weighting (1 without weightings) and
   fit_data; no target amplitude is zero *)
Section DataPart.
Variables (R : realFieldType) (ln : R -> R) (pi : R) (n : nat).
Record lrow := LRow { lr : frow R n; lw : R }.
(* L619-653 with a real dtype *)
Definition exp_data_part (ranks : seq (seq lrow)) : R :=
  \sum_(rk <- ranks) (- (\sum_(r <- rk) lw r * ln (2%:R * pi / (fs (lr r) / lw r)))
                      - \sum_(r <- rk) fy (lr r) * (fs (lr r) * fy (lr r))).
(* L1141-1155 with a real dtype; fs is the weighting, noise is noise_tilde; [weighted]: weightings
   is not None *)
Definition log_data_part (weighted : bool) (noise : R) (ranks : seq (seq (frow R n))) : R :=
  \sum_(rk <- ranks) ((if weighted then - ((\sum_(r <- rk) fs r) * ln (2%:R * pi * noise))
                       else - ((size rk)%:R * ln (2%:R * pi * noise)))
                      - (\sum_(r <- rk) fy r * fy r) / noise).
(* complex dtype with complex_expand: real and imaginary parts of the row and of fit_data *)
Record crow := CRow { ckr : 'rV[R]_n; cki : 'rV[R]_n; cs : R; cyr : R; cyi : R; cw : R }.
Definition expx_data_part (ranks : seq (seq crow)) : R :=
  \sum_(rk <- ranks) (- (\sum_(r <- rk) cw r * ln (pi / (cs r / cw r)))
                      - \sum_(r <- rk) cs r * (cyr r ^+ 2 + cyi r ^+ 2)).
(* K^dagger S K and K^dagger S fit_data in real and imaginary parts, L586-598 *)
Definition cKtK (ranks : seq (seq crow)) : 'M[R]_(n + n) :=
  let re := \matrix_(a, b) \sum_(rk <- ranks) \sum_(r <- rk) cs r * (ckr r 0 a * ckr r 0 b + cki r 0 a * cki r 0 b) in
  let im := \matrix_(a, b) \sum_(rk <- ranks) \sum_(r <- rk) cs r * (ckr r 0 a * cki r 0 b - cki r 0 a * ckr r 0 b) in
  block_mx re (- im) im re.
Definition cy (ranks : seq (seq crow)) : 'cV[R]_(n + n) :=
  col_mx (\col_a \sum_(rk <- ranks) \sum_(r <- rk) cs r * (ckr r 0 a * cyr r + cki r 0 a * cyi r))
         (\col_a \sum_(rk <- ranks) \sum_(r <- rk) cs r * (ckr r 0 a * cyi r - cki r 0 a * cyr r)).
End DataPart.

(* log_marg_lik: halved for a real dtype (L684-685, L1186-1187) *)
Definition exp_log_marg_lik (R : realFieldType) ln pi chol pinvh n (acut kcut : R) (ranks : seq (seq (lrow R n))) alpha : R :=
  let rows := [seq [seq lr r | r <- rk] | rk <- ranks] in
  let KtK := KtK_of [rmorphism of idfun] rows in let y := y_of [rmorphism of idfun] rows in
  (exp_data_part ln pi ranks + alpha_part ln chol pinvh false acut kcut 1 KtK y alpha) * (1 / 2%:R).
Definition log_log_marg_lik (R : realFieldType) ln pi chol pinvh n (acut kcut : R) (weighted : bool) (noise beta : R)
    (ranks : seq (seq (frow R n))) alpha : R :=
  let KtK := KtK_of [rmorphism of idfun] ranks in let y := y_of [rmorphism of idfun] ranks in
  (log_data_part ln pi weighted noise ranks + alpha_part ln chol pinvh false acut kcut beta KtK y alpha) * (1 / 2%:R).
Definition expx_log_marg_lik (R : realFieldType) ln pi chol pinvh n (acut kcut : R) (ranks : seq (seq (crow R n))) alpha : R :=
  expx_data_part ln pi ranks + alpha_part ln chol pinvh true acut kcut 1 (cKtK ranks) (cy ranks) alpha.
