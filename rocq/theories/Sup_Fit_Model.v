(* GPSKet/supervised/supervised_qgps.py: the log-space fit of the supervised learner,
   QGPSLogSpaceFit.setup_fit L1112-1138, QGPSLearning.setup_fit_alpha_dep L261-319,
   update_epsilon_with_weights L471-513 and fit_step L1230-1260 with opt_alpha = opt_noise = False.
   Numbers: a numFieldType with a conjugation (identity for real dtypes).  The linear solves
   (Cholesky L282-292, pinvh L299-302) are a function argument [solve]. *)
From Verif Require Import Base Sup_Model.
Import Num.Theory Order.TTheory.
Local Open Scope ring_scope.

Section LinearFit.
Variables (C : numFieldType) (conj : {rmorphism C -> C}) (n : nat).

(* one data point on a rank: its row of self.K, its weighting (1 without weightings, L1128-1130) and
   its entry of fit_data *)
Record frow := FRow { fk : 'rV[C]_n; fs : C; fy : C }.

(* L1124-1126 / L1129: K^dagger diag(weightings) K summed over the ranks *)
Definition KtK_of (ranks : seq (seq frow)) : 'M[C]_n :=
  \matrix_(a, b) \sum_(rk <- ranks) \sum_(r <- rk) conj (fk r 0 a) * (fs r * fk r 0 b).
(* L1127 / L1130 *)
Definition y_of (ranks : seq (seq frow)) : 'cV[C]_n :=
  \col_a \sum_(rk <- ranks) \sum_(r <- rk) conj (fk r 0 a) * (fs r * fy r).

(* L263 *)
Definition valid_kern (kcut : C) (KtK : 'M[C]_n) (i : 'I_n) : bool := kcut < `|KtK i i|.
(* L262, L265 *)
Definition active (acut kcut : C) (alpha : 'I_n -> C) (KtK : 'M[C]_n) (i : 'I_n) : bool :=
  (alpha i < acut) && valid_kern kcut KtK i.

(* L267-272; [al] is alpha, halved with complex_expand *)
Definition KtK_alpha_of (beta : C) (al : 'I_n -> C) (KtK : 'M[C]_n) : 'M[C]_n :=
  \matrix_(i, j) (beta * KtK i j + (if i == j then al i else 0)).

Variable solve : forall m, 'M[C]_m -> 'cV[C]_m -> 'cV[C]_m.
(* KtK_alpha[np.ix_(active, active)], y[active] *)
Definition sub_mat (act : pred 'I_n) (A : 'M[C]_n) : 'M[C]_#|act| :=
  \matrix_(k, l) A (enum_val k) (enum_val l).
Definition sub_vec (act : pred 'I_n) (y : 'cV[C]_n) : 'cV[C]_#|act| :=
  \col_k y (enum_val k) 0.
(* L280-305 and L307-319: zero on the inactive elements, beta times the solution on the others *)
Definition weights_of (act : pred 'I_n) (beta : C) (A : 'M[C]_n) (y : 'cV[C]_n) : 'cV[C]_n :=
  \col_i \sum_(k < #|act| | enum_val k == i) beta * solve (sub_mat act A) (sub_vec act y) k 0.
End LinearFit.

Section LogSpaceFit.
Variables (C : numFieldType) (conj : {rmorphism C -> C}) (D M l : nat) (b : bool).
Variable solve : forall m, 'M[C]_m -> 'cV[C]_m -> 'cV[C]_m.
Notation N := (M * D)%N.
Notation epsilons := {ffun 'I_D * 'I_M * 'I_l.+1 -> C}.
Notation refs := {ffun 'I_M -> 'I_l.+1}.
Notation feats := {ffun 'I_M * 'I_D -> C}.

(* K_per_sym is reshaped to (data, M * D) row-major (L146); [b]: include_bias, the column of ones
   (L251-252) *)
Definition flat_row (f : feats) : 'rV[C]_N := mxvec (\matrix_(w, d) f (w, d)).
Definition feature_row (f : feats) : 'rV[C]_(N + b) := row_mx (flat_row f) (const_mx 1).

(* L1116-1121: log amplitude minus the contribution of the prior mean (an array over the features,
   or a scalar) *)
Definition fit_row (pm : 'rV[C]_N) (x : feats * C * C) : frow C (N + b) :=
  let: (f, s, t) := x in
  FRow (feature_row f) s (t - \sum_k pm 0 k * flat_row f 0 k).

(* epsilon[:, support_dim_range_ids, ref_sites].T.flatten() *)
Definition eps_refs (e : epsilons) (r : refs) : 'rV[C]_N := mxvec (\matrix_(w, d) e (d, w, r w)).

(* L493-497 and the bias L486-489 without complex_expand *)
Definition write_eps (e : epsilons) (r : refs) (v : 'rV[C]_N) : epsilons :=
  [ffun x => if x.2 == r x.1.2 then vec_mx v x.1.2 x.1.1 else e x].
Definition update_epsilon (valid : pred 'I_(N + b)) (wts : 'cV[C]_(N + b)) (pm : 'rV[C]_N)
    (e : epsilons) (r : refs) : epsilons :=
  write_eps e r (\row_k ((if valid (lshift b k) then wts (lshift b k) 0 else eps_refs e r 0 k - pm 0 k)
                         + pm 0 k)).
Definition update_bias (wts : 'cV[C]_(N + b)) (bias : C) : C :=
  \sum_(k < b) wts (rshift N k) 0 + (if b then 0 else bias).

(* fit_step for one call on all ranks: [data] holds for every rank the features, weighting and log
   amplitude of each of its data points; without complex_expand *)
Section Step.
Variables (acut kcut beta : C) (alpha : 'I_(N + b) -> C) (pm : 'rV[C]_N).
Variables (data : seq (seq (feats * C * C))) (e : epsilons) (r : refs) (bias : C).
Definition fit_rows := [seq [seq fit_row pm x | x <- rk] | rk <- data].
Definition fit_KtK := KtK_of conj fit_rows.
Definition fit_valid := valid_kern kcut fit_KtK.
Definition fit_active := active acut kcut alpha fit_KtK.
Definition fit_weights :=
  weights_of solve fit_active beta (KtK_alpha_of beta alpha fit_KtK) (y_of conj fit_rows).
Definition fit_epsilon := update_epsilon fit_valid fit_weights pm e r.
Definition fit_bias := update_bias fit_weights bias.
End Step.
End LogSpaceFit.

(* --- complex_expand: real and imaginary parts of the weights as separate real unknowns *)
Section ComplexExpand.
Variables (C : numClosedFieldType) (D M l : nat) (b : bool).
Variable solve : forall m, 'M[C]_m -> 'cV[C]_m -> 'cV[C]_m.
Notation N := (M * D)%N.
Notation epsilons := {ffun 'I_D * 'I_M * 'I_l.+1 -> C}.
Notation refs := {ffun 'I_M -> 'I_l.+1}.
Notation feats := {ffun 'I_M * 'I_D -> C}.

(* L1133-1136 *)
Definition expand_mat n (A : 'M[C]_n) : 'M[C]_(n + n) :=
  block_mx (map_mx (@Re C) A) (- map_mx (@Im C) A) (map_mx (@Im C) A) (map_mx (@Re C) A).
Definition expand_vec n (y : 'cV[C]_n) : 'cV[C]_(n + n) :=
  col_mx (map_mx (@Re C) y) (map_mx (@Im C) y).

(* L472-482 with complex_expand: old weights, the bias appended before splitting in real and
   imaginary parts *)
Definition old_expand (e : epsilons) (r : refs) (pm : 'rV[C]_N) (bias : C) : 'cV[C]_((N + b) + (N + b)) :=
  expand_vec (col_mx (eps_refs e r - pm)^T (const_mx bias)).
Definition where_valid n (valid : pred 'I_n) (wts old : 'cV[C]_n) : 'cV[C]_n :=
  \col_i (if valid i then wts i 0 else old i 0).

(* L493-513: weights[:N] + prior_mean, then 1j * weights[N+1:-1] (weights[N:] without a bias) *)
Definition update_epsilon_expand (valid : pred 'I_((N + b) + (N + b))) (wts : 'cV[C]_((N + b) + (N + b)))
    (pm : 'rV[C]_N) (e : epsilons) (r : refs) (bias : C) : epsilons :=
  let w := where_valid valid wts (old_expand e r pm bias) in
  write_eps e r (\row_k (usubmx (usubmx w) k 0 + pm 0 k + 'i * usubmx (dsubmx w) k 0)).
(* L486-491: weights[N] + 1j * weights[-1] *)
Definition update_bias_expand (wts : 'cV[C]_((N + b) + (N + b))) (bias : C) : C :=
  \sum_(k < b) (dsubmx (usubmx wts) k 0 + 'i * dsubmx (dsubmx wts) k 0) + (if b then 0 else bias).

Section Step.
Variables (acut kcut beta : C) (alpha : 'I_((N + b) + (N + b)) -> C) (pm : 'rV[C]_N).
Variables (data : seq (seq (feats * C * C))) (e : epsilons) (r : refs) (bias : C).
Definition fitx_rows := fit_rows b pm data.
Definition fitx_KtK := expand_mat (KtK_of [rmorphism of @conjC C] fitx_rows).
Definition fitx_valid := valid_kern kcut fitx_KtK.
Definition fitx_active := active acut kcut alpha fitx_KtK.
(* alpha / 2, L268-270 *)
Definition fitx_weights :=
  weights_of solve fitx_active beta (KtK_alpha_of beta (fun i => alpha i / 2%:R) fitx_KtK)
    (expand_vec (y_of [rmorphism of @conjC C] fitx_rows)).
Definition fitx_epsilon := update_epsilon_expand fitx_valid fitx_weights pm e r bias.
Definition fitx_bias := update_bias_expand fitx_weights bias.
End Step.
End ComplexExpand.
