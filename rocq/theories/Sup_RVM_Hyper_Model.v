(* GPSKet/supervised/supervised_qgps.py: QGPSLearning.opt_alpha_beta (L340-451) with
   QGPSLogSpaceFit.prediction_after_setup (L1109-1110).  The alpha array read from alpha_mat_ref_sites is a
   copy (features computed from epsilon, or a bias): with precomputed features and no bias the failing
   Cholesky branch also writes the unclipped alpha, which is not modelled.  alpha is finite. *)
From Verif Require Import Base Sup_Model Sup_Fit_Model Sup_RVM_Model Sup_RVM_Noise_Model.
Import Num.Theory Order.TTheory.
Local Open Scope ring_scope.

Section Hyper.
Variables (R : realFieldType) (chol : forall m, 'M[R]_m -> option 'M[R]_m) (pinvh : forall m, 'M[R]_m -> 'M[R]_m).
(* [n] = self.weights.size; [expand]: complex_expand and a complex epsilon *)
Variables (n : nat) (expand : bool) (acut kcut tol : R) (KtK : 'M[R]_n) (y : 'cV[R]_n).
(* alpha_mat_ref_sites and beta; the values of both when setup_fit_alpha_dep was last called: these
   determine active_elements, cholesky, Sinv_L, Sinv and weights *)
Record hyper := Hyper { h_alpha : 'I_n -> R; h_beta : R; h_sa : 'I_n -> R; h_sb : R }.
Definition setup (st : hyper) : hyper := Hyper (h_alpha st) (h_beta st) (h_alpha st) (h_beta st).
Definition h_act (st : hyper) : pred 'I_n := act_of acut kcut KtK (h_sa st).
Definition h_weights (st : hyper) : 'cV[R]_n := weights chol pinvh expand acut kcut (h_sb st) KtK y (h_sa st).
Definition h_chol (st : hyper) : bool :=
  if factor_of chol pinvh expand acut kcut (h_sb st) KtK (h_sa st) is SinvL _ then true else false.
(* L353-367; zero for an inactive element, where gamma has no entry *)
Definition h_gamma (st : hyper) (i : 'I_n) : R :=
  \sum_(k < #|h_act st| | enum_val k == i)
    (let d := diag_Sinv chol pinvh expand (h_sb st) k in
     let d := if expand then d * (1 / 2%:R) else d in 1 - h_alpha st i * d).
Definition sum_gamma (st : hyper) : R := \sum_(i | h_act st i) h_gamma st i.

(* np.clip(x, 0, alpha_cutoff); the same of a quotient: infinite for a zero denominator, None for 0/0 *)
Definition clip (x : R) : R := Num.min (Num.max x 0) acut.
Definition clip_div (g d : R) : option R :=
  if d == 0 then if g == 0 then None else Some (if 0 < g then acut else clip 0) else Some (clip (g / d)).
(* L371-396; None: a nan in alpha *)
Definition alpha_entry (rvm : bool) (st : hyper) (i : 'I_n) : option R :=
  let w := h_weights st in
  if rvm then if h_act st i then clip_div (h_gamma st i) (w i 0 * w i 0) else Some (clip (h_alpha st i))
  else clip_div (sum_gamma st) (\sum_j w j 0 * w j 0).
Definition alpha_update (rvm : bool) (st : hyper) : option ('I_n -> R) :=
  if h_chol st then
    if [forall i, alpha_entry rvm st i] then Some (fun i => odflt 0 (alpha_entry rvm st i)) else None
  else Some (h_alpha st).

(* L397-426; the data of QGPSLogSpaceFit on each rank with m features (columns of K): fs is the entry of
   weightings, 1 without.  With complex_expand only the number of columns matters, see after_setup *)
Variables (m : nat) (ranks : seq (seq (frow R m))).
(* self.K.dot(self.weights): raises unless the dimensions agree *)
Definition after_setup (w : 'cV[R]_n) (r : frow R m) : option R :=
  if m == n then Some (\sum_j (fk r 0 j * (if insub (val j) is Some i then w i 0 else 0))) else None.
Definition sq_error (st : hyper) : option R :=
  foldr (fun r acc => if after_setup (h_weights st) r is Some v then
                        if acc is Some a then Some (fs r * `|fy r - v| ^+ 2 + a) else None
                      else None) (Some 0) (flatten ranks).
(* an infinite or undefined quotient is None *)
Definition beta_update (st : hyper) : option R :=
  if h_chol st then
    if sq_error st is Some e then
      if e == 0 then None else
      let N := \sum_(rk <- ranks) \sum_(r <- rk) fs r in
      Some ((if expand then N - 1 / 2%:R * sum_gamma st else N - sum_gamma st) / e)
    else None
  else Some (h_beta st).

Variables (opt_alpha opt_beta rvm : bool).
(* L371-426, with the derived attributes as they were *)
Definition update (st : hyper) : option hyper :=
  let a := if opt_alpha then alpha_update rvm st else Some (h_alpha st) in
  let b := if opt_beta then beta_update st else Some (h_beta st) in
  if a is Some a then if b is Some b then Some (Hyper a b (h_sa st) (h_sb st)) else None else None.
(* L429-440; alpha_old and beta_old are the values before this update (L441-444, L344-345).  A zero
   alpha_old or beta_old gives inf or nan, which is not below the tolerance *)
Definition conv (old new : hyper) : bool :=
  let la := \sum_i `|h_alpha new i - h_alpha old i| ^+ 2 / `|h_alpha old i| ^+ 2 in
  let lb := `|h_beta new - h_beta old| ^+ 2 / `|h_beta old| ^+ 2 in
  let ok := (opt_alpha ==> [forall i, h_alpha old i != 0]) && (opt_beta ==> (h_beta old != 0)) in
  ok && ((if opt_alpha then la else 0) + (if opt_beta then lb else 0) < tol).
Definition at_max (max : option nat) (j : nat) : bool := if max is Some k then (k <= j)%N else false.
(* what the loop has reached after some number of passes *)
Inductive outcome := Done of hyper | Bad | More.
(* the loop L351-451 from its j-th pass on, [fuel] passes; Bad: nan, infinity or exception *)
Fixpoint passes (fuel : nat) (max : option nat) (j : nat) (st : hyper) : outcome :=
  if fuel is fuel'.+1 then
    if [exists i, h_act st i] then
      if update st is Some st' then
        if conv st st' || at_max max j.+1 then Done st' else passes fuel' max j.+1 (setup st')
      else Bad
    else Done st
  else More.
(* L343-350 *)
Definition opt_alpha_beta (fuel : nat) (max : option nat) (st : hyper) : outcome :=
  if (opt_alpha || opt_beta) && ~~ at_max max 0 then passes fuel max 0 st else Done st.
End Hyper.
