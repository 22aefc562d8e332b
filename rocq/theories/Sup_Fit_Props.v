(* C53: the epsilon values written by a log-space fit step minimise the regularised squared error. *)
From Verif Require Import Base Sup_Model Sup_Fit_Model Sup_Fit_Proofs.
Import Num.Theory Order.TTheory.
Local Open Scope ring_scope.

Lemma sum_b1 (R : zmodType) (b : bool) (F : 'I_b -> R) (z : R) (k : 'I_b) :
  \sum_(j < b) F j + (if b then 0 else z) = F k.
Proof.
case: b F k => [|] F k; last by case: k.
by rewrite big_ord_recl big_ord0 !addr0 [k]ord1.
Qed.

Section C53.
Variables (C : numFieldType) (conj : {rmorphism C -> C}) (D M l : nat) (b : bool).
Hypothesis conjK : involutive conj.
Hypothesis norm_ge0 : forall x, 0 <= x * conj x.
Hypothesis conj_ge0 : forall x, 0 <= x -> conj x = x.
Notation N := (M * D)%N.
Notation epsilons := {ffun 'I_D * 'I_M * 'I_l.+1 -> C}.
Notation refs := {ffun 'I_M -> 'I_l.+1}.
Notation feats := {ffun 'I_M * 'I_D -> C}.

(* the loss as a function of epsilon (at the reference sites) and the bias; data points have features,
   a weighting and a target log amplitude *)
Definition eps_loss (beta : C) (alE : 'I_M -> 'I_D -> C) (alB : C) (pm : 'I_M -> 'I_D -> C)
    (data : seq (seq (feats * C * C))) (r : refs) (e : epsilons) (bias : C) : C :=
  let res (x : feats * C * C) :=
    x.2 - (\sum_w \sum_d x.1.1 (w, d) * e (d, w, r w) + (if b then bias else 0)) in
  beta * (\sum_(rk <- data) \sum_(x <- rk) x.1.2 * (res x * conj (res x)))
  + \sum_w \sum_d alE w d * ((e (d, w, r w) - pm w d) * conj (e (d, w, r w) - pm w d))
  + (if b then alB * (bias * conj bias) else 0).

Variable solve : forall m, 'M[C]_m -> 'cV[C]_m -> 'cV[C]_m.
Hypothesis solveP : exact_solver solve.
Variables (acut kcut beta : C) (alE : 'I_M -> 'I_D -> C) (alB : C) (pm : 'I_M -> 'I_D -> C).
Variables (data : seq (seq (feats * C * C))) (e : epsilons) (r : refs) (bias : C).
Hypothesis beta_gt0 : 0 < beta.
Hypothesis alE_ge0 : forall w d, 0 <= alE w d.
Hypothesis alB_ge0 : 0 <= alB.
Hypothesis weightings_ge0 : all (all (fun x : feats * C * C => 0 <= x.1.2)) data.

(* the vectors of the code: entry w * D + d for (w, d), the bias last *)
Definition alpha_vec : 'I_(N + b) -> C := fun i => row_mx (mxvec (\matrix_(w, d) alE w d)) (const_mx alB : 'rV_b) 0 i.
Definition pm_vec : 'rV[C]_N := mxvec (\matrix_(w, d) pm w d).

(* the state after the step *)
Definition eps' := fit_epsilon conj solve acut kcut beta alpha_vec pm_vec data e r.
Definition bias' := fit_bias conj solve acut kcut beta alpha_vec pm_vec data bias.
(* sum of weighted squares of a feature *)
Definition feature_norm (w : 'I_M) (d : 'I_D) : C :=
  \sum_(rk <- data) \sum_(x <- rk) x.1.2 * ((x : feats * C * C).1.1 (w, d) * conj (x.1.1 (w, d))).
Definition is_valid w d := kcut < `|feature_norm w d|.
Definition bias_norm : C := \sum_(rk <- data) \sum_(x <- rk) (x : feats * C * C).1.2.

Let rows := fit_rows b pm_vec data.
Let KtK := fit_KtK conj b pm_vec data.
Let W := fit_weights conj solve acut kcut beta alpha_vec pm_vec data.
Let act := fit_active conj acut kcut alpha_vec pm_vec data.

Lemma rows_ge0 : all (all (fun x => 0 <= fs x)) rows.
Proof.
rewrite /rows /fit_rows all_map; apply: sub_all weightings_ge0 => rk.
by rewrite /= all_map; apply: sub_all => -[[f s] t].
Qed.
Lemma alpha_ge0 i : 0 <= alpha_vec i.
Proof.
rewrite /alpha_vec mxE; case: splitP => k _; last by rewrite mxE.
by case/mxvec_indexP: k => w d; rewrite mxvecE mxE.
Qed.

Definition vec_of (e0 : epsilons) (c : C) : 'cV[C]_(N + b) := col_mx (eps_refs e0 r - pm_vec)^T (const_mx c).

Lemma sum_mxvec (F : 'I_N -> C) : \sum_k F k = \sum_w \sum_d F (mxvec_index w d).
Proof.
rewrite pair_bigA (reindex (fun p : 'I_M * 'I_D => mxvec_index p.1 p.2)) //=.
exists (fun k => let: (i, j) := enum_val (cast_ord (esym (mxvec_cast M D)) k) in (i, j)) => [[w d]|k] _.
  by rewrite /mxvec_index cast_ordK enum_rankK.
rewrite /mxvec_index; case E: (enum_val _) => [i j] /=; rewrite -E enum_valK; exact: cast_ordKV.
Qed.

Lemma vec_ofE e0 c w d : vec_of e0 c (lshift b (mxvec_index w d)) 0 = e0 (d, w, r w) - pm w d.
Proof. by rewrite /vec_of col_mxEu mxE mxE mxvecE [X in _ + X]mxE mxvecE !mxE. Qed.
Lemma vec_ofB e0 c k : vec_of e0 c (rshift N k) 0 = c.
Proof. by rewrite /vec_of col_mxEd mxE. Qed.

Lemma sum_b (c : C) : \sum_(k < b) c = if b then c else 0.
Proof. by case: (b); rewrite ?big_ord0 // big_ord_recl big_ord0 addr0. Qed.

Lemma row_residE (x : feats * C * C) e0 c :
  fy (fit_row b pm_vec x) - (fk (fit_row b pm_vec x) *m vec_of e0 c) 0 0 =
  x.2 - (\sum_w \sum_d x.1.1 (w, d) * e0 (d, w, r w) + (if b then c else 0)).
Proof.
case: x => [[f s] t] /=; rewrite /feature_row /vec_of mul_row_col mxE.
rewrite [X in _ - (_ + X)]mxE; under [X in _ - (_ + X)]eq_bigr => k _ do rewrite !mxE mul1r.
rewrite sum_b -addrA; congr (_ + _); rewrite -opprD addrA; congr (- (_ + _)).
rewrite mxE -big_split /= sum_mxvec; apply: eq_bigr => w _; apply: eq_bigr => d _.
by rewrite /flat_row /pm_vec /eps_refs mxvecE !mxE !mxvecE !mxE mulrC -mulrDr addrC subrK.
Qed.

Lemma eps_lossE e0 c : eps_loss beta alE alB pm data r e0 c = loss conj beta alpha_vec rows (vec_of e0 c).
Proof.
rewrite /eps_loss /loss -addrA; congr (_ * _ + _).
  rewrite /rows /fit_rows big_map; apply: eq_bigr => rk _; rewrite big_map; apply: eq_bigr => x _.
  by rewrite row_residE; case: x => [[f s] t].
rewrite big_split_ord /= sum_mxvec; congr (_ + _).
  apply: eq_bigr => w _; apply: eq_bigr => d _; rewrite vec_ofE; congr (_ * _).
  by rewrite /alpha_vec row_mxEl mxvecE mxE.
by under eq_bigr => k _ do rewrite vec_ofB /alpha_vec row_mxEr mxE; rewrite sum_b.
Qed.

Lemma KtK_feature w d : KtK (lshift b (mxvec_index w d)) (lshift b (mxvec_index w d)) = feature_norm w d.
Proof.
rewrite /KtK /fit_KtK mxE /fit_rows big_map; apply: eq_bigr => rk _; rewrite big_map; apply: eq_bigr => -[[f s] t] _ /=.
by rewrite row_mxEl mxvecE mxE mulrCA [conj _ * _]mulrC.
Qed.
Lemma KtK_bias k : KtK (rshift N k) (rshift N k) = bias_norm.
Proof.
rewrite /KtK /fit_KtK mxE /fit_rows big_map; apply: eq_bigr => rk _; rewrite big_map; apply: eq_bigr => -[[f s] t] _ /=.
by rewrite row_mxEr mxE rmorph1 mul1r mulr1.
Qed.

(* which entries of epsilon the step writes, and what: [wt w d] is the weight computed for (w, d) *)
Definition wt (w : 'I_M) (d : 'I_D) : C := W (lshift b (mxvec_index w d)) 0.
Lemma eps'E d w j : eps' (d, w, j) =
  if j == r w then (if is_valid w d then wt w d + pm w d else e (d, w, j)) else e (d, w, j).
Proof.
rewrite /eps' /fit_epsilon /update_epsilon /write_eps ffunE /=; case: eqP => // ->.
rewrite mxE mxE /fit_valid /valid_kern -/KtK KtK_feature -/(is_valid w d) /pm_vec mxvecE mxE; case: ifP => // _.
by rewrite /eps_refs mxvecE mxE subrK.
Qed.

Definition is_active w d := (alE w d < acut) && is_valid w d.
Definition bias_active := (alB < acut) && (kcut < `|bias_norm|).
Lemma act_feature w d : act (lshift b (mxvec_index w d)) = is_active w d.
Proof. by rewrite /act /fit_active /active /valid_kern -/KtK KtK_feature /alpha_vec row_mxEl mxvecE mxE. Qed.
Lemma act_bias k : act (rshift N k) = bias_active.
Proof. by rewrite /act /fit_active /active /valid_kern -/KtK KtK_bias /alpha_vec row_mxEr mxE. Qed.

Lemma wt_inactive w d : ~~ is_active w d -> wt w d = 0.
Proof. by rewrite -act_feature => H; rewrite /wt /W /fit_weights W_out. Qed.

(* Entries away from the reference sites, and those of features that do not occur in the data, are
   unchanged; the others are prior mean plus weight, the weight being zero where inactive. *)
Theorem C53_rule d w j :
  [/\ j != r w -> eps' (d, w, j) = e (d, w, j),
      ~~ is_valid w d -> eps' (d, w, j) = e (d, w, j) &
      is_valid w d -> ~~ is_active w d -> eps' (d, w, r w) = pm w d].
Proof.
split.
- by move=> H; rewrite eps'E (negPf H).
- by move=> H; rewrite eps'E (negPf H); case: ifP.
by move=> H1 H2; rewrite eps'E eqxx H1 wt_inactive // add0r.
Qed.

Lemma bias'W (k : 'I_b) : bias' = W (rshift N k) 0.
Proof. exact: (sum_b1 (fun k : 'I_b => W (rshift N k) 0)). Qed.

(* no other values of epsilon at the active entries, and of the bias, give a smaller loss; entries
   left alone because their feature is negligible must not occur in the data at all *)
Theorem C53_minimal_partial (e2 : epsilons) (bias2 : C) :
  (forall w d, ~~ is_valid w d -> feature_norm w d = 0) ->
  (forall w d, ~~ is_active w d -> e2 (d, w, r w) = eps' (d, w, r w)) ->
  (~~ bias_active -> bias2 = bias') ->
  eps_loss beta alE alB pm data r eps' bias' <= eps_loss beta alE alB pm data r e2 bias2.
Proof.
move=> H0 H1 H2; rewrite !eps_lossE.
apply: (@agree_minimal _ conj _ conjK norm_ge0 conj_ge0 beta alpha_vec rows beta_gt0 alpha_ge0 rows_ge0 act solve solveP).
- move=> i; case: (split_ordP i) => k ->.
    case/mxvec_indexP: k => w d; rewrite act_feature => Ha.
    rewrite vec_ofE eps'E eqxx; case/andP: (Ha) => _ ->; exact: addrK.
  by rewrite vec_ofB (bias'W k).
- move=> i; case: (split_ordP i) => k ->.
    case/mxvec_indexP: k => w d; rewrite act_feature => Ha; rewrite vec_ofE eps'E eqxx.
    have [Hv|Hv] := boolP (is_valid w d); first by left; rewrite wt_inactive // add0r subrr.
    by right; rewrite -/KtK KtK_feature H0.
  by move=> Ha; left; rewrite vec_ofB (bias'W k) /W /fit_weights W_out.
move=> i; case: (split_ordP i) => k ->.
  by case/mxvec_indexP: k => w d; rewrite act_feature => Ha; rewrite !vec_ofE H1.
by rewrite act_bias => Ha; rewrite !vec_ofB H2.
Qed.
End C53.

(* the weights themselves, also where negligible features occur in the data *)
Theorem C53_weights (C : numFieldType) (conj : {rmorphism C -> C}) (n : nat)
  (conjK : involutive conj) (norm_ge0 : forall x, 0 <= x * conj x) (conj_ge0 : forall x, 0 <= x -> conj x = x)
  (solve : forall m, 'M[C]_m -> 'cV[C]_m -> 'cV[C]_m) (acut kcut beta : C) (alpha : 'I_n -> C)
  (ranks : seq (seq (frow C n))) :
  exact_solver solve -> 0 < beta -> (forall i, 0 <= alpha i) -> all (all (fun r => 0 <= fs r)) ranks ->
  let KtK := KtK_of conj ranks in
  let act := active acut kcut alpha KtK in
  let W := weights_of solve act beta (KtK_alpha_of beta alpha KtK) (y_of conj ranks) in
  (forall i, ~~ act i -> W i 0 = 0) /\
  forall x : 'cV[C]_n, (forall i, ~~ act i -> x i 0 = 0) ->
    loss conj beta alpha ranks W <= loss conj beta alpha ranks x /\
    ((forall i, act i -> 0 < alpha i) -> loss conj beta alpha ranks x <= loss conj beta alpha ranks W -> x = W).
Proof.
move=> Hs Hb Ha Hr KtK act W; split; first by move=> i; exact: W_out.
move=> x Hx; split; first by apply: W_minimal.
by move=> Hp; apply: W_unique.
Qed.
