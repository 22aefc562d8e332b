(* C47: the running second moment of the SR-RMSProp driver is a convex combination of the squared
   gradients it has seen (initial_scale = 0, the default), and the regularised matrix is positive
   definite. *)
From Verif Require Import Base SRR_Model.
Import Num.Theory Order.TTheory.
Local Open Scope ring_scope.

Section Moment.
Variables (R : rcfType) (P : nat) (complex_mode : bool) (decay eps : R).
Hypotheses (decay0 : 0 <= decay) (decay1 : decay < 1).
Notation run := (@driver_run R P complex_mode decay).
Notation grad := (@step_gradient R P complex_mode).
Notation hat := (@step_ema_hat R P complex_mode decay).

(* the weight of the k-th of t gradients *)
Definition moment_weight (t k : nat) : R := (1 - decay) * decay ^+ (t - 1 - k) / (1 - decay ^+ t).

Lemma decay_lt1 t : (0 < t)%N -> decay ^+ t < 1.
Proof. by move=> Ht; rewrite exprn_ilt1 // -lt0n. Qed.
Lemma den_gt0 t : (0 < t)%N -> 0 < 1 - decay ^+ t.
Proof. by move=> Ht; rewrite subr_gt0 decay_lt1. Qed.

Lemma run_rcons d l (i : step_input R P) : run d (rcons l i) = driver_step complex_mode decay (run d l) i.
Proof. by rewrite /driver_run foldl_rcons. Qed.
Lemma run_count d l : step_count (run d l) = (size l + step_count d)%N.
Proof.
elim/last_ind: l => [|l i IH] //=.
by rewrite run_rcons size_rcons /= IH addSn.
Qed.

Lemma run_ema (s : R) (l : seq (step_input R P)) (i0 : step_input R P) (a : 'I_P) :
  d_ema (run (initial_driver P s) l) a 0 =
  decay ^+ size l * s + \sum_(0 <= k < size l) (1 - decay) * decay ^+ (size l - 1 - k) * grad (nth i0 l k) a 0 ^+ 2.
Proof.
elim/last_ind: l => [|l i IH] /=; first by rewrite big_geq // mxE expr0 mul1r addr0.
rewrite run_rcons size_rcons /= mxE IH big_nat_recr //= nth_rcons ltnn eqxx subSS subn0 subnn expr0 mulr1.
rewrite mulrDr mulrA -exprS -addrA; congr (_ + (_ + _)).
rewrite mulr_sumr; apply: eq_big_nat => k /andP[_ Hk].
rewrite nth_rcons Hk mulrA; congr (_ * _); rewrite mulrCA -exprS; congr (_ * decay ^+ _).
lia.
Qed.

Lemma hatE (s : R) l i (a : 'I_P) t : t = (size l).+1 ->
  hat (run (initial_driver P s) l) i a 0 =
  decay ^+ t * s / (1 - decay ^+ t) + \sum_(0 <= k < t) moment_weight t k * grad (nth i (rcons l i) k) a 0 ^+ 2.
Proof.
move=> Ht; rewrite /step_ema_hat /ema_hat mxE run_count addn0 addn1 -Ht.
have -> : ema_next complex_mode (si_ranks i) (si_mean i) (d_ema (run (initial_driver P s) l)) decay =
          d_ema (run (initial_driver P s) (rcons l i)) by rewrite run_rcons.
rewrite (run_ema _ _ i) size_rcons -Ht mulrDl mulr_suml; congr (_ + _).
by apply: eq_big_nat => k _; rewrite /moment_weight [LHS]mulrAC.
Qed.

Lemma weight_ge0 t k : (0 < t)%N -> 0 <= moment_weight t k.
Proof.
move=> Ht; rewrite /moment_weight divr_ge0 ?mulr_ge0 ?exprn_ge0 ?subr_ge0 //; first exact: ltW.
by rewrite ltW // decay_lt1.
Qed.
Lemma weight_sum t : (0 < t)%N -> \sum_(0 <= k < t) moment_weight t k = 1.
Proof.
move=> Ht; rewrite /moment_weight -mulr_suml.
have -> : \sum_(0 <= k < t) (1 - decay) * decay ^+ (t - 1 - k) = 1 - decay ^+ t.
  rewrite -mulr_sumr -[RHS]opprB subrX1 -mulNr opprB; congr (_ * _).
  rewrite big_nat_rev /= big_mkord; apply: eq_bigr => k _; congr (decay ^+ _).
  have := ltn_ord k; lia.
by rewrite divff // gt_eqF // den_gt0.
Qed.

(* a convex combination of the squared gradients of all steps made, the current one included *)
Theorem C47_partial (l : seq (step_input R P)) (i : step_input R P) :
  exists c : nat -> R,
    [/\ forall k, 0 <= c k,
        \sum_(0 <= k < (size l).+1) c k = 1 &
        forall a, hat (run (initial_driver P 0) l) i a 0 =
                  \sum_(0 <= k < (size l).+1) c k * grad (nth i (rcons l i) k) a 0 ^+ 2].
Proof.
exists (moment_weight (size l).+1); split.
- by move=> k; apply: weight_ge0.
- exact: weight_sum.
by move=> a; rewrite (hatE _ _ _ erefl) mulr0 mul0r add0r.
Qed.

(* hence within the range of the squared gradients *)
Theorem C47_range_partial (l : seq (step_input R P)) (i : step_input R P) (a : 'I_P) (lo hi : R) :
  (forall k, (k < (size l).+1)%N -> lo <= grad (nth i (rcons l i) k) a 0 ^+ 2 <= hi) ->
  lo <= hat (run (initial_driver P 0) l) i a 0 <= hi.
Proof.
move=> H; have [c [c0 c1 ->]] := C47_partial l i.
rewrite -[lo]mul1r -[hi]mul1r -c1 !mulr_suml; apply/andP; split.
  rewrite big_nat_cond [X in _ <= X]big_nat_cond; apply: ler_sum => k /andP[/andP[_ Hk] _].
  by apply: ler_wpmul2l => //; case/andP: (H k Hk).
rewrite big_nat_cond [X in _ <= X]big_nat_cond; apply: ler_sum => k /andP[/andP[_ Hk] _].
by apply: ler_wpmul2l => //; case/andP: (H k Hk).
Qed.

(* never negative, for any non-negative initial scale and any step counter *)
Theorem C47_nonneg (s : R) (l : seq (step_input R P)) (i : step_input R P) (a : 'I_P) :
  0 <= s -> 0 <= hat (run (initial_driver P s) l) i a 0.
Proof.
move=> Hs; rewrite (hatE _ _ _ erefl) addr_ge0 //.
  by rewrite divr_ge0 ?mulr_ge0 ?exprn_ge0 // ltW // den_gt0.
by apply: sumr_ge0 => k _; rewrite mulr_ge0 ?sqr_ge0 // weight_ge0.
Qed.

Lemma quad_gram (os : seq 'rV[R]_P) (x : 'cV[R]_P) :
  (x^T *m (\sum_(o <- os) o^T *m o) *m x) 0 0 = \sum_(o <- os) ((o *m x) 0 0) ^+ 2.
Proof.
rewrite mulmx_sumr mulmx_suml summxE; apply: eq_bigr => o _.
rewrite !mulmxA -mulmxA -trmx_mul expr2 mxE big_ord1; congr (_ * _); by rewrite mxE.
Qed.
Lemma quad_diag (w : 'rV[R]_P) (x : 'cV[R]_P) :
  (x^T *m diag_mx w *m x) 0 0 = \sum_a w 0 a * x a 0 ^+ 2.
Proof.
rewrite mxE; apply: eq_bigr => a _; rewrite mul_mx_diag !mxE mulrAC mulrC; congr (_ * _).
Qed.

(* the matrix passed to the solver is symmetric and positive definite *)
Theorem C47_posdef (d : driver R P) (i : step_input R P) :
  0 < si_shift i -> 0 < eps ->
  (step_matrix complex_mode decay eps d i)^T = step_matrix complex_mode decay eps d i /\
  forall x : 'cV[R]_P, x != 0 -> 0 < (x^T *m step_matrix complex_mode decay eps d i *m x) 0 0.
Proof.
move=> Hs He; split.
  rewrite /step_matrix /S_matrix linearD /= linearZ /= tr_diag_mx; congr (_ + _).
  rewrite linear_sum; apply: eq_bigr => o _ /=; by rewrite trmx_mul trmxK.
move=> x /eqP Hx; rewrite /step_matrix /S_matrix mulmxDr mulmxDl mxE quad_gram.
apply: ltr_paddl; first by apply: sumr_ge0 => o _; apply: sqr_ge0.
rewrite -scalemxAr -scalemxAl mxE quad_diag mulr_gt0 //.
have Hpos a : 0 < Num.sqrt (hat d i a 0) + eps by rewrite ltr_paddl // sqrtr_ge0.
have T a : 0 <= (\row_b (Num.sqrt (hat d i b 0) + eps)) 0 a * x a 0 ^+ 2.
  by rewrite mxE mulr_ge0 ?sqr_ge0 // ltW.
rewrite lt_def; apply/andP; split; last by apply: sumr_ge0.
apply/eqP => H0; apply: Hx; apply/matrixP => a j; rewrite (ord1 j) !mxE.
move/eqP: H0; rewrite psumr_eq0; last by move=> b _; apply: T.
move/allP/(_ a (mem_index_enum _)) => /=; rewrite mxE mulf_eq0 (gt_eqF (Hpos a)) /= sqrf_eq0.
by move/eqP.
Qed.

Lemma posdef_unit (M : 'M[R]_P) : (forall x : 'cV[R]_P, x != 0 -> 0 < (x^T *m M *m x) 0 0) -> M \in unitmx.
Proof.
move=> H; rewrite -unitmx_tr -row_free_unit; apply/row_freeP.
apply/row_freeP; rewrite -kermx_eq0; apply/eqP/row_matrixP => k; rewrite row0.
apply: contraTeq isT => Hk; set u := row k _ in Hk.
have Hu : u *m M^T = 0 by apply/sub_kermxP/row_sub.
have := H u^T; rewrite trmx_eq0 => /(_ Hk).
by rewrite -mulmxA -[M *m u^T]trmxK trmx_mul trmxK Hu trmx0 mulmx0 mxE ltxx.
Qed.

(* a solver exact on invertible matrices finds the one update d with S d = - gradient *)
Theorem C47_solvable (solver : 'M[R]_P -> 'cV[R]_P -> 'cV[R]_P) (d : driver R P) (i : step_input R P) :
  0 < si_shift i -> 0 < eps ->
  (forall M b, M \in unitmx -> M *m solver M b = b) ->
  step_matrix complex_mode decay eps d i *m step_update complex_mode decay eps solver d i = - grad i /\
  forall x, step_matrix complex_mode decay eps d i *m x = - grad i ->
            x = step_update complex_mode decay eps solver d i.
Proof.
move=> Hs He Hsol; have [_ /posdef_unit Hu] := C47_posdef d Hs He.
have E : step_matrix complex_mode decay eps d i *m step_update complex_mode decay eps solver d i = - grad i.
  by rewrite /step_update mulmxN Hsol.
by split=> // x Hx; rewrite -[x](mulKmx Hu) Hx -E mulKmx.
Qed.
End Moment.

(* The equation solved, in terms of the samples of all ranks: with the covariance matrix of the
   log-derivatives and the energy forces (averages over the N samples), the update d satisfies
   (N^2 Cov + diag_shift diag(sqrt ema_hat + eps)) d = 2 N^2 F. *)
Section Term.
Variable A : comRingType.
Add Ring RSRR : (r_theory A).
Lemma gradient_term (t r u v p q : A) :
  t * u * r * (r * q) + - (t * - v * r) * (r * p) = t * (r * r) * (q * u + p * v).
Proof. by mring A. Qed.
End Term.

Section Equation.
Variables (R : rcfType) (P : nat).
Implicit Types (ranks : seq (rank_data R P)).

Definition equal_shapes ranks (n : nat) : bool :=
  all (fun rk => [&& size (o_re rk) == n, size (o_im rk) == n & size (energies rk) == n]) ranks.

(* log-derivatives (real, imaginary part) and local energy (real, imaginary part) of all samples *)
Definition all_samples ranks : seq (('rV[R]_P * 'rV[R]_P) * (R * R)) :=
  flatten [seq zip (zip (o_re rk) (o_im rk)) (energies rk) | rk <- ranks].
Definition average ranks (f : ('rV[R]_P * 'rV[R]_P) * (R * R) -> R) : R :=
  (\sum_(x <- all_samples ranks) f x) / (size (all_samples ranks))%:R.
Definition dev_re ranks (x : ('rV[R]_P * 'rV[R]_P) * (R * R)) (a : 'I_P) : R :=
  x.1.1 0 a - average ranks (fun y => y.1.1 0 a).
Definition dev_im ranks (x : ('rV[R]_P * 'rV[R]_P) * (R * R)) (a : 'I_P) : R :=
  x.1.2 0 a - average ranks (fun y => y.1.2 0 a).
Definition covariance ranks : 'M[R]_P :=
  \matrix_(a, b) average ranks (fun x => dev_re ranks x a * dev_re ranks x b + dev_im ranks x a * dev_im ranks x b).
Definition force ranks (em : R * R) : 'cV[R]_P :=
  \col_b average ranks (fun x => dev_re ranks x b * (x.2.1 - em.1) + dev_im ranks x b * (x.2.2 - em.2)).

Variables (ranks : seq (rank_data R P)) (n : nat) (em : R * R).
Hypothesis Hn : equal_shapes ranks n.
Let N : R := (n * size ranks)%:R.

Lemma size_samples : size (all_samples ranks) = (n * size ranks)%N.
Proof.
rewrite /all_samples; elim: ranks Hn => [|rk l IH] /=; first by rewrite muln0.
case/andP => /and3P[/eqP H1 /eqP H2 /eqP H3] /IH H; rewrite size_cat H !size_zip H1 H2 H3 !minnn; lia.
Qed.

Lemma map_flatten (A B C' : Type) (f : A -> seq B) (g : B -> C') (l : seq A) :
  map g (flatten (map f l)) = flatten [seq map g (f x) | x <- l].
Proof. by rewrite map_flatten -map_comp. Qed.

Lemma flat_re : flatten (map (@o_re R P) ranks) = [seq x.1.1 | x <- all_samples ranks].
Proof.
rewrite /all_samples map_flatten; congr flatten; elim: ranks Hn => //= rk l IH.
case/andP => /and3P[/eqP H1 /eqP H2 /eqP H3] /IH ->; congr (_ :: _).
have -> : (fun x : ('rV[R]_P * 'rV[R]_P) * (R * R) => x.1.1) = fst \o fst by [].
by rewrite map_comp -/unzip1 -/unzip1 !unzip1_zip // ?size_zip ?H1 ?H2 ?H3 ?minnn.
Qed.
Lemma flat_im : flatten (map (@o_im R P) ranks) = [seq x.1.2 | x <- all_samples ranks].
Proof.
rewrite /all_samples map_flatten; congr flatten; elim: ranks Hn => //= rk l IH.
case/andP => /and3P[/eqP H1 /eqP H2 /eqP H3] /IH ->; congr (_ :: _).
have -> : (fun x : ('rV[R]_P * 'rV[R]_P) * (R * R) => x.1.2) = snd \o fst by [].
by rewrite map_comp -/unzip1 -/unzip2 unzip1_zip ?unzip2_zip // ?size_zip ?H1 ?H2 ?H3 ?minnn.
Qed.
Lemma flat_en : flatten (map (@energies R P) ranks) = [seq x.2 | x <- all_samples ranks].
Proof.
rewrite /all_samples map_flatten; congr flatten; elim: ranks Hn => //= rk l IH.
case/andP => /and3P[/eqP H1 /eqP H2 /eqP H3] /IH ->; congr (_ :: _).
by rewrite -/unzip2 unzip2_zip // ?size_zip ?H1 ?H2 ?H3 ?minnn.
Qed.

Lemma o_meanE (rows : rank_data R P -> seq 'rV[R]_P) (sel : ('rV[R]_P * 'rV[R]_P) * (R * R) -> 'rV[R]_P) a :
  all (fun rk => size (rows rk) == n) ranks ->
  flatten (map rows ranks) = [seq sel x | x <- all_samples ranks] ->
  o_mean ranks rows 0 a = average ranks (fun y => sel y 0 a).
Proof.
move=> Hr Hf; rewrite /o_mean mxE summxE /average size_samples natrM invfM mulrA mulrC; congr (_ * _).
transitivity (\sum_(rk <- ranks) n%:R^-1 * \sum_(o <- rows rk) o 0 a).
  elim: ranks Hr => [|rk l IH] /=; first by rewrite !big_nil.
  by case/andP => /eqP Hs /IH H; rewrite !big_cons H mxE Hs summxE.
rewrite -mulr_sumr mulrC; congr (_ / _).
rewrite -(big_map sel xpredT (fun o => o 0 a)) -Hf.
by elim: ranks => [|rk l IH] /=; rewrite ?big_nil // big_cat big_cons IH.
Qed.

Lemma gatheredE (rows : rank_data R P -> seq 'rV[R]_P) sel :
  all (fun rk => size (rows rk) == n) ranks ->
  flatten (map rows ranks) = [seq sel x | x <- all_samples ranks] ->
  gathered ranks rows =
  [seq Num.sqrt N *: \row_a (sel x 0 a - average ranks (fun y => sel y 0 a)) | x <- all_samples ranks].
Proof.
move=> Hr Hf; rewrite /gathered.
have -> : [seq [seq Num.sqrt (n_mc ranks rk)%:R *: (o - o_mean ranks rows) | o <- rows rk] | rk <- ranks] =
          [seq map (fun o => Num.sqrt N *: (o - o_mean ranks rows)) (rows rk) | rk <- ranks].
  rewrite /n_mc /N; move: (size ranks) (o_mean _ _) => m om; elim: ranks Hn => //= rk l IH.
  by case/andP => /and3P[/eqP -> _ _] /IH ->.
rewrite -map_flatten Hf -map_comp; apply: eq_map => x /=; congr (_ *: _).
by apply/rowP => a; rewrite [RHS]mxE -(o_meanE a Hr Hf) !mxE.
Qed.

Lemma all_re : all (fun rk => size (o_re rk) == n) ranks.
Proof. by apply: sub_all Hn => rk /and3P[]. Qed.
Lemma all_im : all (fun rk => size (o_im rk) == n) ranks.
Proof. by apply: sub_all Hn => rk /and3P[]. Qed.

Lemma dense_EE : flatten [seq energies_centered ranks em rk | rk <- ranks] =
  [seq (- 2%:R * (x.2.1 - em.1) * Num.sqrt N, - 2%:R * - (x.2.2 - em.2) * Num.sqrt N) | x <- all_samples ranks].
Proof.
rewrite [RHS](map_comp (fun e => (- 2%:R * (e.1 - em.1) * Num.sqrt N, - 2%:R * - (e.2 - em.2) * Num.sqrt N)) snd).
rewrite -flat_en map_flatten; congr flatten.
rewrite /energies_centered /n_mc /N; move: (size ranks) => m; elim: ranks Hn => //= rk l IH.
by case/andP => /and3P[/eqP -> _ _] /IH ->.
Qed.

Lemma sqrtN2 : Num.sqrt N * Num.sqrt N = N.
Proof. by rewrite -expr2 sqr_sqrtr // ler0n. Qed.

Lemma gram_complex : \sum_(o <- dense_O true ranks) o^T *m o = N ^+ 2 *: covariance ranks.
Proof.
have E (sel : _ -> 'rV[R]_P) : \sum_(o <- [seq Num.sqrt N *: \row_a (sel x 0 a - average ranks (fun y => sel y 0 a))
    | x <- all_samples ranks]) o^T *m o =
  \matrix_(a, b) (N * \sum_(x <- all_samples ranks)
     (sel x 0 a - average ranks (fun y => sel y 0 a)) * (sel x 0 b - average ranks (fun y => sel y 0 b))).
  rewrite big_map; apply/matrixP => a b; rewrite summxE mxE mulr_sumr; apply: eq_bigr => x _.
  by rewrite mxE big_ord1 !mxE mulrACA sqrtN2.
rewrite /dense_O big_cat /= (gatheredE all_re flat_re) (gatheredE all_im flat_im) !E.
apply/matrixP => a b; rewrite !mxE -mulrDr -big_split /= {5}/average size_samples -/N.
case: (eqVneq N 0) => [->|HN]; first by rewrite expr0n !mul0r.
by rewrite expr2 -mulrA [N * (_ / _)]mulrC mulfVK.
Qed.

Lemma zip_map_both (A B C' : Type) (f : A -> B) (g : A -> C') (l : seq A) :
  zip (map f l) (map g l) = [seq (f x, g x) | x <- l].
Proof. by elim: l => //= x l ->. Qed.

Lemma gradient_complex : gradient true ranks em = - (2%:R * N ^+ 2) *: force ranks em.
Proof.
rewrite /gradient /dense_O /dense_E dense_EE (gatheredE all_re flat_re) (gatheredE all_im flat_im).
rewrite zip_cat ?size_map // big_cat -!map_comp !zip_map_both !big_map /= -big_split /=.
apply/matrixP => b j; rewrite (ord1 j) summxE !mxE {3}/average size_samples -/N.
case: (eqVneq N 0) => [H0|HN].
  have : size (all_samples ranks) = 0%N.
    by apply/eqP; rewrite size_samples -(pnatr_eq0 R) -/N H0.
  by move/size0nil => ->; rewrite !big_nil mul0r mulr0.
have -> : forall S : R, - (2%:R * N ^+ 2) * (S / N) = (- 2%:R * N) * S.
  by move=> S; rewrite mulrA -[LHS]mulrAC expr2 mulNr mulrA -mulNr mulfK // mulNr.
rewrite mulr_sumr; apply: eq_bigr => x _; rewrite !mxE /dev_re /dev_im.
move: (_ - average _ _) (_ - average _ _) (x.2.1 - em.1) (x.2.2 - em.2) => p q u v.
by rewrite gradient_term sqrtN2.
Qed.

Theorem C47_equation (ema : 'cV[R]_P) (step : nat) (shift decay eps : R)
    (solver : 'M[R]_P -> 'cV[R]_P -> 'cV[R]_P) :
  0 < shift -> 0 < eps -> (forall M b, M \in unitmx -> M *m solver M b = b) ->
  (N ^+ 2 *: covariance ranks +
   shift *: diag_mx (\row_a (Num.sqrt (ema_hat true ranks em ema step decay a 0) + eps))) *m
    - root_updates true ranks em ema step shift decay eps solver = (2%:R * N ^+ 2) *: force ranks em.
Proof.
move=> Hs He Hsol.
have [+ _] := @C47_solvable R P true decay eps solver (Driver ema step) (StepInput ranks em shift) Hs He Hsol.
by rewrite /step_matrix /S_matrix gram_complex /step_gradient gradient_complex scaleNr opprK.
Qed.
End Equation.

(* --- witnesses: one rank, one parameter, two samples with log-derivatives 1, -1 and energies 1, -1 *)
Section Witness.
Variable R : rcfType.
Definition w_rank : rank_data R 1 :=
  RankData [:: const_mx 1; const_mx (-1)] [:: const_mx 0; const_mx 0] [:: (1, 0); (-1, 0)].
Definition w_input : step_input R 1 := StepInput [:: w_rank] (0, 0) 1.

Lemma w_mean : o_mean [:: w_rank] (@o_re R 1) = 0.
Proof.
rewrite /o_mean big_seq1 /= 2!big_cons big_nil addr0; apply/matrixP => a b.
by rewrite !mxE subrr !mulr0.
Qed.
Lemma w_gradient : step_gradient false w_input 0 0 = - 8%:R.
Proof.
rewrite /step_gradient /gradient /dense_O /dense_E /gathered /energies_centered /= w_mean /n_mc /=.
rewrite !big_cons !big_nil /= !subr0 addr0.
have E : Num.sqrt (2 * 1)%N%:R * Num.sqrt (2 * 1)%N%:R = 2%:R :> R by rewrite -expr2 sqr_sqrtr // ler0n.
rewrite !mxE !mulr1 !mulrN1 !mulNr !mulrN opprK -!mulrA E -opprD -!natrM -natrD.
by [].
Qed.

(* a positive initial scale: after one step with vanishing energies (gradient 0) the corrected
   moment is not 0, the bias correction belongs to initial_scale = 0 *)
Definition z_input : step_input R 1 := StepInput [:: RankData [:: 0] [:: 0] [:: (0, 0)]] (0, 0) 1.
Lemma z_gradient : step_gradient false z_input = 0.
Proof.
rewrite /step_gradient /gradient /dense_O /dense_E /gathered /energies_centered /= big_cons big_nil.
by rewrite /= subr0 mulr0 mul0r scale0r addr0.
Qed.
Theorem C47_initial_scale_refuted (decay s : R) : 0 < decay -> decay < 1 -> 0 < s ->
  exists (l : seq (step_input R 1)) (i : step_input R 1),
    (forall j, j \in map (step_gradient false) (rcons l i) -> j = 0) /\
    0 < step_ema_hat false decay (driver_run false decay (initial_driver 1 s) l) i 0 0.
Proof.
move=> D0 D1 Hs; exists [::], z_input; split.
  by move=> j; rewrite /= inE z_gradient => /eqP.
have T : 1%N = (@size (step_input R 1) [::]).+1 by [].
rewrite (hatE _ (ltW D0) D1 _ _ _ T) big_nat1 /= z_gradient mxE expr0n mulr0 addr0.
by rewrite divr_gt0 ?mulr_gt0 ?exprn_gt0 // den_gt0 // ltW.
Qed.

(* after driver.reset() the step counter starts again but the moment is kept: the corrected moment
   exceeds every squared gradient seen *)
Theorem C47_reset_refuted (decay : R) : 0 < decay -> decay < 1 ->
  exists (l : seq (step_input R 1)) (i : step_input R 1),
    let d := driver_reset (driver_run false decay (initial_driver 1 0) l) in
    forall j, j \in map (step_gradient false) (rcons l i) -> j 0 0 ^+ 2 < step_ema_hat false decay d i 0 0.
Proof.
move=> D0 D1; exists [:: w_input], w_input => d j.
have -> : step_ema_hat false decay d w_input 0 0 = 64%:R * (1 + decay).
  rewrite /step_ema_hat /ema_hat mxE /ema_next mxE /d /= mxE mxE.
  have -> : gradient false [:: w_rank] (0, 0) = step_gradient false w_input by [].
  rewrite w_gradient addn1 expr1 mulr0 add0r sqrrN -natrX.
  rewrite mulrCA -mulrDr mulrAC divff ?mul1r; last by rewrite subr_eq0 eq_sym lt_eqF.
  by rewrite mulrDr mulr1 addrC mulrC.
rewrite /= !inE orbb => /eqP ->; rewrite w_gradient sqrrN -natrX -[X in X < _]mulr1.
by rewrite ltr_pmul2l ?ltr0n // ltr_addl.
Qed.

(* non-trivial example for C47_partial: two steps with gradients 0 and -8, decay 1/2; the weights
   are 1/3 and 2/3 *)
Example C47_example :
  step_ema_hat false (2%:R^-1) (driver_run false (2%:R^-1) (initial_driver 1 0) [:: z_input]) w_input 0 0 =
  (2%:R / 3%:R) * 64%:R.
Proof.
have D0 : 0 <= 2%:R^-1 :> R by rewrite invr_ge0 ler0n.
have D1 : 2%:R^-1 < 1 :> R by rewrite invf_lt1 ?ltr0n // ltr1n.
have T : 2%N = (size [:: z_input]).+1 by [].
rewrite (hatE _ D0 D1 _ _ _ T) big_nat_recl // big_nat1 /= mulr0 mul0r add0r z_gradient w_gradient mxE expr0n mulr0 add0r.
rewrite sqrrN -natrX /moment_weight /=; congr (_ * _).
rewrite subnn expr0 mulr1.
have H : 1 - 2%:R^-1 ^+ 2 = (1 - 2%:R^-1) * (3%:R / 2%:R) :> R.
  have -> : 3%:R / 2%:R = 1 + 2%:R^-1 :> R.
    by rewrite (natrD _ 2 1) mulrDl mul1r divff // pnatr_eq0.
  by rewrite mulrDr mulr1 mulrBl mul1r expr2 addrA subrK.
rewrite H invfM mulrA divff ?mul1r ?invf_div //.
by rewrite subr_eq0 eq_sym invr_eq1 pnatr_eq1.
Qed.
End Witness.
