(* C77: SRDense and pinv; C78: the geometric tensor of a state with unique samples; C79: the
   SRRMSProp preconditioner. *)
From Verif Require Import Base QGT_Model QGT_Props Unique_Model Unique_Props SRR_Model SRR_Props UQGT_Model.
Import Num.Theory Order.TTheory.
Local Open Scope ring_scope.

(* --- C77 *)
Section C77.
Variables (C : fieldType) (P : nat).
(* jnp.linalg.pinv: at least an inner inverse *)
Variable pinvf : 'M[C]_P -> 'M[C]_P.
(* the default solver fails on every matrix and gradient *)
Theorem C77_sr_dense_default_fails (lhs : operand C P) g : sr_dense (pinv pinvf) lhs g = None.
Proof. by case: lhs. Qed.
(* and so does any other solver with the interface of netket's solvers, (vector, info) *)
Theorem C77_sr_dense_netket_solvers_fail (s : operand C P -> 'cV[C]_P -> 'cV[C]_P) lhs g :
  sr_dense (fun A b => Some (VecInfo (s A b))) lhs g = None.
Proof. by case: lhs. Qed.
(* with a solver of dense systems which returns the vector, the update solves S x = g *)
Theorem C77_sr_dense_partial (s : 'M[C]_P -> 'cV[C]_P -> 'cV[C]_P) m g :
  (forall A b, A \in unitmx -> A *m s A b = b) -> m \in unitmx ->
  exists2 x, sr_dense (fun A b => if A is DenseArray A then Some (Vec (s A b)) else None) (LinOp m) g = Some x & m *m x = g.
Proof. by move=> Hs Hm; exists (s m g); rewrite ?Hs. Qed.
(* pinv itself, used through LinearOperator.solve: solves every solvable system, singular ones
   included *)
Theorem C77_pinv m y : (forall A, A *m pinvf A *m A = A) ->
  exists2 x, linop_solve (pinv pinvf) (LinOp m) (m *m y) = Some x & m *m x = m *m y.
Proof. by move=> Hp; exists (pinvf m *m (m *m y)) => //; rewrite !mulmxA Hp. Qed.
End C77.

(* inner inverses exist, so the hypothesis on pinv can be met *)
Lemma inner_inverse_exists (C : fieldType) P : exists pinvf : 'M[C]_P -> 'M[C]_P, forall A, A *m pinvf A *m A = A.
Proof. by exists (fun A => pinvmx A) => A; rewrite mulmxKpV. Qed.

(* a regular system for which the default solver gives no update, although one exists *)
Theorem C77_sr_dense_default_refuted (C : fieldType) P (pinvf : 'M[C]_P -> 'M[C]_P) :
  exists (m : 'M[C]_P) (g x : 'cV[C]_P), [/\ m \in unitmx, m *m x = g & sr_dense (pinv pinvf) (LinOp m) g = None].
Proof. by exists 1%:M, 0, 0; rewrite unitmx1 mulmx0 C77_sr_dense_default_fails. Qed.

(* --- C78 *)
Section C78.
Variables (T : eqType) (C : numClosedFieldType) (P K : nat) (O : T -> 'I_K -> 'rV[C]_P).
Variables (per_rank n_nodes : nat) (max_steps : option nat).
Let n := (per_rank * n_nodes)%N.

(* plain averages over a list of samples, and the covariance of the jacobian *)
Definition avg (cons : seq T) (f : T -> C) : C := (\sum_(s <- cons) f s) / (size cons)%:R.
Definition covariance (cons : seq T) (a b : 'I_P) : C :=
  \sum_(k < K) avg cons (fun s => (O s k 0 a - avg cons (fun s => O s k 0 a))^* * (O s k 0 b - avg cons (fun s => O s k 0 b))).

Lemma jac_meanE ranks k a : jac_mean O ranks k 0 a = weighted ranks (fun s => O s k 0 a).
Proof. by rewrite /jac_mean /weighted summxE; apply: eq_bigr => r _; rewrite summxE; apply: eq_bigr => p _; rewrite mxE. Qed.

(* the operator built for the weighted unique samples is the one of the raw samples *)
Theorem C78_unique_qgt batches ranks args s :
  samples_with_counts C per_rank n_nodes max_steps batches = Some ranks -> (0 < n)%N -> qa_shift args = Some s ->
  exists (cons : seq T) Os m,
    [/\ consumed n max_steps batches cons, qgt_unique sqrtC O (Some ranks) args = Operator Os (qa_shift args),
        qgt_dense conjC Os (qa_shift args) = Some m &
        forall a b, m a b = covariance cons a b + (if a == b then s else 0)].
Proof.
move=> H Hn Hs; have [cons [H1 _ Hf Hsum Hw]] := C43 H Hn.
exists cons, [seq centered_oks sqrtC O ranks r | r <- ranks].
eexists; split=> //; first by rewrite /qgt_dense Hs.
move=> a b; rewrite mxE; congr (_ + _); rewrite big_map.
have Hp p : p \in all_pairs ranks -> 0 <= p.2.
  by move=> Hp; case: (altP (p.2 =P 0)) => [->//|H0]; rewrite (Hf _ Hp H0) divr_ge0 // ler0n.
have -> : covariance cons a b = \sum_(k < K) weighted ranks (fun s => (O s k 0 a - jac_mean O ranks k 0 a)^* * (O s k 0 b - jac_mean O ranks k 0 b)).
  by apply: eq_bigr => k _; rewrite Hw /avg !jac_meanE !Hw.
rewrite /weighted exchange_big /=; apply: eq_big_seq => r Hr; rewrite exchange_big /= /centered_oks big_flatten big_map.
apply: eq_big_seq => p Hpr; rewrite big_map big_enum /=; apply: eq_bigr => k _.
have H0 : 0 <= sqrtC p.2.
  by rewrite sqrtC_ge0; apply: Hp; apply/flattenP; exists (zip r.1 r.2) => //; apply: map_f.
by rewrite !mxE rmorphM /= (geC0_conj H0) mulrACA -expr2 sqrtCK mulrA.
Qed.

(* building the constructor first, as one does for SR and SRDense, loses the diagonal shift: no
   dense matrix can be formed, whereas the direct call gives one *)
Theorem C78_partial_application_refuted (ranks : seq (seq T * seq C)) args s : qa_shift args = Some s ->
  (exists Os, qgt_apply sqrtC O (qgt_unique sqrtC O None args) ranks = Operator Os None /\ qgt_dense conjC Os None = None) /\
  (exists Os m, qgt_unique sqrtC O (Some ranks) args = Operator Os (Some s) /\ qgt_dense conjC Os (Some s) = Some m).
Proof.
move=> Hs; split; first by eexists; split; [reflexivity|].
by exists [seq centered_oks sqrtC O ranks r | r <- ranks]; eexists; split; [rewrite /qgt_unique Hs|reflexivity].
Qed.
End C78.

(* --- C79 *)
Section Ring.
Variable A : comRingType.
Add Ring RU : (r_theory A).
Lemma ema_alg (d p s c x y : A) : d * (p * s + c * x) + c * y = d * p * s + c * (d * x + y).
Proof. mring A. Qed.
Lemma ema_alg3 (a b c d : A) : a * (b * c * d) = a * b * d * c.
Proof. mring A. Qed.
Lemma ema_alg2 (d c x y : A) : d * (c * x) + c * y = c * (d * x + y).
Proof. mring A. Qed.
End Ring.
Section C79.
Variables (R : rcfType) (n : nat) (decay : R).
Hypotheses (D0 : 0 <= decay) (D1 : decay < 1).

Lemma ema_runE cx s (l : seq (leaf R n)) i g0 :
  (ema_run decay cx s l i).1 = decay ^+ size l * s + (1 - decay) * (\sum_(0 <= k < size l) decay ^+ (size l - k.+1) * (nth g0 l k i).1 ^+ 2) /\
  (cx -> (ema_run decay cx s l i).2 = (1 - decay) * (\sum_(0 <= k < size l) decay ^+ (size l - k.+1) * (nth g0 l k i).2 ^+ 2)).
Proof.
elim/last_ind: l => [|l g [IH1 IH2]]; first by rewrite /ema_run /= !big_nil expr0 mul1r mulr0 addr0.
have S (f : leaf R n -> R) : \sum_(0 <= k < (size l).+1) decay ^+ ((size l).+1 - k.+1) * f (nth g0 (rcons l g) k) ^+ 2
    = decay * (\sum_(0 <= k < size l) decay ^+ (size l - k.+1) * f (nth g0 l k) ^+ 2) + f g ^+ 2.
  rewrite big_nat_recr //= subnn expr0 mul1r nth_rcons ltnn eqxx; congr (_ + _).
  rewrite mulr_sumr; rewrite big_nat_cond [RHS]big_nat_cond; apply: eq_bigr => k /andP[/andP[_ Hk] _].
  by rewrite nth_rcons Hk subSn // exprS mulrA.
rewrite /ema_run foldl_rcons -/(ema_run decay cx s l) size_rcons /update_ema; split=> [|Hc].
  have -> : (if cx then ((g i).1 ^+ 2, (g i).2 ^+ 2) else ((g i).1 ^+ 2, 0)).1 = (g i).1 ^+ 2 by case: (cx).
  by have S1 := S (fun g => (g i).1); cbv beta in S1; rewrite S1; cbn [fst]; rewrite IH1 [decay ^+ (size l).+1]exprS ema_alg.
by have S1 := S (fun g => (g i).2); cbv beta in S1; rewrite S1; cbn [snd]; rewrite (IH2 Hc) Hc ema_alg2.
Qed.

Lemma geo_sum m : (1 - decay) * (\sum_(0 <= k < m) decay ^+ (m - k.+1)) = 1 - decay ^+ m.
Proof.
elim: m => [|m IH]; first by rewrite big_nil expr0 subrr mulr0.
rewrite big_nat_recr //= subnn expr0.
rewrite (_ : \sum_(0 <= i < m) decay ^+ (m.+1 - i.+1) = decay * (\sum_(0 <= k < m) decay ^+ (m - k.+1))).
  by rewrite mulrDr mulr1 mulrCA IH mulrBr mulr1 exprS addrC addrA addrNK.
rewrite mulr_sumr big_nat_cond [RHS]big_nat_cond; apply: eq_bigr => k /andP[/andP[_ Hk] _].
by rewrite -exprS subSS -subSn // subSS.
Qed.
Lemma den_gt0 m : 0 < 1 - decay ^+ m.+1.
Proof. by rewrite subr_gt0 exprn_ilt1. Qed.

(* after any number of calls with step = 0, 1, 2, ... the bias-corrected moments of the real and
   of the imaginary parts are the same convex combination of the squared parts of the gradients *)
Theorem C79_moments (l : seq (leaf R n)) (g : leaf R n) :
  exists (c : nat -> R) (hat : leaf R n),
    [/\ bias_corrected decay (ema_run decay true 0 (rcons l g)) (Some (size l)) = Some hat,
        forall k, 0 <= c k, \sum_(0 <= k < (size l).+1) c k = 1,
        forall i, (hat i).1 = \sum_(0 <= k < (size l).+1) c k * (nth g (rcons l g) k i).1 ^+ 2 &
        forall i, (hat i).2 = \sum_(0 <= k < (size l).+1) c k * (nth g (rcons l g) k i).2 ^+ 2].
Proof.
have D := den_gt0 (size l); have Dn : 1 - decay ^+ (size l).+1 != 0 by rewrite gt_eqF.
exists (fun k => (1 - decay) * decay ^+ ((size l).+1 - k.+1) / (1 - decay ^+ (size l).+1)); eexists; split; first by [].
- by move=> k; apply: divr_ge0; [apply: mulr_ge0; [rewrite subr_ge0 ltW|exact: exprn_ge0]|exact: ltW].
- by rewrite -mulr_suml -mulr_sumr geo_sum divff.
- move=> i /=; have [-> _] := ema_runE true 0 (rcons l g) i g; rewrite size_rcons mulr0 add0r -mulrA mulr_suml mulr_sumr.
  by apply: eq_bigr => k _; rewrite ema_alg3.
move=> i /=; have [_ ->//] := ema_runE true 0 (rcons l g) i g; rewrite size_rcons -mulrA mulr_suml mulr_sumr.
by apply: eq_bigr => k _; rewrite ema_alg3.
Qed.

(* real parameters *)
Theorem C79_moments_real (l : seq (leaf R n)) (g : leaf R n) :
  exists (c : nat -> R) (hat : leaf R n),
    [/\ bias_corrected decay (ema_run decay false 0 (rcons l g)) (Some (size l)) = Some hat,
        forall k, 0 <= c k, \sum_(0 <= k < (size l).+1) c k = 1 &
        forall i, (hat i).1 = \sum_(0 <= k < (size l).+1) c k * (nth g (rcons l g) k i).1 ^+ 2].
Proof.
have D := den_gt0 (size l); have Dn : 1 - decay ^+ (size l).+1 != 0 by rewrite gt_eqF.
exists (fun k => (1 - decay) * decay ^+ ((size l).+1 - k.+1) / (1 - decay ^+ (size l).+1)); eexists; split; first by [].
- by move=> k; apply: divr_ge0; [apply: mulr_ge0; [rewrite subr_ge0 ltW|exact: exprn_ge0]|exact: ltW].
- by rewrite -mulr_suml -mulr_sumr geo_sum divff.
move=> i /=; have [-> _] := ema_runE false 0 (rcons l g) i g; rewrite size_rcons mulr0 add0r -mulrA mulr_suml mulr_sumr.
by apply: eq_bigr => k _; rewrite ema_alg3.
Qed.

Lemma rms_matrix Q (O : seq (seq 'rV[R]_Q)) shift eps (hat : 'cV[R]_Q) :
  dense_to_dense id Num.sqrt O shift eps hat
  = (1 - shift) *: (\sum_(rk <- O) \sum_(o <- rk) o^T *m o) + shift *: diag_mx (\row_a (Num.sqrt (hat a 0) + eps)).
Proof.
apply/matrixP => a b; rewrite /dense_to_dense mxE [RHS]mxE mxE; congr (_ + _).
  rewrite summxE; congr (_ * _); apply: eq_bigr => rk _; rewrite summxE; apply: eq_bigr => o _.
  by rewrite mxE big_ord1 mxE.
by rewrite !mxE; congr (_ * _); case: eqP => [->|_]; rewrite ?mulr1n ?mulr0n.
Qed.
Lemma rms_unit Q (O : seq (seq 'rV[R]_Q)) shift eps (hat : 'cV[R]_Q) : 0 < eps -> 0 < shift -> shift <= 1 ->
  dense_to_dense id Num.sqrt O shift eps hat \in unitmx.
Proof.
move=> He Hs0 Hs1; apply: posdef_unit => x /eqP Hx; rewrite rms_matrix.
have -> : \sum_(rk <- O) \sum_(o <- rk) o^T *m o = \sum_(o <- flatten O) o^T *m o by rewrite big_flatten.
rewrite mulmxDr mulmxDl mxE -!scalemxAr -!scalemxAl [X in X + _]mxE [X in _ + X]mxE quad_gram quad_diag.
apply: ltr_paddl; first by rewrite mulr_ge0 ?subr_ge0 // sumr_ge0 // => o _; apply: sqr_ge0.
apply: mulr_gt0 => //; have Hpos a : 0 < Num.sqrt (hat a 0) + eps by rewrite ltr_paddl // sqrtr_ge0.
have T a : 0 <= (\row_b (Num.sqrt (hat b 0) + eps)) 0 a * x a 0 ^+ 2 by rewrite mxE mulr_ge0 ?sqr_ge0 // ltW.
rewrite lt_def; apply/andP; split; last by apply: sumr_ge0.
apply/eqP => H0; apply: Hx; apply/matrixP => a j; rewrite (ord1 j) !mxE.
move/eqP: H0; rewrite psumr_eq0; last by move=> b _; apply: T.
move/allP/(_ a (mem_index_enum _)) => /=; rewrite mxE mulf_eq0 (gt_eqF (Hpos a)) /= sqrf_eq0.
by move/eqP.
Qed.

(* the returned update x solves ((1 - shift) S + shift diag(sqrt(moment) + eps)) x = gradient *)
Theorem C79_update (eps : R) solver O shift (l : seq (leaf R n)) (g : leaf R n) :
  0 < eps -> 0 < shift -> shift <= 1 -> (forall A b, A \in unitmx -> A *m solver A b = b) ->
  exists (hat : leaf R n) (x : 'cV[R]_(n + n)),
    [/\ srr_call decay Num.sqrt eps solver (ema_run decay true 0 l) O shift g (Some (size l)) = Some (ema_run decay true 0 (rcons l g), x),
        bias_corrected decay (ema_run decay true 0 (rcons l g)) (Some (size l)) = Some hat &
        ((1 - shift) *: (\sum_(rk <- O) \sum_(o <- rk) o^T *m o)
         + shift *: diag_mx (\row_a (Num.sqrt (to_real hat a 0) + eps))) *m x = to_real g].
Proof.
move=> He Hs0 Hs1 Hsol; set nu := ema_run decay true 0 (rcons l g).
set hat : leaf R n := fun i => ((nu i).1 / (1 - decay ^+ (size l).+1), (nu i).2 / (1 - decay ^+ (size l).+1)).
exists hat, (solver (dense_to_dense id Num.sqrt O shift eps (to_real hat)) (to_real g)); split=> //.
  by rewrite /hat /nu /srr_call /ema_run foldl_rcons.
by rewrite -rms_matrix Hsol // rms_unit.
Qed.

(* without the optional argument the call raises *)
Theorem C79_step_default (eps : R) sqrt solver O shift (nu g : leaf R n) : srr_call decay sqrt eps solver nu O shift g None = None.
Proof. by []. Qed.
End C79.

Example C77_example : sr_dense (fun A b => if A is DenseArray A then Some (Vec (invmx A *m b)) else None) (LinOp (2%:Q)%:M) (4%:Q)%:M
  = Some ((2%:Q)%:M : 'M_1) /\ sr_dense (pinv (fun A : 'M[rat]_1 => invmx A)) (LinOp (2%:Q)%:M) (4%:Q)%:M = None.
Proof. by split=> //; rewrite /sr_dense /= invmx_scalar -scalar_mxM. Qed.
(* the state of C43_example has a geometric tensor, that of the five samples used *)
Example C78_example (C : numClosedFieldType) : exists ranks Os m,
  [/\ samples_with_counts C 2 2 None ex_batches = Some ranks,
      qgt_unique sqrtC (fun s (_ : 'I_1) => const_mx (s%:R : C) : 'rV_1) (Some ranks) (QgtArgs None None (Some 1)) = Operator Os (Some 1),
      qgt_dense conjC Os (Some 1) = Some m & exists cons, m 0 0 = covariance (fun s (_ : 'I_1) => const_mx (s%:R : C) : 'rV_1) cons 0 0 + 1].
Proof.
case E : (samples_with_counts C 2 2 None ex_batches) => [ranks|]; last first.
  by case: (@C43_defined nat_eqType C 2 2 None ex_batches isT isT); [right|].
have [cons [Os [m [_ H1 H2 H3]]]] := C78_unique_qgt (fun s (_ : 'I_1) => const_mx (s%:R : C) : 'rV_1) E isT (erefl : qa_shift (QgtArgs None None (Some 1)) = Some 1).
by exists ranks, Os, m; split=> //; exists cons; rewrite H3.
Qed.
(* two calls with decay 1/2 and gradients 1 + 2i, 3 + 0i: weights 1/3 and 2/3 *)
Example C79_example : bias_corrected (1 / 2%:Q) (ema_run (1 / 2%:Q) true 0 [:: fun _ : 'I_1 => (1, 2%:Q); fun _ => (3%:Q, 0)]) (Some 1%N) <> None /\
  forall hat, bias_corrected (1 / 2%:Q) (ema_run (1 / 2%:Q) true 0 [:: fun _ : 'I_1 => (1, 2%:Q); fun _ => (3%:Q, 0)]) (Some 1%N) = Some hat ->
  hat ord0 = (19%:Q / 3%:Q, 4%:Q / 3%:Q).
Proof. by split=> // hat [<-]; apply/eqP; vm_compute. Qed.

Print Assumptions C77_sr_dense_default_fails.
Print Assumptions C77_sr_dense_default_refuted.
Print Assumptions C77_sr_dense_netket_solvers_fail.
Print Assumptions C77_sr_dense_partial.
Print Assumptions C77_pinv.
Print Assumptions C78_unique_qgt.
Print Assumptions C78_partial_application_refuted.
Print Assumptions C79_moments.
Print Assumptions C79_moments_real.
Print Assumptions C79_update.
Print Assumptions C79_step_default.
