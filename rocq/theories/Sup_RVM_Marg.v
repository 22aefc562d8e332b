(* log_marg_lik is the logarithm of the evidence of the linear model (C82). *)
From Coq Require Import Reals Lra.
From Verif Require Import Base Fld Rstruct Sup_Model Sup_Fit_Model Sup_Ev_Alg Sup_RVM_Model Sup_RVM_Core Sup_RVM_Ev.
Import Num.Theory Order.TTheory.
Local Open Scope ring_scope.
Notation idm := [rmorphism of idfun].

Section RingAux.
Variable A : comRingType.
Add Ring RB : (r_theory A).
Lemma g_ring (b x s z : A) : b * (x * (s * z)) = x * (b * s) * z.
Proof. mring A. Qed.
Lemma m_ring (l d s q u : A) : - d - s + u - q = - (l + d + q) + l - s + u.
Proof. mring A. Qed.
Lemma m_ring2 (e l s u : A) : - l + s - u + (e + l - s + u) = e.
Proof. mring A. Qed.
Lemma x_ring (l ml d s u v q : A) :
  2%:R * (- (ml * l) + s - (u + v)) + (- d - (s + s) + (2%:R * u + 2%:R * v) - q) = - ((ml + ml) * l + d + q).
Proof. have -> : 2%:R = 1 + 1 :> A by []. mring A. Qed.
Lemma l_ring (p t c : A) : - (p - c) = - (t + p) + (t + c).
Proof. mring A. Qed.
End RingAux.
Section FieldAux.
Variable F : numFieldType.
Lemma m_half (e l s u : F) : (- l + s - u + (2%:R * e + l - s + u)) / 2%:R = e.
Proof.
rewrite m_ring2.
by rewrite mulrC mulKf // pnatr_eq0.
Qed.
End FieldAux.

Lemma all_row (T : Type) (P : pred T) (s : seq T) : all P s -> forall i : 'I_(size s), P (tnth (in_tuple s) i).
Proof. by move=> H; apply/all_tnthP. Qed.
Lemma sum_const_seq (T : Type) (s : seq T) (x : RR) : \sum_(r <- s) x = (size s)%:R * x.
Proof. by rewrite big_const_seq count_predT iter_addr_0 mulr_natl. Qed.
Lemma sum_row (T : Type) (P : pred T) (s : seq T) (f g : T -> RR) : all P s -> (forall r, P r -> f r = g r) ->
  \sum_(r <- s) f r = \sum_(r <- s) g r.
Proof. by move=> H E; rewrite big_tnth [RHS]big_tnth; apply: eq_bigr => i _; apply: E; apply: (all_row H). Qed.

(* --- real data: every data point k.w + noise of precision beta * s, prior precision alpha_j of the
   active weights *)
Section Real.
Variables (n : nat) (beta : RR) (dat : seq (frow RR n)).
Notation N := (size dat).
Definition row_of (i : 'I_N) : frow RR n := tnth (in_tuple dat) i.
Definition design : 'M[RR]_(N, n) := \matrix_(i, j) fk (row_of i) 0 j.
Definition targets : 'cV[RR]_N := \col_i fy (row_of i).
Definition prec (i : 'I_N) : RR := beta * fs (row_of i).
Lemma design_gram ranks : flatten ranks = dat -> beta *: KtK_of idm ranks = gram prec design.
Proof.
move=> E; apply/matrixP => a b; rewrite !mxE -big_flatten E big_tnth mulr_sumr /gram mul_mx_diag; apply: eq_bigr => i _.
rewrite !mxE /prec /row_of /=; exact: g_ring.
Qed.
Lemma design_gvec ranks : flatten ranks = dat -> beta *: y_of idm ranks = gvec prec design targets.
Proof.
move=> E; apply/matrixP => a b; rewrite !mxE -big_flatten E big_tnth mulr_sumr /gvec mul_mx_diag; apply: eq_bigr => i _.
rewrite !mxE /prec /row_of /=; exact: g_ring.
Qed.
(* evidence of the data with the active features [act] of prior precisions alpha *)
Definition model_evidence (act : pred 'I_n) (alpha : 'I_n -> RR) : RR := gauss_ln (Cov prec design act alpha) targets.
End Real.

Section Marg.
Variables (chol : forall m, 'M[RR]_m -> option 'M[RR]_m) (pinvh : forall m, 'M[RR]_m -> 'M[RR]_m).
Hypotheses (Hchol : chol_ok chol) (Hpinvh : pinvh_ok pinvh).
Variables (n : nat) (acut kcut : RR).
Implicit Type alpha : 'I_n -> RR.
Lemma pi2_gt0 : 0 < 2%:R * (PI : RR).
Proof. apply: mulr_gt0; [exact: ltr0n | apply/RltP; exact: PI_RGT_0]. Qed.

Lemma real_part beta (ranks : seq (seq (frow RR n))) alpha :
  let dat := flatten ranks in let KtK := KtK_of idm ranks in
  0 < beta -> all (fun r => 0 < fs r) dat -> (forall i, act_of acut kcut KtK alpha i -> 0 < alpha i) ->
  alpha_part rln chol pinvh false acut kcut beta KtK (y_of idm ranks) alpha =
  2%:R * model_evidence beta dat (act_of acut kcut KtK alpha) alpha
  + (size dat)%:R * rln (2%:R * (PI : RR)) - (\sum_(r <- dat) rln (beta * fs r)) + \sum_(r <- dat) beta * fs r * fy r ^+ 2.
Proof.
move=> dat KtK b0 Hs Ha.
have p_gt0 (i : 'I_(size dat)) : 0 < prec beta i by rewrite mulr_gt0 //; apply: (all_row Hs).
have HG : (cfac RR false * beta) *: KtK = gram (@prec _ beta dat) (design dat) by rewrite mul1r; apply: design_gram.
have Hy : (cfac RR false * beta) *: y_of idm ranks = gvec (@prec _ beta dat) (design dat) (targets dat).
  by rewrite mul1r; apply: design_gvec.
have := alpha_partE Hchol Hpinvh p_gt0 HG Hy b0 Ha; rewrite mul1r => ->.
rewrite /model_evidence /gauss_ln mulrN [2%:R * _]mulrC divfK ?pnatr_eq0 //.
have -> : \sum_(r <- dat) rln (beta * fs r) = \sum_i rln (@prec _ beta dat i) by rewrite big_tnth.
have -> : \sum_(r <- dat) beta * fs r * fy r ^+ 2 = \sum_i @prec _ beta dat i * targets dat i 0 ^+ 2.
  by rewrite big_tnth; apply: eq_bigr => i _; rewrite mxE.
exact: m_ring.
Qed.

(* QGPSLearningExp without weightings, real parameters *)
Theorem C82_exp (ranks : seq (seq (lrow RR n))) alpha :
  let dat := [seq lr r | r <- flatten ranks] in
  let KtK := KtK_of idm [seq [seq lr r | r <- rk] | rk <- ranks] in
  all (fun r => 0 < fs (lr r)) (flatten ranks) -> all (fun r => lw r == 1) (flatten ranks) ->
  (forall i, act_of acut kcut KtK alpha i -> 0 < alpha i) ->
  exp_log_marg_lik rln PI chol pinvh acut kcut ranks alpha =
  model_evidence 1 dat (act_of acut kcut KtK alpha) alpha.
Proof.
move=> dat KtK Hs Hw Ha; rewrite /exp_log_marg_lik -/KtK.
have Ed : flatten [seq [seq lr r | r <- rk] | rk <- ranks] = dat by rewrite -map_flatten.
have Hs' : all (fun r => 0 < fs r) (flatten [seq [seq lr r | r <- rk] | rk <- ranks]).
  by rewrite Ed all_map.
rewrite (real_part ltr01 Hs' Ha) Ed.
have -> : exp_data_part rln PI ranks = - ((size dat)%:R * rln (2%:R * (PI : RR)))
   + (\sum_(r <- dat) rln (1 * fs r)) - \sum_(r <- dat) 1 * fs r * fy r ^+ 2.
  rewrite /exp_data_part /dat size_map !big_map.
  rewrite -sum_const_seq -!sumrN -!big_split /=.
  under eq_bigr do rewrite -!sumrN -big_split /=.
  rewrite -big_flatten; apply: (@sum_row _ (predI (fun r => 0 < fs (lr r)) (fun r => lw r == 1))).
    by rewrite all_predI Hs.
  move=> r /andP[/= H1 /eqP ->]; rewrite divr1 !mul1r rln_div ?pi2_gt0 // opprB addrC [- _ + _]addrC.
  by rewrite [RHS]addrC mulrCA expr2.
by rewrite div1r; exact: m_half.
Qed.

(* QGPSLogSpaceFit without weightings, real parameters; beta = 1 / noise_tilde (L1088, L1242) *)
Theorem C82_log noise (ranks : seq (seq (frow RR n))) alpha :
  let dat := flatten ranks in let KtK := KtK_of idm ranks in
  0 < noise -> all (fun r => fs r == 1) dat -> (forall i, act_of acut kcut KtK alpha i -> 0 < alpha i) ->
  log_log_marg_lik rln PI chol pinvh acut kcut false noise (1 / noise) ranks alpha =
  model_evidence (1 / noise) dat (act_of acut kcut KtK alpha) alpha.
Proof.
move=> dat KtK n0 Hs Ha; rewrite /log_log_marg_lik -/KtK div1r.
have Hs' : all (fun r => 0 < fs r) dat by apply: sub_all Hs => r /eqP ->; exact: ltr01.
have b0 : 0 < noise^-1 by rewrite invr_gt0.
rewrite (real_part b0 Hs' Ha) -/dat.
have -> : log_data_part rln PI false noise ranks = - ((size dat)%:R * rln (2%:R * (PI : RR)))
   + (\sum_(r <- dat) rln (noise^-1 * fs r)) - \sum_(r <- dat) noise^-1 * fs r * fy r ^+ 2.
  rewrite /log_data_part -sum_const_seq -!sumrN -!big_split /=.
  under eq_bigr do rewrite -sum_const_seq mulr_suml -!sumrN -big_split /=.
  rewrite -big_flatten; apply: (sum_row Hs) => r /eqP ->.
  rewrite rlnM ?pi2_gt0 // mulr1 rlnV // opprD; congr (_ - _); by rewrite mulrC expr2.
by rewrite div1r; exact: m_half.
Qed.
End Marg.

(* --- integer weightings are repetitions of the data points: every rank holds rows with their
   multiplicities; [rep] repeats, [wts] multiplies S_diag (L582-583) and sets the weighting *)
Section Weights.
Variables (chol : forall m, 'M[RR]_m -> option 'M[RR]_m) (pinvh : forall m, 'M[RR]_m -> 'M[RR]_m).
Variables (n : nat) (acut kcut : RR).
Definition wmul (x : frow RR n * nat) : frow RR n := FRow (fk x.1) (x.2%:R * fs x.1) (fy x.1).
Definition repeated (rk : seq (frow RR n * nat)) : seq (frow RR n) := flatten [seq nseq x.2 x.1 | x <- rk].
Lemma sum_nseq (k : nat) (T : Type) (x : T) (f : T -> RR) : \sum_(r <- nseq k x) f r = k%:R * f x.
Proof. by elim: k => [|k IH]; rewrite ?big_nil ?mul0r //= big_cons IH mulrS mulrDl mul1r. Qed.
Lemma sum_repeated rk (f : frow RR n -> RR) : \sum_(r <- repeated rk) f r = \sum_(x <- rk) x.2%:R * f x.1.
Proof. by rewrite big_flatten big_map; apply: eq_bigr => x _; rewrite sum_nseq. Qed.
Lemma KtK_repeated ranks : KtK_of idm [seq repeated rk | rk <- ranks] = KtK_of idm [seq [seq wmul x | x <- rk] | rk <- ranks].
Proof.
apply/matrixP => a b; rewrite !mxE !big_map; apply: eq_bigr => rk _; rewrite big_map sum_repeated.
by apply: eq_bigr => x _; rewrite /= -[in RHS]mulrA [RHS]mulrCA.
Qed.
Lemma y_repeated ranks : y_of idm [seq repeated rk | rk <- ranks] = y_of idm [seq [seq wmul x | x <- rk] | rk <- ranks].
Proof.
apply/matrixP => a b; rewrite !mxE !big_map; apply: eq_bigr => rk _; rewrite big_map sum_repeated.
by apply: eq_bigr => x _; rewrite /= -[in RHS]mulrA [RHS]mulrCA.
Qed.

Theorem C82_exp_weights (ranks : seq (seq (frow RR n * nat))) alpha :
  all (all (fun x => 0 < x.2)%N) ranks ->
  exp_log_marg_lik rln PI chol pinvh acut kcut [seq [seq LRow (wmul x) x.2%:R | x <- rk] | rk <- ranks] alpha =
  exp_log_marg_lik rln PI chol pinvh acut kcut [seq [seq LRow r 1 | r <- repeated rk] | rk <- ranks] alpha.
Proof.
move=> Hw; rewrite /exp_log_marg_lik.
have -> : [seq [seq lr r | r <- rk] | rk <- [seq [seq LRow (wmul x) x.2%:R | x <- rk] | rk <- ranks]] = [seq [seq wmul x | x <- rk] | rk <- ranks].
  by rewrite -map_comp; apply: eq_map => rk /=; rewrite -map_comp; apply: eq_map.
have -> : [seq [seq lr r | r <- rk] | rk <- [seq [seq LRow r 1 | r <- repeated rk] | rk <- ranks]] = [seq repeated rk | rk <- ranks].
  by rewrite -map_comp; apply: eq_map => rk /=; rewrite -map_comp -[RHS]map_id; apply: eq_map.
rewrite KtK_repeated y_repeated; congr ((_ + _) * _).
rewrite /exp_data_part !big_map; apply: (sum_row Hw) => rk Hrk.
rewrite !big_map !sum_repeated; congr (- _ - _); last first.
  by apply: eq_bigr => x _; rewrite /= -[in LHS]mulrA [LHS]mulrCA.
apply: (sum_row Hrk) => x Hx /=; rewrite divr1 mul1r; congr (_ * rln (_ / _)).
by rewrite mulrAC divff ?mul1r // pnatr_eq0 -lt0n.
Qed.

(* QGPSLogSpaceFit with integer weightings: |fit_data|^2 of L1154 is not weighted *)
Theorem C82_log_weights_partial noise beta (ranks : seq (seq (frow RR n * nat))) alpha :
  all (all (fun x => fs x.1 == 1)) ranks ->
  log_log_marg_lik rln PI chol pinvh acut kcut true noise beta [seq [seq wmul x | x <- rk] | rk <- ranks] alpha =
  log_log_marg_lik rln PI chol pinvh acut kcut false noise beta [seq repeated rk | rk <- ranks] alpha
  + (\sum_(rk <- ranks) \sum_(x <- rk) (x.2%:R - 1) * fy x.1 ^+ 2) / (2%:R * noise).
Proof.
move=> Hs; rewrite /log_log_marg_lik KtK_repeated y_repeated.
have -> : log_data_part rln PI true noise [seq [seq wmul x | x <- rk] | rk <- ranks] =
    log_data_part rln PI false noise [seq repeated rk | rk <- ranks]
    + (\sum_(rk <- ranks) \sum_(x <- rk) (x.2%:R - 1) * fy x.1 ^+ 2) / noise.
  rewrite /log_data_part !big_map mulr_suml -big_split /=; apply: (sum_row Hs) => rk Hrk.
  rewrite !big_map !sum_repeated -addrA; congr (_ + _).
    congr (- (_ * _)); rewrite -[(size _)%:R]mulr1 -sum_const_seq sum_repeated.
    by apply: (sum_row Hrk) => x /eqP /= ->.
  rewrite -!mulNr -mulrDl; congr (_ * _); rewrite -!sumrN -big_split /=; apply: eq_bigr => x _.
  by rewrite mulrBl mul1r expr2 addrA addNr sub0r.
by rewrite addrAC mulrDl div1r [2%:R * noise]mulrC invfM mulrA.
Qed.
End Weights.

Section MxE.
Variables (R : realFieldType) (m n : nat).
Implicit Types A B : 'M[R]_(m, n).
Lemma addE A B i j : (A + B) i j = A i j + B i j. Proof. by rewrite mxE. Qed.
Lemma oppE A i j : (- A) i j = - A i j. Proof. by rewrite mxE. Qed.
Lemma scaE (a : R) A i j : (a *: A) i j = a * A i j. Proof. by rewrite mxE. Qed.
End MxE.

(* --- complex data with complex_expand: real and imaginary parts of k.w + noise, the noise of both
   parts of precision 2 beta s; prior precision alpha_j of real and imaginary parts of the weights *)
Section Complex.
Variables (n : nat) (beta : RR) (dat : seq (crow RR n)).
Notation M := (size dat).
Definition crow_of (i : 'I_M) : crow RR n := tnth (in_tuple dat) i.
Definition fold (i : 'I_(M + M)) : 'I_M := match fintype.split i with inl j => j | inr j => j end.
Definition Kre : 'M[RR]_(M, n) := \matrix_(i, j) ckr (crow_of i) 0 j.
Definition Kim : 'M[RR]_(M, n) := \matrix_(i, j) cki (crow_of i) 0 j.
Definition cdesign : 'M[RR]_(M + M, n + n) := block_mx Kre (- Kim) Kim Kre.
Definition ctargets : 'cV[RR]_(M + M) := col_mx (\col_i cyr (crow_of i)) (\col_i cyi (crow_of i)).
Definition cprec (i : 'I_(M + M)) : RR := 2%:R * beta * cs (crow_of (fold i)).
Definition cmodel_evidence (act : pred 'I_(n + n)) (alpha : 'I_(n + n) -> RR) : RR :=
  gauss_ln (Cov cprec cdesign act alpha) ctargets.
Let d : 'rV[RR]_M := \row_i (2%:R * beta * cs (crow_of i)).
Lemma fold_l i : fold (lshift M i) = i. Proof. by rewrite /fold -[lshift M i]/(unsplit (inl i)) unsplitK. Qed.
Lemma fold_r i : fold (rshift M i) = i. Proof. by rewrite /fold -[rshift M i]/(unsplit (inr i)) unsplitK. Qed.
Lemma cdiag : diag_mx (\row_i cprec i) = block_mx (diag_mx d) 0 0 (diag_mx d).
Proof.
rewrite -diag_mx_row; congr diag_mx; apply/matrixP => i j; rewrite [i]ord1 mxE; case: (splitP j) => k E.
  have -> : j = lshift M k by apply: val_inj. by rewrite row_mxEl mxE /cprec fold_l.
have -> : j = rshift M k by apply: val_inj. by rewrite row_mxEr mxE /cprec fold_r.
Qed.
Lemma cgram ranks : flatten ranks = dat -> (2%:R * beta) *: cKtK ranks = gram cprec cdesign.
Proof.
move=> E; rewrite /gram cdiag /cdesign tr_block_mx mulmx_block mulmx_block scale_block_mx !mulmx0 !addr0 !add0r.
have ent (A B : 'M[RR]_(M, n)) a b : (A^T *m diag_mx d *m B) a b = \sum_i (2%:R * beta * cs (crow_of i)) * (A i a * B i b).
  by rewrite mul_mx_diag mxE; apply: eq_bigr => i _; rewrite !mxE mulrAC mulrC.
have S f : \sum_(rk <- ranks) \sum_(r <- rk) f r = \sum_i f (crow_of i) :> RR by rewrite -big_flatten E big_tnth.
have tN (A : 'M[RR]_(M, n)) : (- A)^T = - A^T by apply/matrixP => i j; rewrite !mxE.
congr block_mx; apply/matrixP => a b.
- rewrite addE !ent scaE mxE S mulr_sumr -big_split /=; apply: eq_bigr => i _; rewrite !mxE.
  by rewrite -mulrDr mulrA.
- rewrite mulmxN addE oppE !ent scaE oppE mxE S mulrN mulr_sumr -!sumrN -big_split /=; apply: eq_bigr => i _; rewrite !mxE.
  by rewrite mulrA mulrBr opprB addrC.
- rewrite tN !mulNmx addE oppE !ent scaE mxE S mulr_sumr -sumrN -big_split /=; apply: eq_bigr => i _; rewrite !mxE.
  by rewrite mulrA mulrBr addrC.
- rewrite tN !mulNmx mulmxN opprK addE !ent scaE mxE S mulr_sumr -big_split /=; apply: eq_bigr => i _; rewrite !mxE.
  by rewrite mulrA mulrDr addrC.
Qed.
Lemma cgvec ranks : flatten ranks = dat -> (2%:R * beta) *: cy ranks = gvec cprec cdesign ctargets.
Proof.
move=> E; rewrite /gvec cdiag /cdesign tr_block_mx mulmx_block !mulmx0 !addr0 !add0r mul_block_col scale_col_mx.
have ent (A : 'M[RR]_(M, n)) (v : 'I_M -> RR) a b : (A^T *m diag_mx d *m (\col_i v i)) a b = \sum_i (2%:R * beta * cs (crow_of i)) * (A i a * v i).
  by rewrite mul_mx_diag mxE; apply: eq_bigr => i _; rewrite !mxE mulrAC mulrC.
have S f : \sum_(rk <- ranks) \sum_(r <- rk) f r = \sum_i f (crow_of i) :> RR by rewrite -big_flatten E big_tnth.
have tN (A : 'M[RR]_(M, n)) : (- A)^T = - A^T by apply/matrixP => i j; rewrite !mxE.
congr col_mx; apply/matrixP => a b.
- rewrite addE !ent scaE mxE S mulr_sumr -big_split /=; apply: eq_bigr => i _; rewrite !mxE.
  by rewrite -mulrDr mulrA.
- rewrite tN !mulNmx addE oppE !ent scaE mxE S mulr_sumr -sumrN -big_split /=; apply: eq_bigr => i _; rewrite !mxE.
  by rewrite mulrA mulrBr addrC.
Qed.
End Complex.

Section CMarg.
Variables (chol : forall m, 'M[RR]_m -> option 'M[RR]_m) (pinvh : forall m, 'M[RR]_m -> 'M[RR]_m).
Variables (n : nat) (acut kcut : RR).
Implicit Type alpha : 'I_(n + n) -> RR.
Theorem C82_expand (ranks : seq (seq (crow RR n))) alpha : chol_ok chol -> pinvh_ok pinvh ->
  let dat := flatten ranks in let act := act_of acut kcut (cKtK ranks) alpha in
  all (fun r => 0 < cs r) dat -> all (fun r => cw r == 1) dat -> (forall i, act i -> 0 < alpha i) ->
  expx_log_marg_lik rln PI chol pinvh acut kcut ranks alpha = cmodel_evidence 1 dat act alpha.
Proof.
move=> Hchol Hpinvh dat act Hs Hw Ha.
have p_gt0 (i : 'I_(size dat + size dat)) : 0 < cprec 1 i.
  by rewrite /cprec mulr1; apply: mulr_gt0; [rewrite ltr0n | apply: (all_row Hs)].
have HG : (cfac RR true * 1) *: cKtK ranks = gram (@cprec _ 1 dat) (cdesign dat) by apply: cgram.
have Hy : (cfac RR true * 1) *: cy ranks = gvec (@cprec _ 1 dat) (cdesign dat) (ctargets dat) by apply: cgvec.
have := alpha_partE Hchol Hpinvh p_gt0 HG Hy ltr01 Ha; rewrite -/act /cfac.
rewrite big_split_ord [X in _ + X - _]big_split_ord /=.
have -> : \sum_(i < size dat) rln (cprec 1 (rshift (size dat) i)) = \sum_(r <- dat) rln (2%:R * cs r).
  by rewrite [RHS]big_tnth; apply: eq_bigr => i _; rewrite /cprec fold_r mulr1.
have -> : \sum_(i < size dat) rln (cprec 1 (lshift (size dat) i)) = \sum_(r <- dat) rln (2%:R * cs r).
  by rewrite [RHS]big_tnth; apply: eq_bigr => i _; rewrite /cprec fold_l mulr1.
have -> : \sum_(i < size dat) cprec 1 (lshift (size dat) i) * ctargets dat (lshift (size dat) i) 0 ^+ 2 = 2%:R * \sum_(r <- dat) cs r * cyr r ^+ 2.
  by rewrite [X in _ = _ * X]big_tnth mulr_sumr; apply: eq_bigr => i _; rewrite /cprec fold_l mulr1 col_mxEu mxE mulrA.
have -> : \sum_(i < size dat) cprec 1 (rshift (size dat) i) * ctargets dat (rshift (size dat) i) 0 ^+ 2 = 2%:R * \sum_(r <- dat) cs r * cyi r ^+ 2.
  by rewrite [X in _ = _ * X]big_tnth mulr_sumr; apply: eq_bigr => i _; rewrite /cprec fold_r mulr1 col_mxEd mxE mulrA.
move=> E; rewrite /expx_log_marg_lik.
have -> : expx_data_part rln PI ranks = - ((size dat)%:R * rln (2%:R * (PI : RR)))
   + (\sum_(r <- dat) rln (2%:R * cs r)) - ((\sum_(r <- dat) cs r * cyr r ^+ 2) + \sum_(r <- dat) cs r * cyi r ^+ 2).
  rewrite /expx_data_part -sum_const_seq -big_split -!sumrN -!big_split /=.
  under eq_bigr do rewrite -!sumrN -big_split /=.
  rewrite -big_flatten; apply: (@sum_row _ (predI (fun r => 0 < cs r) (fun r => cw r == 1))).
    by rewrite all_predI Hs.
  have pi0 : 0 < (PI : RR) by apply/RltP; exact: PI_RGT_0.
  have t0 : 0 < 2%:R :> RR by rewrite ltr0n.
  move=> r /andP[/= H1 /eqP ->]; rewrite mulrDr divr1 !mul1r rln_div // (rlnM t0 pi0) (rlnM t0 H1); congr (_ - _).
  exact: l_ring.
apply: (@mulfI _ 2%:R); first by rewrite pnatr_eq0.
rewrite mulrDr E /cmodel_evidence /gauss_ln -/dat -/act.
rewrite mulrN [2%:R * (_ / _)]mulrC divfK ?pnatr_eq0 // natrD.
exact: x_ring.
Qed.
End CMarg.
