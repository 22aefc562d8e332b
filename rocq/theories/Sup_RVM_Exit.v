(* C84: the weights which opt_alpha_beta leaves behind; examples for C84, C85 and C88. *)
From Coq Require Import Reals Lra.
From Verif Require Import Base Fld Numq Rstruct Calc Sup_Model Sup_Fit_Model Sup_Ev_Alg Sup_RVM_Model Sup_RVM_Core Sup_RVM_Ev Sup_RVM_Marg Sup_RVM_Step Sup_RVM_Props Sup_RVM_Ex Sup_RVM_Ex2 Sup_RVM_Der Sup_RVM_Noise_Model Sup_RVM_Noise Sup_RVM_Noise_Ex Sup_RVM_AlphaDer Sup_RVM_Hyper_Model Sup_RVM_Hyper Sup_RVM_Hyper_Props Sup_RVM_Fixed.
Import Num.Theory Order.TTheory.
Local Open Scope ring_scope.

(* the regularised least-squares weights of the active features for the precisions alpha and beta *)
Definition posterior_mean n (acut kcut : RR) (KtK : 'M[RR]_n) (y : 'cV[RR]_n) (alpha : 'I_n -> RR) (beta : RR) (w : 'cV[RR]_n) : Prop :=
  forall i, if act_of acut kcut KtK alpha i then beta * (\sum_j KtK i j * w j 0) + alpha i * w i 0 = beta * y i 0 else w i 0 = 0.

Section Real.
Variables (chol : forall m, 'M[RR]_m -> option 'M[RR]_m) (pinvh : forall m, 'M[RR]_m -> 'M[RR]_m).
Hypotheses (Hchol : chol_ok chol) (Hpinvh : pinvh_ok pinvh).
Variables (n : nat) (acut kcut tol : RR) (ranks : seq (seq (frow RR n))).
Notation dat := (flatten ranks).
Notation KtK := (KtK_of idm ranks).
Notation y := (y_of idm ranks).
Hypotheses (k0 : 0 <= kcut) (c0 : 0 < acut) (Hs : all (fun r => 0 < fs r) dat).
Lemma weights_mean alpha beta : (forall i, 0 < alpha i) -> 0 < beta ->
  posterior_mean acut kcut KtK y alpha beta (weights chol pinvh false acut kcut beta KtK y alpha).
Proof.
move=> Ha Hb i; set act := act_of acut kcut KtK alpha; have pa j : act j -> 0 < alpha j by [].
have p0 := rp_gt0 Hb Hs; have G := rHG beta ranks.
set w := weights _ _ _ _ _ _ _ _ _; have wE j : w j 0 = \sum_(k < #|act| | enum_val k == j) wA chol pinvh false acut kcut beta KtK y alpha k 0 by rewrite mxE.
case: ifP => Hi; last first.
  by rewrite wE big_pred0 // => k; apply/negbTE/eqP => E; move: (enum_valP k); rewrite E -[_ \in _]/(act i) Hi.
have AW : Aact false acut kcut beta KtK alpha *m wA chol pinvh false acut kcut beta KtK y alpha = beta *: sub_vec act y.
  have -> : wA chol pinvh false acut kcut beta KtK y alpha = beta *: (Smat (factor_of chol pinvh false acut kcut beta KtK alpha) *m sub_vec act y).
    by rewrite /wA; case: (factor_of _ _ _ _ _ _ _ _) => X /=; rewrite ?mulmxA.
  by rewrite (SmatE Hchol Hpinvh p0 G Hb pa) -scalemxAr mulKVmx // (Aact_unit p0 G).
have /matrixP/(_ (enum_rank_in Hi i) 0) := AW.
rewrite scaE [sub_vec _ _ _ _]mxE enum_rankK_in // => <-; rewrite [RHS]mxE.
have -> : \sum_j KtK i j * w j 0 = \sum_(k < #|act|) KtK i (enum_val k) * wA chol pinvh false acut kcut beta KtK y alpha k 0.
  transitivity (\sum_j \sum_(k < #|act| | enum_val k == j) KtK i (enum_val k) * wA chol pinvh false acut kcut beta KtK y alpha k 0).
    by apply: eq_bigr => j _; rewrite wE mulr_sumr; apply: eq_bigr => k /eqP ->.
  rewrite (exchange_big_dep predT) //=; apply: eq_bigr => k _; by rewrite (big_pred1 (enum_val k)) // => j; rewrite eq_sym.
have -> : w i 0 = wA chol pinvh false acut kcut beta KtK y alpha (enum_rank_in Hi i) 0.
  rewrite wE (big_pred1 (enum_rank_in Hi i)) => [//|k].
  by rewrite -[pred1 _ k]/(k == enum_rank_in Hi i) -(inj_eq enum_val_inj) enum_rankK_in.
rewrite mulr_sumr [RHS](bigD1 (enum_rank_in Hi i)) //= (bigD1 (enum_rank_in Hi i)) //=.
have AE k l : Aact false acut kcut beta KtK alpha k l = beta * KtK (enum_val k) (enum_val l) + (if k == l then alpha (enum_val k) else 0).
  by rewrite !mxE (inj_eq enum_val_inj) /al_eff.
move: (wA _ _ _ _ _ _ _ _ _) => v; rewrite AE eqxx enum_rankK_in // mulrDl mulrA -!addrA; congr (_ + _).
rewrite addrC; congr (_ + _); apply: eq_bigr => k Nk; rewrite AE enum_rankK_in // eq_sym (negbTE Nk) addr0.
by rewrite mulrA.
Qed.
(* the weights on exit belong to hyperparameters one update earlier, unless that update changed nothing *)
Theorem C84_partial (opt_alpha opt_beta rvm : bool) fuel max (st st' : hyper RR n) :
  (opt_beta -> all (fun r => fs r == 1) dat /\ has (fun r => fy r != 0) dat) ->
  h_sa st = h_alpha st -> h_sb st = h_beta st -> (forall i, 0 < h_alpha st i) -> 0 < h_beta st ->
  opt_alpha_beta chol pinvh false acut kcut tol KtK y ranks opt_alpha opt_beta rvm fuel max st = Done st' ->
  exists alpha beta, posterior_mean acut kcut KtK y alpha beta (h_weights chol pinvh false acut kcut KtK y st') /\
    ((alpha = h_alpha st' /\ beta = h_beta st') \/
     update chol pinvh false acut kcut KtK y ranks opt_alpha opt_beta rvm (Hyper alpha beta alpha beta) = Some st').
Proof.
move=> Hb E1 E2 A0 B0; rewrite /opt_alpha_beta; case: ifP => [_ E|_ [<-]]; last first.
  exists (h_alpha st), (h_beta st); split; last by left.
  by rewrite /h_weights E1 E2; apply: weights_mean.
have : sane acut st (passes chol pinvh false acut kcut tol KtK y ranks opt_alpha opt_beta rvm fuel max 0 st).
  apply: (@passesP chol pinvh Hchol Hpinvh _ _ (fun b => @prec _ b dat) (design dat)) => //.
  - by move=> b i b0; apply: rp_gt0.
  - by move=> b; apply: rHG.
  by move=> ob s1 F1 P1; have [H1 H2] := Hb ob; apply: beta_updateP.
rewrite E => -[_ S1 S2 _]; exists (h_sa st'), (h_sb st'); split; first exact: weights_mean.
exact: passes_exit (conj E1 E2) E.
Qed.
(* when the last update changed nothing they are those of the hyperparameters on exit *)
Corollary C84_fixed_point (opt_alpha opt_beta rvm : bool) fuel max (st st' : hyper RR n) :
  (opt_beta -> all (fun r => fs r == 1) dat /\ has (fun r => fy r != 0) dat) ->
  h_sa st = h_alpha st -> h_sb st = h_beta st -> (forall i, 0 < h_alpha st i) -> 0 < h_beta st ->
  opt_alpha_beta chol pinvh false acut kcut tol KtK y ranks opt_alpha opt_beta rvm fuel max st = Done st' ->
  (forall alpha beta, update chol pinvh false acut kcut KtK y ranks opt_alpha opt_beta rvm (Hyper alpha beta alpha beta) = Some st' ->
     h_alpha st' = alpha /\ h_beta st' = beta) ->
  posterior_mean acut kcut KtK y (h_alpha st') (h_beta st') (h_weights chol pinvh false acut kcut KtK y st').
Proof.
by move=> Hb E1 E2 A0 B0 E H; have [a [b [P [[<- <-]|/H[-> ->]]]]] := C84_partial Hb E1 E2 A0 B0 E.
Qed.
End Real.

(* the Cholesky factor of a diagonal matrix exists *)
Lemma chol1_h n pinvh (expand : bool) acut kcut (KtK : 'M[RR]_n) (st : hyper RR n) : (forall i j, i != j -> KtK i j = 0) ->
  (forall i, 0 < h_sb st * KtK i i + al_eff expand (h_sa st) i) -> [exists i, h_act acut kcut KtK st i] ->
  h_chol chol1 pinvh expand acut kcut KtK st.
Proof.
move=> H0 H1 /existsP[i Hi]; rewrite /h_chol /factor_of.
have -> : (#|act_of acut kcut KtK (h_sa st)| == 0)%N = false.
  by apply/negbTE; rewrite -lt0n; apply/card_gt0P; exists i.
suff -> : chol1 (Aact expand acut kcut (h_sb st) KtK (h_sa st)) = Some (diag_mx (\row_k (sqrt (Aact expand acut kcut (h_sb st) KtK (h_sa st) k k) : RR))) by [].
rewrite /chol1; case: ifP => // /negP[]; apply/andP; split; apply/forallP => k; last by rewrite !mxE eqxx.
apply/forallP => l; apply/implyP => N; have N' : enum_val k != enum_val l by rewrite (inj_eq enum_val_inj).
by rewrite !mxE (negbTE N') addr0 H0 // mulr0.
Qed.

(* K = 1, target 2 *)
Section Wit.
Variables (a b : RR).
Hypotheses (a0 : 0 < a) (a1 : a < 10%:R) (b0 : 0 < b).
Notation inv := (fun m (A : 'M[RR]_m) => invmx A).
Definition rst : hyper RR 1 := Hyper (fun=> a) b (fun=> a) b.
Lemma rst_act i : h_act 10%:R 0 rK rst i. Proof. by rewrite /h_act r_act. Qed.
Lemma rst_fresh : fresh rst. Proof. by []. Qed.
Lemma rst_some : [exists i, h_act 10%:R 0 rK rst i]. Proof. by apply/existsP; exists ord0; apply: rst_act. Qed.
Lemma rst_chol : h_chol chol1 inv false 10%:R 0 rK rst.
Proof.
apply: chol1_h rst_some => [i j|i]; first by rewrite [i]ord1 [j]ord1 eqxx.
by rewrite rKE mulr1 /al_eff /= addr_gt0.
Qed.
Lemma rst_gamma i : h_gamma chol1 inv false 10%:R 0 rK rst i = 1 - a / (a + b).
Proof.
have p0 b' i' : 0 < b' -> 0 < @prec _ b' (flatten r_ranks) i' by move=> h; apply: (rp_gt0 h r_pos).
have Hp : positive rst by [].
have Hi : act_of 10%:R 0 rK (h_alpha rst) i by exact: rst_act.
rewrite (h_gammaE chol1_ok invmx_ok p0 (fun b' => rHG b' r_ranks) rst_fresh Hp Hi).
by have [-> _] := @r_sl b (fun=> a) b0 a0 i.
Qed.
Lemma rst_w i : h_weights chol1 inv false 10%:R 0 rK rY rst i 0 = b * 2%:R / (a + b).
Proof. exact: (@r_weights chol1 inv chol1_ok invmx_ok b (fun=> a) b0 a0 a1 i). Qed.
Lemma rst_entry rvm i : alpha_entry chol1 inv false 10%:R 0 rK rY rvm rst i =
  clip_div 10%:R (1 - a / (a + b)) (b * 2%:R / (a + b) * (b * 2%:R / (a + b))).
Proof.
rewrite /alpha_entry rst_act rst_gamma rst_w /sum_gamma (eq_bigl predT) => [|j]; last exact: rst_act.
by rewrite !big_ord1 rst_gamma rst_w; case: rvm.
Qed.
End Wit.

Lemma clip_half : clip_div 10%:R (1 - 1 / (1 + 1)) (1 * 2%:R / (1 + 1) * (1 * 2%:R / (1 + 1))) = Some (2%:R^-1 : RR).
Proof.
have -> : 1 - 1 / (1 + 1) = 2%:R^-1 :> RR by numq RR.
have -> : 1 * 2%:R / (1 + 1) * (1 * 2%:R / (1 + 1)) = 1 :> RR by numq RR.
rewrite /clip_div oner_eq0 divr1 /clip max_l ?invr_ge0 ?ler0n // min_l //; numq RR.
Qed.
(* one pass from alpha = beta = 1: the precision becomes 1/2, the weight stays 1; for precision 1/2 it is 4/3 *)
Lemma r_pass rvm : exists2 st', opt_alpha_beta chol1 (fun m A => invmx A) false 10%:R 0 0 rK rY r_ranks true false rvm 1 (Some 1%N) (rst 1 1) = Done st' &
  [/\ forall i, h_alpha st' i = 2%:R^-1, h_beta st' = 1 & forall i, h_weights chol1 (fun m A => invmx A) false 10%:R 0 rK rY st' i 0 = 1].
Proof.
have t1 : (1 : RR) < 10%:R by numq RR.
have E i : alpha_entry chol1 (fun m A => invmx A) false 10%:R 0 rK rY rvm (rst 1 1) i = Some 2%:R^-1.
  by rewrite rst_entry ?ltr01 // clip_half.
rewrite /opt_alpha_beta /= rst_some // /update /alpha_update rst_chol ?ltr01 //.
have -> : [forall i, alpha_entry chol1 (fun m A => invmx A) false 10%:R 0 rK rY rvm (rst 1 1) i : bool] by apply/forallP => i; rewrite E.
rewrite orbT; eexists; first reflexivity; split=> // i /=; first by rewrite E.
by have := @rst_w 1 1 ltr01 t1 ltr01 i; rewrite /h_weights /= => ->; numq RR.
Qed.
Theorem C84_refuted : exists (ranks : seq (seq (frow RR 1))) (acut tol : RR) (max : option nat) (st st' : hyper RR 1),
  [/\ all (fun r => 0 < fs r) (flatten ranks), h_sa st = h_alpha st /\ h_sb st = h_beta st, forall i, 0 < h_alpha st i < acut, 0 < h_beta st &
  opt_alpha_beta chol1 (fun m A => invmx A) false acut 0 tol (KtK_of idm ranks) (y_of idm ranks) ranks true false true 1 max st = Done st' /\
  ~ posterior_mean acut 0 (KtK_of idm ranks) (y_of idm ranks) (h_alpha st') (h_beta st')
      (h_weights chol1 (fun m A => invmx A) false acut 0 (KtK_of idm ranks) (y_of idm ranks) st')].
Proof.
have [st' E [A B W]] := r_pass true.
exists r_ranks, 10%:R, 0, (Some 1%N), (rst 1 1), st'; split=> //.
- by rewrite /= ltr01.
- by move=> i; apply/andP; split=> /=; [exact: ltr01 | numq RR].
- exact: ltr01.
split=> // /(_ ord0); rewrite r_act A; have -> : (2%:R^-1 : RR) < 10%:R by numq RR.
rewrite big_ord1 rKE rYE B W; apply/eqP; numq RR.
Qed.
(* C84_partial on this run: the weight 1 is the posterior mean for alpha = 1 *)
Example C84_ex : posterior_mean 10%:R 0 rK rY (fun=> 1) 1 (h_weights chol1 (fun m A => invmx A) false 10%:R 0 rK rY (rst 1 1)).
Proof. by apply: (weights_mean chol1_ok invmx_ok) => [|i|]; [exact: r_pos | exact: ltr01 | exact: ltr01]. Qed.
(* alpha = beta = 1/2 is a fixed point of both updates, and the likelihood is stationary there *)
Example C85_ex : exists2 st', update chol1 (fun m A => invmx A) false 10%:R 0 rK rY r_ranks true true true (rst 2%:R^-1 2%:R^-1) = Some st' &
  [/\ h_alpha st' ord0 = 2%:R^-1, h_beta st' = 2%:R^-1,
  der (fun x => log_log_marg_lik rln PI chol1 (fun m A => invmx A) 10%:R 0 false 2%:R (1 / 2%:R) r_ranks (upd (fun=> 2%:R^-1) ord0 x)) 2%:R^-1 0 &
  der (fun v => log_log_marg_lik rln PI chol1 (fun m A => invmx A) 10%:R 0 false v (1 / v) r_ranks (fun=> 2%:R^-1)) 2%:R 0].
Proof.
set h := 2%:R^-1; have h0 : 0 < h by rewrite /h; numq RR.
have h1 : h < 10%:R by rewrite /h; numq RR.
have E i : alpha_entry chol1 (fun m A => invmx A) false 10%:R 0 rK rY true (rst h h) i = Some h.
  rewrite rst_entry //; have -> : 1 - h / (h + h) = 2%:R^-1 by rewrite /h; numq RR.
  have -> : h * 2%:R / (h + h) * (h * 2%:R / (h + h)) = 1 by rewrite /h; numq RR.
  by rewrite /clip_div oner_eq0 divr1 -/h /clip max_l ?ltW // min_l // ltW.
have Ea : alpha_update chol1 (fun m A => invmx A) false 10%:R 0 rK rY true (rst h h) = Some (fun i => odflt 0 (alpha_entry chol1 (fun m A => invmx A) false 10%:R 0 rK rY true (rst h h) i)).
  rewrite /alpha_update rst_chol //; case: ifP => // /negP[]; apply/forallP => i; by rewrite E.
have Ht : has (fun r => fy r != 0) (flatten r_ranks) by rewrite /= pnatr_eq0.
have Hp : positive (rst h h) by [].
have Eb : beta_update chol1 (fun m A => invmx A) false 10%:R 0 rK rY r_ranks (rst h h) = Some h.
  rewrite (beta_updateE chol1_ok invmx_ok r_unit (rst_fresh h h) Hp) //; last exact: rst_chol.
  rewrite /sum_gamma (eq_bigl predT) => [|j]; last exact: rst_act.
  rewrite big_ord1 rst_gamma // /sqe /= big_cons big_nil addr0 /linear_pred mxE big_ord1 mxE.
  have := @rst_w h h h0 h1 h0 ord0; rewrite /h_weights /= => ->; congr Some.
  rewrite real_normK ?num_real // /h; numq RR.
have Ih : 1 / h = 2%:R by rewrite /h; numq RR.
eexists; first by rewrite /update Ea Eb.
have EE : odflt 0 (alpha_entry chol1 (fun m A => invmx A) false 10%:R 0 rK rY true (rst h h) ord0) = h by rewrite E.
split=> //.
- have A1 : act_of 10%:R 0 rK (fun=> h) ord0 by rewrite r_act.
  have := C85_rvm_log chol1_ok invmx_ok (lexx 0) r_unit (fun=> h0) h0 (rst_chol h0 h1 h0) Ea A1.
  by rewrite Ih => -[H _]; apply: H; exact: EE.
- have := C85_beta chol1_ok invmx_ok r_unit (fun=> h0) h0 (rst_chol h0 h1 h0) Ht Eb.
  by rewrite Ih => -[H _]; apply: H.
Qed.
(* complex_expand with opt_beta *)
Theorem C85_expand_refuted : exists (ranks : seq (seq (crow RR 1))) (data : seq (seq (frow RR 1))) (st : hyper RR (1 + 1)),
  [/\ all (fun r => 0 < cs r) (flatten ranks), h_sa st = h_alpha st /\ h_sb st = h_beta st, forall i, 0 < h_alpha st i < 10%:R, 0 < h_beta st &
  opt_alpha_beta chol1 (fun m A => invmx A) true 10%:R 0 0 (cKtK ranks) (cy ranks) data false true true 1 (Some 1%N) st = Bad _ _].
Proof.
exists x_ranks, r_ranks, (Hyper (fun=> 1) 1 (fun=> 1) 1); split=> //=; rewrite ?ltr01 //; first by move=> i; rewrite /=; numq RR.
have Hx : [exists i, h_act 10%:R 0 xK (Hyper (fun=> 1) 1 (fun=> 1) 1) i].
  by apply/existsP; exists x0; rewrite /h_act x_act /=; numq RR.
rewrite /opt_alpha_beta /= Hx /update C85_expand_fails //.
apply: chol1_h Hx => [i j|i].
  by case: (x_cases i) => ->; case: (x_cases j) => ->; rewrite ?xK01 ?xK10 // eqxx.
by case: (x_cases i) => -> /=; rewrite ?xK00 ?xK11 /al_eff; numq RR.
Qed.
(* C88 on the pass of r_pass *)
Example C88_ex : exists2 st', opt_alpha_beta chol1 (fun m A => invmx A) false 10%:R 0 0 rK rY r_ranks true false true 1 (Some 1%N) (rst 1 1) = Done st' &
  0 < h_alpha st' ord0 /\ h_alpha st' ord0 <= 10%:R.
Proof. by have [st' E [A _ _]] := r_pass true; exists st' => //; rewrite A; split; numq RR. Qed.
