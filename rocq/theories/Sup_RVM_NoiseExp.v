(* C87: log_marg_lik_noise_der of QGPSLearningExp against the derivative of log_marg_lik. *)
From Coq Require Import Reals Lra.
From Verif Require Import Base Fld Numq Rstruct Calc Sup_Model Sup_Fit_Model Sup_Ev_Alg Sup_RVM_Model Sup_RVM_Core Sup_RVM_Ev Sup_RVM_Marg Sup_RVM_Step Sup_RVM_Props Sup_RVM_Der Sup_RVM_Noise_Model Sup_RVM_Noise.
Import Num.Theory Order.TTheory.
Local Open Scope ring_scope.

Definition rsqrt (x : RR) : RR := sqrt x.
Lemma rsqrt_gt0 x : 0 < x -> 0 < rsqrt x. Proof. by move=> /RltP H; apply/RltP; apply: sqrt_lt_R0. Qed.
Lemma rsqrt_sq x : 0 <= x -> rsqrt x ^+ 2 = x.
Proof. by move=> /RleP H; rewrite expr2; exact: sqrt_sqrt. Qed.
Lemma rsqrt_uniq x y : 0 <= y -> y ^+ 2 = x -> rsqrt x = y.
Proof. by move=> /RleP H <-; rewrite /rsqrt expr2; exact: sqrt_square. Qed.
Lemma rsqrt_gt1 x : 1 < x -> 1 < rsqrt x.
Proof.
move=> H; have x0 : 0 < x := lt_trans ltr01 H; have s0 := rsqrt_gt0 x0.
rewrite ltNge; apply/negP => L; move: H; rewrite ltNge; case/negP.
by rewrite -(rsqrt_sq (ltW x0)) expr2 -[1]mulr1 ler_pmul // ltW.
Qed.
Lemma der_sqrt f x l : 0 < f x -> der f x l -> der (fun a => rsqrt (f a)) x (l / (2%:R * rsqrt (f x))).
Proof.
move=> /RltP H D; have := derivable_pt_lim_comp _ _ _ _ _ D (derivable_pt_lim_sqrt _ H).
rewrite Rinv_mc => H1; apply: der_eq H1 _.
rewrite -[LHS]/((Rmult (IZR 2) (rsqrt (f x)))^-1 * l) mulrC; congr (_ / _).
Qed.
Lemma rln_gt0 (x : RR) : 1 < x -> 0 < rln x.
Proof.
move=> H; have x0 : 0 < x := lt_trans ltr01 H.
have := rln_le_pred (_ : 0 < x^-1); rewrite invr_gt0 rlnV // => /(_ x0) h.
rewrite -oppr_lt0; apply: le_lt_trans h _; by rewrite subr_lt0 invf_lt1.
Qed.
(* a differentiable function stays on one side of a value it does not take *)
Lemma der_stay f x l (k : RR) : der f x l -> k < f x -> exists lo hi, [/\ lo < x, x < hi & forall a, lo < a -> a < hi -> k < f a].
Proof.
move=> D /RltP K.
have C : continuity_pt f x by apply: derivable_continuous_pt; exists l.
have [d [d0 Hd]] := C (Rminus (f x) k) (Rlt_Rminus _ _ K).
exists (x - d), (x + d); split.
- by apply/RltP; rewrite -[x - d]/(Rminus x d); lra.
- by apply/RltP; rewrite -[x + d]/(Rplus x d); lra.
move=> a /RltP A1 /RltP A2; have A1' : Rlt (Rminus x d) a := A1; have A2' : Rlt a (Rplus x d) := A2.
case: (Req_dec x a) => [<-|N]; first exact/RltP.
have H1 : Rlt (Rabs (Rminus (f a) (f x))) (Rminus (f x) k).
  apply: (Hd a); split; first by split.
  rewrite /dist /= /R_dist; apply: Rabs_def1; lra.
apply/RltP; have [_ H2] := Rabs_def2 _ _ H1; lra.
Qed.

Section Cast.
Variables (n : nat) (beta : RR) (act : pred 'I_n) (al : 'I_n -> RR).
Lemma ev_cast (dat : seq (frow RR n)) N (e : size dat = N) (p : 'I_N -> RR) (Phi : 'M[RR]_(N, n)) (t : 'cV[RR]_N) :
  (forall i, p i = beta * fs (row_of (cast_ord (esym e) i))) ->
  (forall i j, Phi i j = fk (row_of (cast_ord (esym e) i)) 0 j) ->
  (forall i, t i 0 = fy (row_of (cast_ord (esym e) i))) ->
  model_evidence beta dat act al = gauss_ln (Cov p Phi act al) t.
Proof.
case: N / e p Phi t => p Phi t H1 H2 H3; rewrite /model_evidence.
have -> : t = targets dat by apply/matrixP => i j; rewrite [j]ord1 H3 !mxE cast_ord_id.
have -> : Phi = design dat by apply/matrixP => i j; rewrite H2 !mxE cast_ord_id.
congr gauss_ln; rewrite /Cov; congr (_ + _); congr diag_mx; apply/rowP => i; by rewrite !mxE H1 cast_ord_id.
Qed.
Lemma ev_map T (rows : seq T) (f : T -> frow RR n) :
  model_evidence beta [seq f r | r <- rows] act al =
  gauss_ln (Cov (fun i : 'I_(size rows) => beta * fs (f (tnth (in_tuple rows) i)))
                (\matrix_(i, j) fk (f (tnth (in_tuple rows) i)) 0 j) act al)
           (\col_i fy (f (tnth (in_tuple rows) i))).
Proof.
have E i : @row_of n [seq f r | r <- rows] (cast_ord (esym (size_map f rows)) i) = f (tnth (in_tuple rows) i).
  have r0 := tnth (in_tuple rows) i.
  by rewrite /row_of (tnth_nth (f r0)) /= (nth_map r0) // -(tnth_nth r0 (in_tuple rows)).
apply: (ev_cast (e := size_map f rows)) => [i|i j|i]; rewrite ?mxE E //.
Qed.
End Cast.

Section Field.
Variable F : fieldType.
Add Field FN : (f_theory F).
Lemma nx_dir (a nu L : F) : a != 0 -> 1 + nu / a != 0 -> L != 0 ->
  - (a^-1 / (1 + nu / a)) / L ^+ 2 = - ((1 / L * 1) ^+ 2 * (1 / (a * (1 + nu / a)))) / 1.
Proof.
move=> a0 H L0; have H1 : a + nu != 0 by apply: contraNneq H => E; rewrite -[1](divff a0) -mulrDl E mul0r.
have -> : 1 + nu / a = (a + nu) / a by rewrite mulrDl divff.
rewrite invf_div divr1 mulr1 [a * (_ / a)]mulrC divfK // !div1r.
by move: a0 H1 L0; rewrite !expr2 => /eqP a0 /eqP H1 /eqP L0; mfield F.
Qed.
Lemma nx_it (q s L : F) : q != 0 -> s != 0 -> 1 + s != 0 -> L != 0 -> 2%:R != 0 :> F ->
  - (4%:R / q / (2%:R * s) / (1 + s)) / L ^+ 2 = - ((1 / L * 1) ^+ 2 * (1 / (s + 1) * 2%:R / (q * s))) / 1.
Proof.
move=> q0 s0 s1 L0 two; rewrite [s + 1]addrC (_ : 4%:R = 2%:R * 2%:R); last by rewrite -natrM.
move: two; move: (2%:R : F) => t two; rewrite divr1 mulr1 !div1r.
by move: q0 s0 s1 L0 two; rewrite !expr2 => /eqP q0 /eqP s0 /eqP s1 /eqP L0 /eqP two; mfield F.
Qed.
End Field.

Section Rows.
Variables (n : nat) (iter_est rewt : bool).
Definition row_ok (r : nrow RR n) : bool := [&& 0 < na r, 0 < npd r, 0 < nrw r & nw r == 1].
Notation s := (s_diag rln rsqrt iter_est rewt).
Lemma amp2_gt0 r : row_ok r -> 0 < amp2 rewt r.
Proof. by case/and4P => H1 _ H2 _; rewrite /amp2; case: rewt => //; rewrite divr_gt0. Qed.
Lemma half_gt (x : RR) : 1 < x -> 0 < rln (1 + x) + rln (1 / 2%:R).
Proof.
move=> H; have x0 : 0 < 1 + x by rewrite addr_gt0 ?ltr01 // (lt_trans ltr01).
rewrite -rlnM ?divr_gt0 ?ltr01 ?ltr0n //; apply: rln_gt0; rewrite div1r ltr_pdivl_mulr ?ltr0n // mul1r.
by rewrite -[2%:R]/(1 + 1) ltr_add2l.
Qed.
Lemma sq_gt1 (nu q : RR) : 0 < nu -> 0 < q -> 1 < rsqrt (4%:R * nu / q + 1).
Proof. by move=> n0 q0; apply: rsqrt_gt1; rewrite ltr_addr divr_gt0 // mulr_gt0 ?ltr0n. Qed.
Lemma log1_gt0 (nu a : RR) : 0 < nu -> 0 < a -> 0 < rln (1 + nu / a).
Proof. by move=> n0 a0; apply: rln_gt0; rewrite ltr_addl divr_gt0. Qed.
Lemma s_gt0 nu r : row_ok r -> 0 < nu -> 0 < s nu r.
Proof.
move=> H n0; have A := amp2_gt0 H; case/and4P: H => _ P _ /eqP E; rewrite /s_diag E mulr1.
by case: iter_est; rewrite divr_gt0 ?ltr01 //; [apply: half_gt; apply: sq_gt1 | apply: log1_gt0].
Qed.
Lemma del_gt0 nu r : row_ok r -> 0 < nu -> 0 < del_S rsqrt iter_est rewt nu r.
Proof.
move=> H n0; have A := amp2_gt0 H; case/and4P: H => _ P W _; rewrite /del_S.
have Q : 0 < (if rewt then npd r / nrw r else npd r) by case: rewt => //; rewrite divr_gt0.
case: iter_est; last by rewrite divr_gt0 ?ltr01 // mulr_gt0 // addr_gt0 ?ltr01 ?divr_gt0.
have S := lt_trans ltr01 (sq_gt1 n0 Q).
by rewrite !mulr_gt0 ?ltr0n ?invr_gt0 ?mulr_gt0 ?addr_gt0 ?ltr01.
Qed.
Lemma Delta_lt0 nu r : row_ok r -> 0 < nu -> Delta_S rln rsqrt iter_est rewt nu r < 0.
Proof.
move=> H n0; have D := del_gt0 H n0; have S := s_gt0 H n0; case/and4P: H => _ _ _ /eqP E.
by rewrite /Delta_S E divr1 oppr_lt0 mulr_gt0 // exprn_gt0.
Qed.
(* Delta_S is the derivative of S_diag, except for iterative_noise_est together with noise_reweighting *)
Lemma s_der nu r : ~~ (iter_est && rewt) -> row_ok r -> 0 < nu ->
  der (fun a => s a r) nu (Delta_S rln rsqrt iter_est rewt nu r).
Proof.
move=> M H n0; have A := amp2_gt0 H; case/and4P: H => _ P _ /eqP E; rewrite /Delta_S /s_diag /del_S E.
case: iter_est M => /= M.
  rewrite (negbTE M); set q := npd r in P *.
  have S1 := sq_gt1 n0 P; have S0 := lt_trans ltr01 S1; have L := half_gt S1.
  have X0 : 0 < 4%:R * nu / q + 1 by rewrite addr_gt0 ?ltr01 // divr_gt0 // mulr_gt0 ?ltr0n.
  have D1 : der (fun a => 4%:R * a / q + 1) nu (4%:R / q).
    apply: der_eq (der_add (_ : der _ nu (4%:R / q)) (der_const 1 nu)) _; last by rewrite addr0.
    apply: der_ext (der_eq (der_scale (4%:R / q) (der_id nu)) _) => [a|]; last by rewrite mulr1.
    by rewrite mulrAC.
  pose f a : RR := 4%:R * a / q + 1.
  have Df : der f nu (4%:R / q) by [].
  have D2 : der (fun a => rsqrt (f a)) nu (4%:R / q / (2%:R * rsqrt (f nu))) by apply: der_sqrt.
  have D3 : der (fun a => 1 + rsqrt (f a)) nu (0 + 4%:R / q / (2%:R * rsqrt (f nu))) := der_add (der_const 1 nu) D2.
  have H3 : 0 < 1 + rsqrt (f nu) by rewrite addr_gt0 ?ltr01.
  pose g a : RR := rln (1 + rsqrt (f a)) + rln (1 / 2%:R).
  have D4 : der g nu ((0 + 4%:R / q / (2%:R * rsqrt (f nu))) / (1 + rsqrt (f nu)) + 0).
    have D5 := @der_ln (fun a => 1 + rsqrt (f a)) nu _ H3 D3.
    exact: (@der_add (fun a => rln (1 + rsqrt (f a))) (fun _ => rln (1 / 2%:R)) nu _ 0 D5 (der_const _ nu)).
  have H4 : g nu != 0 by rewrite gt_eqF.
  apply: der_ext (der_eq (der_inv H4 D4) _) => [a|]; first by rewrite mulr1 div1r.
  rewrite add0r addr0; apply: nx_it => //; rewrite ?pnatr_eq0 //; [exact: lt0r_neq0 P | exact: lt0r_neq0 S0 | exact: lt0r_neq0 H3].
have L := log1_gt0 n0 A; have X0 : 0 < 1 + nu / amp2 rewt r by rewrite addr_gt0 ?ltr01 ?divr_gt0.
have D1 : der (fun a => 1 + a / amp2 rewt r) nu (amp2 rewt r)^-1.
  apply: der_eq (der_add (der_const 1 nu) (_ : der _ nu (amp2 rewt r)^-1)) _; last by rewrite add0r.
  apply: der_ext (der_eq (der_scale (amp2 rewt r)^-1 (der_id nu)) _) => [a|]; last by rewrite mulr1.
  by rewrite mulrC.
pose g a : RR := 1 + a / amp2 rewt r.
have D2 : der (fun a => rln (g a)) nu ((amp2 rewt r)^-1 / g nu) by apply: der_ln.
have H2 : rln (g nu) != 0 by rewrite gt_eqF.
apply: der_ext (der_eq (der_inv (f := fun a => rln (g a)) H2 D2) _) => [a|]; first by rewrite mulr1 div1r.
by apply: nx_dir; rewrite gt_eqF.
Qed.
End Rows.

Lemma near_all (I : eqType) (s : seq I) (Q : I -> RR -> Prop) (x lo0 hi0 : RR) : lo0 < x -> x < hi0 ->
  (forall i, i \in s -> exists lo hi, [/\ lo < x, x < hi & forall a, lo < a -> a < hi -> Q i a]) ->
  exists lo hi, [/\ lo0 <= lo, hi <= hi0, lo < x, x < hi & forall a, lo < a -> a < hi -> forall i, i \in s -> Q i a].
Proof.
move=> l0 h0; elim: s => [_|i s IH H]; first by exists lo0, hi0; split.
have [j js|lo [hi [L1 H1 L2 H2 A]]] := IH; first by apply: H; rewrite inE js orbT.
have [|lo' [hi' [L3 H3 A']]] := H i; first by rewrite inE eqxx.
exists (Num.max lo lo'), (Num.min hi hi'); split.
- by rewrite le_maxr L1.
- by rewrite le_minl H1.
- by rewrite lt_maxl L2.
- by rewrite lt_minr H2.
move=> a; rewrite lt_maxl lt_minr => /andP[a1 a2] /andP[a3 a4] j; rewrite inE => /orP[/eqP ->|js].
  exact: A'.
exact: A.
Qed.

Section RingAux.
Variable A : comRingType.
Add Ring RA : (r_theory A).
Lemma nx_h (sd p t k : A) : - sd - p * (t - k) ^+ 2 = - sd - t * (p * t) - p * k ^+ 2 + 2%:R * (t * (p * k)).
Proof. rewrite !expr2 (_ : 2%:R = 1 + 1 :> A) //; mring A. Qed.
Lemma nx_f (u v : A) : u + v - 2%:R * u = v - u.
Proof. rewrite (_ : 2%:R = 1 + 1 :> A) //; mring A. Qed.
End RingAux.

Section ExpDer.
Variables (chol : forall m, 'M[RR]_m -> option 'M[RR]_m) (pinvh : forall m, 'M[RR]_m -> 'M[RR]_m).
Hypotheses (Hchol : chol_ok chol) (Hpinvh : pinvh_ok pinvh).
Variables (n : nat) (acut kcut : RR) (iter_est rewt : bool).
Variables (ranks : seq (seq (nrow RR n))) (alpha : 'I_n -> RR) (nu : RR).
Notation rows := (flatten ranks).
Notation N := (size rows).
Notation xr := (tnth (in_tuple rows)).
Notation s := (s_diag rln rsqrt iter_est rewt).
Notation D r := (Delta_S rln rsqrt iter_est rewt nu r).
Definition KtK_at (a : RR) : 'M[RR]_n :=
  KtK_of idm [seq [seq lr r | r <- rk] | rk <- nranks rln rsqrt iter_est rewt a ranks].
Definition y_at (a : RR) : 'cV[RR]_n :=
  y_of idm [seq [seq lr r | r <- rk] | rk <- nranks rln rsqrt iter_est rewt a ranks].
Notation act a := (act_of acut kcut (KtK_at a) alpha).
Hypotheses (Hmode : ~~ (iter_est && rewt)) (Hrows : all (@row_ok n) rows) (nu0 : 0 < nu).
Hypothesis Hk : forall i, alpha i < acut -> `|KtK_at nu i i| != kcut.
Hypothesis Ha : forall i, act nu i -> 0 < alpha i.

Lemma xr_ok i : row_ok (xr i). Proof. by have /all_tnthP := (Hrows : all _ (in_tuple rows)); apply. Qed.
Definition P (a : RR) (i : 'I_N) : RR := s a (xr i).
Definition Phi : 'M[RR]_(N, n) := \matrix_(i, j) nk (xr i) 0 j.
Definition tg : 'cV[RR]_N := \col_i ny (xr i).
Lemma sum_ranks (f : nrow RR n -> RR) : \sum_(rk <- ranks) \sum_(r <- rk) f r = \sum_(i < N) f (xr i).
Proof. by rewrite -big_flatten big_tnth. Qed.
Lemma KtKE a i j : KtK_at a i j = \sum_(l < N) nk (xr l) 0 i * (P a l * nk (xr l) 0 j).
Proof.
rewrite mxE /nranks -map_comp big_map -[RHS](sum_ranks (fun r => nk r 0 i * (s a r * nk r 0 j))).
by apply: eq_bigr => rk _ /=; rewrite -map_comp big_map.
Qed.
Lemma yE a i : y_at a i 0 = \sum_(l < N) nk (xr l) 0 i * (P a l * tg l 0).
Proof.
rewrite mxE /nranks -map_comp big_map.
transitivity (\sum_(rk <- ranks) \sum_(r <- rk) nk r 0 i * (s a r * ny r)).
  by apply: eq_bigr => rk _ /=; rewrite -map_comp big_map.
by rewrite sum_ranks; apply: eq_bigr => l _; rewrite mxE.
Qed.
Lemma xHG a : (cfac RR false * 1) *: KtK_at a = gram (P a) Phi.
Proof.
apply/matrixP => i j; rewrite !mul1r scale1r KtKE /gram mul_mx_diag mxE; apply: eq_bigr => l _.
by rewrite !mxE mulrA.
Qed.
Lemma xHy a : (cfac RR false * 1) *: y_at a = gvec (P a) Phi tg.
Proof.
apply/matrixP => i j; rewrite [j]ord1 !mul1r scale1r yE /gvec mul_mx_diag mxE; apply: eq_bigr => l _.
by rewrite !mxE mulrA.
Qed.
Lemma P_gt0 a i : 0 < a -> 0 < P a i. Proof. by move=> a0; apply: s_gt0 (xr_ok i) a0. Qed.
Lemma P_der i : der (fun a => P a i) nu (D (xr i)). Proof. exact: s_der Hmode (xr_ok i) nu0. Qed.
Lemma KtK_ge0 a i : 0 < a -> 0 <= KtK_at a i i.
Proof.
move=> a0; rewrite KtKE; apply: sumr_ge0 => l _; rewrite mulrCA -expr2 mulr_ge0 ?sqr_ge0 //; exact/ltW/P_gt0.
Qed.
Lemma KtK_ii_der i : der (fun a => KtK_at a i i) nu (\sum_(l < N) nk (xr l) 0 i * (D (xr l) * nk (xr l) 0 i)).
Proof.
have H : der (fun a => \sum_(l < N) nk (xr l) 0 i * nk (xr l) 0 i * P a l) nu (\sum_(l < N) nk (xr l) 0 i * nk (xr l) 0 i * D (xr l)).
  by apply: der_sum => l _; apply: der_scale; apply: P_der.
apply: der_ext (der_eq H _) => [a|]; first by rewrite KtKE; apply: eq_bigr => l _; rewrite mulrCA mulrC.
by apply: eq_bigr => l _; rewrite [RHS]mulrCA mulrC.
Qed.
(* the set of active features does not change near nu *)
Lemma act_near : exists lo hi, [/\ 0 <= lo, lo < nu, nu < hi & forall a, lo < a -> a < hi -> act a =1 act nu].
Proof.
have h1 : nu < nu + 1 by rewrite ltr_addl ltr01.
have [|lo [hi [L1 _ L2 H2 A]]] := @near_all _ (enum 'I_n) (fun i a => 0 < a -> act a i = act nu i) nu 0 (nu + 1) nu0 h1; last first.
  exists lo, hi; split=> // a a1 a2 i; apply: (A a a1 a2 i); first by rewrite mem_enum.
  exact: le_lt_trans L1 a1.
move=> i _; rewrite /act_of /active /valid_kern; case Ai: (alpha i < acut) => /=; last by exists 0, (nu + 1).
have := Hk Ai; rewrite neq_lt ger0_norm ?KtK_ge0 // => /orP[C|C].
  have [|lo [hi [L H A]]] := der_stay (k := - kcut) (der_opp (KtK_ii_der i)); first by rewrite ltr_opp2.
  exists lo, hi; split=> // a a1 a2 a0; rewrite ger0_norm ?KtK_ge0 //.
  by have := A a a1 a2; rewrite ltr_opp2 => A1; rewrite !ltNge !ltW.
have [lo [hi [L H A]]] := der_stay (KtK_ii_der i) C.
by exists lo, hi; split=> // a a1 a2 a0; rewrite ger0_norm ?KtK_ge0 // C A.
Qed.
Lemma likE a : 0 < a -> act a =1 act nu ->
  noise_lik rln rsqrt PI chol pinvh acut kcut iter_est rewt ranks alpha a = gauss_ln (Cov (P a) Phi (act nu) alpha) tg.
Proof.
move=> a0 E; rewrite /noise_lik (C82_exp Hchol Hpinvh).
- have Ed : [seq lr r | r <- flatten (nranks rln rsqrt iter_est rewt a ranks)] =
      [seq lr (nrow_l rln rsqrt iter_est rewt a r) | r <- rows].
    by rewrite /nranks -map_flatten -map_comp.
  rewrite Ed (@ev_map n 1 _ _ _ rows (fun r => lr (nrow_l rln rsqrt iter_est rewt a r))).
  rewrite (eq_Cov _ _ E (fun j _ => erefl)); congr gauss_ln; rewrite /Cov; congr (_ + _).
  by congr diag_mx; apply/rowP => i; rewrite !mxE mul1r.
- by rewrite /nranks -map_flatten all_map; apply: sub_all Hrows => r /= Hr; apply: s_gt0.
- by rewrite /nranks -map_flatten all_map; apply: sub_all Hrows => r /= /and4P[].
- by move=> i; rewrite -/(KtK_at a) E; apply: Ha.
Qed.

Notation G := (GA (P nu) Phi (act nu) alpha).
Notation PA := (PA_of Phi (act nu)).
Notation w := (wA chol pinvh false acut kcut 1 (KtK_at nu) (y_at nu) alpha).
Notation krow := (krowA rln rsqrt acut kcut iter_est rewt ranks alpha nu).
Notation dK rk := (KtK_der rln rsqrt acut kcut iter_est rewt ranks alpha nu rk).
Notation tt rk := (trace_term rln rsqrt chol pinvh acut kcut iter_est rewt ranks alpha nu rk).
Definition trace_sum : RR := \sum_(rk <- ranks) tt rk.
Lemma dKE rk : dK rk = \sum_(r <- rk) D r *: ((krow r)^T *m krow r).
Proof.
apply/matrixP => k l; rewrite mxE summxE; apply: eq_bigr => r _.
by rewrite !mxE big_ord1 !mxE mulrCA.
Qed.
Lemma sum_dK : \sum_(rk <- ranks) dK rk = PA^T *m diag_mx (\row_i D (xr i)) *m PA.
Proof.
transitivity (\sum_(i < N) D (xr i) *: ((krow (xr i))^T *m krow (xr i))).
  by under eq_bigr do rewrite dKE; rewrite -big_flatten big_tnth.
apply/matrixP => k l; rewrite summxE mul_mx_diag [RHS]mxE; apply: eq_bigr => i _.
rewrite scaE [(_ *m _) k l]mxE big_ord1 !mxE; by rewrite mulrA [D _ * _]mulrC.
Qed.
Lemma SmE : Smat (factor_of chol pinvh false acut kcut 1 (KtK_at nu) alpha) = invmx G.
Proof.
have p0 i : 0 < P nu i by apply: P_gt0.
by rewrite (SmatE Hchol Hpinvh p0 (xHG nu) ltr01) // (inv_GA p0 (xHG nu) Ha) /cfac invr1 scale1r.
Qed.
Lemma ttE rk : tt rk = \tr (invmx G *m dK rk).
Proof.
rewrite -SmE /trace_term -/(KtK_at nu) mxtrace_mulC.
by case: (factor_of _ _ _ _ _ _ _ _).
Qed.
Lemma trace_sumE : trace_sum = \tr (invmx G *m (PA^T *m diag_mx (\row_i D (xr i)) *m PA)).
Proof.
rewrite -sum_dK mulmx_sumr raddf_sum; apply: eq_bigr => rk _; exact: ttE.
Qed.
Lemma wE : w = w_of Phi tg (act nu) alpha P nu.
Proof. exact: (wA_GA Hchol Hpinvh (fun i => P_gt0 i nu0) (xHG nu) (xHy nu) ltr01 Ha). Qed.
Lemma krowE i : (krow (xr i) *m w) 0 0 = (PA *m w) i 0.
Proof. by rewrite !mxE; apply: eq_bigr => k _; rewrite !mxE. Qed.
Lemma quad_dK rk : (w^T *m (dK rk *m w)) 0 0 = \sum_(r <- rk) D r * (krow r *m w) 0 0 ^+ 2.
Proof.
rewrite dKE mulmx_suml mulmx_sumr summxE; apply: eq_bigr => r _.
rewrite -scalemxAl -scalemxAr scaE; congr (_ * _).
by rewrite mulmxA mulmxA -trmx_mul -mulmxA mxE big_ord1 mxE expr2.
Qed.
Lemma rank_derE rk : rank_der rln rsqrt chol pinvh acut kcut iter_est rewt ranks alpha nu rk =
  tt rk + \sum_(r <- rk) (- (s nu r * del_S rsqrt iter_est rewt nu r) - D r * (ny r - (krow r *m w) 0 0) ^+ 2).
Proof.
rewrite /rank_der -/(KtK_at nu) -/(y_at nu) quad_dK -!addrA; congr (_ + _); rewrite !addrA.
under [in RHS]eq_bigr do rewrite nx_h.
by rewrite !big_split /= !sumrN -mulr_sumr.
Qed.
Theorem C87_partial :
  der (noise_lik rln rsqrt PI chol pinvh acut kcut iter_est rewt ranks alpha) nu
      (noise_der rln rsqrt chol pinvh acut kcut iter_est rewt ranks alpha nu - trace_sum).
Proof.
have [lo [hi [l0 L H A]]] := act_near.
have p0 a i : lo < a -> a < hi -> 0 < P a i by move=> a1 _; apply: P_gt0; apply: le_lt_trans a1.
have E := @ev_noise_der _ _ Phi tg _ _ Ha P (fun i => D (xr i)) nu lo hi L H p0 P_der.
apply: der_near (L) (H) _ (der_eq E _) => [a a1 a2|].
  by apply: likE; [apply: le_lt_trans a1 | apply: A].
rewrite -trace_sumE /noise_der [1 / _]div1r.
have -> : \sum_(rk <- ranks) rank_der rln rsqrt chol pinvh acut kcut iter_est rewt ranks alpha nu rk =
  trace_sum + (\sum_i D (xr i) / P nu i - \sum_i D (xr i) * resid Phi tg (act nu) alpha P nu i ^+ 2).
  under eq_bigr do rewrite rank_derE.
  rewrite big_split /=; congr (_ + _).
  rewrite -big_flatten big_tnth -sumrB; apply: eq_bigr => i _; congr (_ - _).
    have := P_gt0 i nu0; have /and4P[_ _ _ /eqP E1] := xr_ok i; rewrite /P => S0.
    by rewrite /Delta_S E1 divr1 mulNr expr2 [_ * _ / _]mulrAC mulfK // gt_eqF.
  by rewrite krowE wE /resid [tg i 0]mxE.
have -> : trace_sum = 2%:R * trace_sum / 2%:R by rewrite mulrAC divff ?mul1r ?pnatr_eq0.
rewrite -mulrBl; congr (_ / _); rewrite mulrAC divff ?pnatr_eq0 // mul1r nx_f.
by rewrite addrAC.
Qed.

(* the trace is negative as soon as a feature is active *)
Lemma G_quad (u : 'cV[RR]_#|act nu|) : (u^T *m G *m u) 0 0 =
  \sum_i P nu i * (PA *m u) i 0 ^+ 2 + \sum_k alpha (enum_val k) * u k 0 ^+ 2.
Proof.
rewrite -(PAE (P nu) Phi (act nu) alpha) mulmxDr mulmxDl addE; congr (_ + _).
  have -> : u^T *m (PA^T *m diag_mx (\row_i P nu i) *m PA) *m u = (PA *m u)^T *m diag_mx (\row_i P nu i) *m (PA *m u).
    by rewrite trmx_mul !mulmxA.
  rewrite mul_mx_diag [LHS]mxE; apply: eq_bigr => i _.
  by rewrite [X in X * _]mxE [_^T _ _]mxE [(\row__ _) _ _]mxE expr2 mulrA [_ * P _ _]mulrC.
rewrite mul_mx_diag [LHS]mxE; apply: eq_bigr => k _.
by rewrite [X in X * _]mxE [_^T _ _]mxE [(\row__ _) _ _]mxE expr2 mulrA [_ * alpha _]mulrC.
Qed.
Lemma Ginv_gt0 (v : 'cV[RR]_#|act nu|) : v != 0 -> 0 < (v^T *m invmx G *m v) 0 0.
Proof.
have p0 i : 0 < P nu i by apply: P_gt0.
have Gu : G \in unitmx := GA_unit Phi p0 Ha.
have Gs : G^T = G.
  rewrite -(PAE (P nu) Phi (act nu) alpha) linearD /= !trmx_mul !tr_diag_mx trmxK mulmxA; congr (_ + _).
move=> v0; pose u := invmx G *m v.
have -> : v^T *m invmx G *m v = u^T *m G *m u.
  by rewrite /u trmx_mul trmx_inv Gs -!mulmxA mulKVmx // mulmxA.
rewrite G_quad ltr_paddl //.
  by apply: sumr_ge0 => i _; rewrite mulr_ge0 ?sqr_ge0 // ltW.
have u0 : u != 0 by apply: contraNneq v0 => E; rewrite -(mulKVmx Gu v) -/u E mulmx0.
have a0 (k : 'I_#|act nu|) : 0 < alpha (enum_val k) by apply: Ha; apply: (enum_valP k).
have [k uk] : exists k, u k 0 != 0.
  apply/existsP; rewrite -negb_forall; apply: contra u0 => /forallP H; apply/eqP/colP => k; rewrite [RHS]mxE.
  exact/eqP.
rewrite (bigD1 k) //= ltr_paddr //; first by apply: sumr_ge0 => j _; rewrite mulr_ge0 ?sqr_ge0 // ltW.
by rewrite mulr_gt0 // lt_def sqr_ge0 expf_neq0.
Qed.
Lemma trace_rows : trace_sum = \sum_i D (xr i) * ((row i PA) *m invmx G *m (row i PA)^T) 0 0.
Proof.
rewrite trace_sumE mulmxA mulmxA mxtrace_mulC mulmxA mulmxA /mxtrace; apply: eq_bigr => i _.
rewrite mul_mx_diag mxE [(\row__ _) _ _]mxE mulrC; congr (_ * _).
by rewrite -row_mul tr_row [RHS]mxE [LHS]mxE; apply: eq_bigr => k _; rewrite [row _ _ _ _]mxE [col _ _ _ _]mxE.
Qed.
Lemma trace_lt0 i : 0 <= kcut -> act nu i -> trace_sum < 0.
Proof.
move=> k0 Ai; have q0 l : 0 <= ((row l PA) *m invmx G *m (row l PA)^T) 0 0.
  case: (eqVneq (row l PA)^T 0) => [->|H]; first by rewrite mulmx0 mxE.
  by have := Ginv_gt0 H; rewrite trmxK => /ltW.
have : KtK_at nu i i != 0.
  case/andP: Ai => _; rewrite /valid_kern => H; rewrite -normr_gt0; exact: le_lt_trans k0 H.
rewrite KtKE => H.
have [l Hl] : exists l, nk (xr l) 0 i != 0.
  apply/existsP; rewrite -negb_forall; apply: contra H => /forallP H; rewrite big1 // => l _.
  by rewrite (eqP (H l)) mul0r.
rewrite trace_rows (bigD1 l) //= -oppr_gt0 opprD -mulNr -sumrN ltr_paddr //.
  by apply: sumr_ge0 => j _; rewrite -mulNr mulr_ge0 // oppr_ge0; exact/ltW/(Delta_lt0 _ _ (xr_ok j) nu0).
rewrite mulr_gt0 // ?oppr_gt0; first exact: Delta_lt0 (xr_ok l) nu0.
have R0 : (row l PA)^T != 0.
  have [k Hk2] : exists k : 'I_#|act nu|, enum_val k = i by exists (enum_rank_in Ai i); rewrite enum_rankK_in.
  apply: contraNneq Hl => E; have := congr1 (fun M : 'cV_#|act nu| => M k 0) E.
  by rewrite !mxE Hk2 => ->.
by have := Ginv_gt0 R0; rewrite trmxK.
Qed.
(* the code's value: too small as soon as a feature is active *)
Theorem C87_exact d : 0 <= kcut ->
  der (noise_lik rln rsqrt PI chol pinvh acut kcut iter_est rewt ranks alpha) nu d ->
  let v := noise_der rln rsqrt chol pinvh acut kcut iter_est rewt ranks alpha nu in
  ((exists i, act nu i) -> v < d) /\ ((forall i, ~~ act nu i) -> v = d).
Proof.
move=> k0 H v; have E := der_unique C87_partial H; split=> [[i Ai]|Z].
  by rewrite -E ltr_addl oppr_gt0; apply: trace_lt0 Ai.
rewrite -E trace_rows big1 ?subr0 // => i _; rewrite [X in _ * X]mxE big1 ?mulr0 // => k _.
by have := Z (enum_val k); have := enum_valP k; rewrite -[_ \in _]/(act nu _) => ->.
Qed.
End ExpDer.

(* K = 1, amplitude 1, noise_tilde 1, alpha 1 *)
Definition e_row : nrow RR 1 := NRow (const_mx 1) 1 1 1 1 2%:R.
Definition e_alpha (j : 'I_1) : RR := 1.
Lemma e_ok : all (@row_ok 1) (flatten [:: [:: e_row]]). Proof. by rewrite /= /row_ok /= ltr01 eqxx. Qed.
Lemma e_KtK i : KtK_at false false [:: [:: e_row]] 1 i i = (rln 2%:R)^-1.
Proof. by rewrite mxE !big_cons !big_nil /= !mxE !addr0 mulr1 mul1r /s_diag /amp2 /= divr1 mulr1 div1r -[1 + 1]/(2%:R). Qed.
Lemma ln2_gt0 : 0 < rln 2%:R. Proof. by apply: rln_gt0; rewrite ltr1n. Qed.
Lemma e_act i : act_of 10%:R 0 (KtK_at false false [:: [:: e_row]] 1) e_alpha i.
Proof.
rewrite /act_of /active /valid_kern e_KtK normr_gt0 invr_eq0 (gt_eqF ln2_gt0) andbT /e_alpha; numq RR.
Qed.
Theorem C87_refuted : exists (ranks : seq (seq (nrow RR 1))) (alpha : 'I_1 -> RR) (nu : RR),
  [/\ 0 < nu, all (@row_ok 1) (flatten ranks), forall i, 0 < alpha i &
  forall chol pinvh, chol_ok chol -> pinvh_ok pinvh ->
  exists2 d, der (noise_lik rln rsqrt PI chol pinvh 10%:R 0 false false ranks alpha) nu d &
    noise_der rln rsqrt chol pinvh 10%:R 0 false false ranks alpha nu < d].
Proof.
exists [:: [:: e_row]], e_alpha, 1; split; [exact: ltr01 | exact: e_ok | by move=> i; exact: ltr01 | move=> chol pinvh H1 H2].
have Hk i : e_alpha i < 10%:R -> `|KtK_at false false [:: [:: e_row]] 1 i i| != 0.
  by rewrite e_KtK normr_eq0 invr_eq0 (gt_eqF ln2_gt0).
have Ha i : act_of 10%:R 0 (KtK_at false false [:: [:: e_row]] 1) e_alpha i -> 0 < e_alpha i by move=> _; exact: ltr01.
have M : ~~ (false && false) by [].
have P := C87_partial H1 H2 M e_ok ltr01 Hk Ha.
eexists; first exact: P.
have [L _] := C87_exact H1 H2 M e_ok ltr01 Hk Ha (lexx 0) P.
by apply: L; exists ord0; apply: e_act.
Qed.

(* iterative_noise_est together with noise_reweighting: setup_fit_noise_dep ignores the reweighting,
   log_marg_lik_noise_der does not.  |pred|^2 = 1, reweighting 3, noise_tilde 2, no active feature *)
Definition i_row : nrow RR 1 := NRow (const_mx 1) 1 1 3%:R 1 0.
Definition i_alpha (j : 'I_1) : RR := 10%:R.
Lemma i_ok : all (@row_ok 1) (flatten [:: [:: i_row]]). Proof. by rewrite /= /row_ok /= ltr01 ltr0n eqxx. Qed.
Lemma i_act K i : act_of 10%:R 0 K i_alpha i = false.
Proof. by rewrite /act_of /active /i_alpha ltxx. Qed.
Lemma i_code chol pinvh rewt : noise_der rln rsqrt chol pinvh 10%:R 0 true rewt [:: [:: i_row]] i_alpha 2%:R =
  - (s_diag rln rsqrt true true 2%:R i_row * del_S rsqrt true rewt 2%:R i_row) / 2%:R.
Proof.
have Z (m : pred 'I_1) (k : 'I_#|m|) : (forall i, m i = false) -> False.
  by move=> H; have := enum_valP k; rewrite -[_ \in _]/(m _) H.
rewrite /noise_der big_cons big_nil addr0 [1 / _]div1r rank_derE; congr (_ / _).
have -> : trace_term rln rsqrt chol pinvh 10%:R 0 true rewt [:: [:: i_row]] i_alpha 2%:R [:: i_row] = 0.
  rewrite /trace_term; case: (factor_of _ _ _ _ _ _ _ _) => X; rewrite /mxtrace big1 // => k;
  by case: (Z _ k) => i; exact: i_act.
rewrite add0r big_cons big_nil addr0 mxE big1 => [|k]; last by case: (Z _ k) => i; exact: i_act.
by rewrite subr0 expr0n mulr0 subr0.
Qed.
Theorem C87_reweight_refuted : exists (ranks : seq (seq (nrow RR 1))) (alpha : 'I_1 -> RR) (nu : RR),
  [/\ 0 < nu, all (@row_ok 1) (flatten ranks), forall i, 0 < alpha i &
  forall chol pinvh, chol_ok chol -> pinvh_ok pinvh ->
  exists2 d, der (noise_lik rln rsqrt PI chol pinvh 10%:R 0 true true ranks alpha) nu d &
    noise_der rln rsqrt chol pinvh 10%:R 0 true true ranks alpha nu != d].
Proof.
have t0 : 0 < 2%:R :> RR by rewrite ltr0n.
exists [:: [:: i_row]], i_alpha, 2%:R; split; [done | exact: i_ok | by move=> i; rewrite ltr0n | move=> chol pinvh H1 H2].
have Hk i : i_alpha i < 10%:R -> `|KtK_at true false [:: [:: i_row]] 2%:R i i| != 0 by rewrite /i_alpha ltxx.
have Ha i : act_of 10%:R 0 (KtK_at true false [:: [:: i_row]] 2%:R) i_alpha i -> 0 < i_alpha i by rewrite i_act.
have M : ~~ (true && false) by [].
have P := C87_partial H1 H2 M i_ok t0 Hk Ha.
have [_ L] := C87_exact H1 H2 M i_ok t0 Hk Ha (lexx 0) P.
exists (noise_der rln rsqrt chol pinvh 10%:R 0 true false [:: [:: i_row]] i_alpha 2%:R).
  by rewrite L; [exact: P | move=> i; rewrite i_act].
have S : s_diag rln rsqrt true true 2%:R i_row != 0.
  by rewrite gt_eqF //; apply: s_gt0 => //; case/andP: i_ok.
rewrite !i_code -subr_eq0 -mulrBl mulf_neq0 ?invr_eq0 ?pnatr_eq0 // opprK addrC -mulrBr mulf_neq0 //.
rewrite /del_S /=.
have -> : 4%:R * 2%:R / 1 + 1 = 3%:R ^+ 2 :> RR by numq RR.
have -> : 4%:R * 2%:R / (1 / 3%:R) + 1 = 5%:R ^+ 2 :> RR by numq RR.
rewrite (rsqrt_uniq (y := 3%:R)) ?ler0n // (rsqrt_uniq (y := 5%:R)) ?ler0n //; numq RR.
Qed.
