(* Finite Markov chains, independent of the code: powers of the transition matrix, expectations
   over paths, reversibility, uniqueness of the stationary distribution and convergence of time
   averages in mean square. *)
From Verif Require Import Base.
Import Order.Theory Num.Theory GRing.Theory.
Local Open Scope ring_scope.

Section Chain.
Variables (F : realFieldType) (X : finType).

(* one step applied to a function: the expectation of f after one step from x *)
Definition op (P : X -> X -> F) (f : X -> F) (x : X) : F := \sum_y P x y * f y.
(* probability to be in y after n steps from x *)
Definition pw (P : X -> X -> F) (n : nat) (x y : X) : F := iter n (op P) (fun z => (z == y)%:R) x.
(* expectation of G over the n states visited after the start x *)
Fixpoint ex (P : X -> X -> F) (n : nat) (x : X) (G : seq X -> F) : F :=
  if n is m.+1 then \sum_y P x y * ex P m y (fun s => G (y :: s)) else G [::].
(* average over the visited states *)
Definition avg (f : X -> F) (s : seq X) : F := (\sum_(y <- s) f y) / (size s)%:R.
(* expectation with respect to the distribution proportional to w *)
Definition wmean (w f : X -> F) : F := (\sum_x w x * f x) / (\sum_x w x).

Definition stochastic (P : X -> X -> F) : Prop :=
  (forall x y, 0 <= P x y) /\ (forall x, \sum_y P x y = 1).
Definition reversible (w : X -> F) (P : X -> X -> F) : Prop :=
  forall x y, w x * P x y = w y * P y x.
Definition irreducible (P : X -> X -> F) : Prop := forall x y, exists n, 0 < pw P n x y.
Definition stationary (P : X -> X -> F) (mu : X -> F) : Prop :=
  forall y, \sum_x mu x * P x y = mu y.

Section Kernel.
Variable P : X -> X -> F.
Hypothesis HP : stochastic P.
Let P0 x y : 0 <= P x y. Proof. by case: HP => H _; apply: H. Qed.
Let P1 x : \sum_y P x y = 1. Proof. by case: HP => _ H; apply: H. Qed.

Lemma eq_op f g : f =1 g -> op P f =1 op P g.
Proof. by move=> E x; apply: eq_bigr => y _; rewrite E. Qed.
Lemma eq_iter_op n f g : f =1 g -> iter n (op P) f =1 iter n (op P) g.
Proof. by move=> E; elim: n => [//|n IH]; exact: eq_op. Qed.
Lemma iter_op_add n f g x : iter n (op P) (fun z => f z + g z) x = iter n (op P) f x + iter n (op P) g x.
Proof.
elim: n x => [//|n IH] x; rewrite !iterS (eq_op IH) /op -big_split /=.
by apply: eq_bigr => y _; rewrite mulrDr.
Qed.
Lemma iter_op_scale n c f x : iter n (op P) (fun z => f z * c) x = iter n (op P) f x * c.
Proof.
elim: n x => [//|n IH] x; rewrite !iterS (eq_op IH) /op mulr_suml.
by apply: eq_bigr => y _; rewrite mulrA.
Qed.
Lemma iter_op_sum (I : finType) n (f : I -> X -> F) x :
  iter n (op P) (fun z => \sum_i f i z) x = \sum_i iter n (op P) (f i) x.
Proof.
elim: n x => [//|n IH] x; rewrite !iterS (eq_op IH) /op.
under eq_bigr do rewrite mulr_sumr; rewrite exchange_big; apply: eq_bigr => i _.
by rewrite iterS.
Qed.
Lemma op_pw n f x : iter n (op P) f x = \sum_y pw P n x y * f y.
Proof.
rewrite -(eq_iter_op n (f := fun z => \sum_y (z == y)%:R * f y)) => [|z].
  by rewrite iter_op_sum; apply: eq_bigr => y _; rewrite iter_op_scale.
rewrite (bigD1 z) //= eqxx mul1r big1 ?addr0 // => y /negbTE; rewrite eq_sym => ->.
by rewrite mul0r.
Qed.
Lemma pwD m n x z : pw P (m + n) x z = \sum_y pw P m x y * pw P n y z.
Proof. by rewrite /pw iterD op_pw. Qed.
Lemma pw0 x y : pw P 0 x y = (x == y)%:R. Proof. by []. Qed.
Lemma pw1 x y : pw P 1 x y = P x y.
Proof.
rewrite /pw /= /op (bigD1 y) //= eqxx mulr1 big1 ?addr0 // => z /negbTE->; exact: mulr0.
Qed.
Lemma pwS n x z : pw P n.+1 x z = \sum_y P x y * pw P n y z.
Proof. by []. Qed.
Lemma pw_ge0 n x y : 0 <= pw P n x y.
Proof.
elim: n x => [|n IH] x; first by rewrite pw0 ler0n.
by rewrite pwS sumr_ge0 // => z _; rewrite mulr_ge0.
Qed.
Lemma pw_sum n x : \sum_y pw P n x y = 1.
Proof.
elim: n x => [|n IH] x.
  by rewrite (bigD1 x) // pw0 eqxx big1 => [|y]; [exact: addr0|rewrite pw0 eq_sym => /negbTE->].
under eq_bigr do rewrite pwS; rewrite exchange_big /= -[RHS](P1 x); apply: eq_bigr => y _.
by rewrite -mulr_sumr IH mulr1.
Qed.
Lemma pw_stochastic n : stochastic (pw P n).
Proof. by split; [exact: pw_ge0 | exact: pw_sum]. Qed.
Lemma pw_pos m n x y z : 0 < pw P m x y -> 0 < pw P n y z -> 0 < pw P (m + n) x z.
Proof.
move=> H1 H2; rewrite pwD (bigD1 y) //= ltr_paddr ?mulr_gt0 // sumr_ge0 // => u _.
by rewrite mulr_ge0 ?pw_ge0.
Qed.
Lemma iter_op_const n c x : iter n (op P) (fun=> c) x = c.
Proof. by rewrite op_pw -mulr_suml pw_sum mul1r. Qed.
Lemma iter_op_bound n f B x : (forall z, `|f z| <= B) -> `|iter n (op P) f x| <= B.
Proof.
move=> Hf; rewrite op_pw; apply: le_trans (ler_norm_sum _ _ _) _.
rewrite -[B]mul1r -(pw_sum n x) mulr_suml; apply: ler_sum => y _.
by rewrite normrM (ger0_norm (pw_ge0 _ _ _)) ler_wpmul2l ?pw_ge0.
Qed.
End Kernel.

(* powers of the m-step chain are the powers of the chain *)
Lemma pw_pw P m n x y : pw (pw P m) n x y = pw P (n * m) x y.
Proof. by elim: n x => [//|n IH] x; rewrite pwS mulSn (pwD P); apply: eq_bigr => z _; rewrite IH. Qed.

Lemma reversible_pw P w n : stochastic P -> reversible w P -> reversible w (pw P n).
Proof.
move=> HP Hw; elim: n => [|n IH] x y.
  by rewrite !pw0 eq_sym; case: eqP => [->//|_]; rewrite !mulr0.
rewrite pwS -[in RHS]addn1 pwD !mulr_sumr; apply: eq_bigr => z _.
by rewrite (pw1 P) mulrA Hw -mulrA [P z x * _]mulrC mulrA IH mulrA.
Qed.

(* Reversible irreducible chains *)
Section Reversible.
Variables (P : X -> X -> F) (w : X -> F).
Hypotheses (HP : stochastic P) (Hw : forall x, 0 < w x) (HR : reversible w P) (HI : irreducible P).

Lemma harmonic_const (h : X -> F) : (forall x, op P h x = h x) -> forall x y, h x = h y.
Proof.
move=> Hh x y.
have Hn n z : iter n (op P) h z = h z.
  by elim: n z => [//|n IH] z; rewrite iterS (eq_op P IH) Hh.
case: (arg_maxP h (P := xpredT) (i0 := x) isT) => m _ Hm.
suff Hc z : h z = h m by rewrite !Hc.
have [n Hpos] := HI m z.
have E : \sum_u pw P n m u * (h m - h u) = 0.
  under eq_bigr do rewrite mulrBr.
  by rewrite sumrB -mulr_suml (pw_sum HP) mul1r -(op_pw P) Hn subrr.
have H0 u : 0 <= pw P n m u * (h m - h u) by rewrite mulr_ge0 ?(pw_ge0 HP) // subr_ge0; apply: (Hm u).
have /(_ z isT)/eqP := psumr_eq0P (fun u _ => H0 u) E.
by rewrite mulf_eq0 gt_eqF //= subr_eq0 => /eqP.
Qed.

(* every solution of the stationarity equations is a multiple of w *)
Lemma stationary_multiple (mu : X -> F) : stationary P mu -> forall x y, mu x / w x = mu y / w y.
Proof.
move=> Hmu; apply: harmonic_const => x; rewrite /op -(Hmu x) mulr_suml; apply: eq_bigr => y _.
have w0x : w x != 0 by rewrite gt_eqF.
have w0y : w y != 0 by rewrite gt_eqF.
have -> : P x y = P y x * w y / w x.
  by apply: (mulfI w0x); rewrite HR mulrC [RHS]mulrC divfK.
by rewrite [mu y / _]mulrC mulrA [_ / w x / w y]mulrAC mulfK // mulrAC [P y x * _]mulrC.
Qed.

Lemma stationary_unique (mu : X -> F) : stationary P mu -> \sum_x mu x = 1 ->
  forall x, mu x = w x / \sum_y w y.
Proof.
move=> Hmu H1 x; have Hc := stationary_multiple Hmu x.
have E : mu x / w x * (\sum_y w y) = 1.
  rewrite -H1 mulr_sumr; apply: eq_bigr => y _; rewrite (Hc y) divfK // gt_eqF //.
have w0 : w x != 0 by rewrite gt_eqF.
have W0 : \sum_y w y != 0 by apply: contra_eq_neq E => ->; rewrite mulr0 eq_sym oner_eq0.
by apply: (mulIf W0); rewrite divfK // -[mu x](divfK w0) mulrAC E mul1r.
Qed.

Lemma stationary_w : stationary P (fun x => w x / \sum_y w y).
Proof.
move=> y; rewrite -[in RHS](mulr1 (w y)) -(proj2 HP y) mulr_sumr mulr_suml.
by apply: eq_bigr => x _; rewrite mulrAC HR.
Qed.

(* Poisson's equation: a function of mean zero is g - P g *)
Lemma poisson (f : X -> F) : \sum_x w x * f x = 0 -> exists g, forall x, f x = g x - op P g x.
Proof.
move=> Hf; pose n := #|X|; pose ev (i : 'I_n) : X := enum_val i.
pose B : 'M[F]_n := \matrix_(i, j) ((i == j)%:R - P (ev j) (ev i)).
pose fv : 'rV[F]_n := \row_i f (ev i).
have reix (G : X -> F) : \sum_i G (ev i) = \sum_x G x.
  by rewrite [RHS](reindex_onto ev enum_rank) => [|x _]; [apply: eq_bigl => i; rewrite /ev enum_valK eqxx|exact: enum_rankK].
have Hsub : (fv <= B)%MS.
  rewrite submxE; move: (cokermx B) (mulmx_coker B) => K HK; apply/eqP/rowP => j; rewrite !mxE.
  pose mu x : F := K (enum_rank x) j.
  have muE i : K i j = mu (ev i) by rewrite /mu enum_valK.
  have Hmu : stationary P mu.
    move=> y; have := congr1 (fun M : 'M[F]_n => M (enum_rank y) j) HK.
    rewrite !mxE; under eq_bigr do rewrite !mxE muE mulrBl.
    rewrite sumrB (bigD1 (enum_rank y)) //= eqxx mul1r big1 => [|i]; last first.
      by rewrite eq_sym => /negbTE->; rewrite mul0r.
    rewrite addr0 (reix (fun x => P x (ev (enum_rank y)) * mu x)) /ev enum_rankK => /eqP.
    by rewrite subr_eq0 => /eqP->; apply: eq_bigr => x _; rewrite mulrC.
  under eq_bigr do rewrite mxE muE; rewrite (reix (fun x => f x * mu x)).
  case: (pickP [pred x : X | true]) => [x0 _|H0]; last by rewrite big1 // => x; have := H0 x.
  have Hm x : mu x = mu x0 / w x0 * w x.
    by rewrite -(stationary_multiple Hmu x x0) divfK // gt_eqF //.
  transitivity (mu x0 / w x0 * (\sum_x w x * f x)); last by rewrite Hf mulr0.
  rewrite mulr_sumr; apply: eq_bigr => x _; by rewrite Hm mulrC mulrA.
have [D HD] := submxP Hsub.
exists (fun x => D 0 (enum_rank x)) => x.
have := congr1 (fun M : 'rV[F]_n => M 0 (enum_rank x)) HD; rewrite !mxE /ev enum_rankK => ->.
under eq_bigr do rewrite !mxE mulrBr; rewrite sumrB; congr (_ - _).
  rewrite (bigD1 (enum_rank x)) //= eqxx mulr1 big1 ?addr0 // => i /negbTE->; exact: mulr0.
rewrite /op -(reix (fun y => P x y * D 0 (enum_rank y))); apply: eq_bigr => i _.
by rewrite /ev enum_valK enum_rankK mulrC.
Qed.

(* expectations over paths *)
Lemma eq_ex n x G H : (forall s, size s = n -> G s = H s) -> ex P n x G = ex P n x H.
Proof.
elim: n x G H => [|n IH] x G H E /=; first by apply: E.
by apply: eq_bigr => y _; congr (_ * _); apply: IH => s Hs; apply: E; rewrite /= Hs.
Qed.
Lemma ex_add n x G H : ex P n x (fun s => G s + H s) = ex P n x G + ex P n x H.
Proof.
elim: n x G H => [//|n IH] x G H /=; rewrite -big_split /=; apply: eq_bigr => y _.
by rewrite IH mulrDr.
Qed.
Lemma ex_scale n x c G : ex P n x (fun s => c * G s) = c * ex P n x G.
Proof.
elim: n x G => [//|n IH] x G /=; rewrite mulr_sumr; apply: eq_bigr => y _.
by rewrite IH mulrCA.
Qed.
Lemma ex_const n x c : ex P n x (fun=> c) = c.
Proof.
elim: n x => [//|n IH] x /=; under eq_bigr do rewrite IH.
by rewrite -mulr_suml (proj2 HP) mul1r.
Qed.

Variable f : X -> F.
Definition bound (g : X -> F) : F := \sum_x `|g x|.
Lemma boundP g x : `|g x| <= bound g.
Proof. by rewrite /bound (bigD1 x) //= ler_addl sumr_ge0. Qed.

(* first and second moment of the sum over a path of a function g - P g *)
Lemma moment1 g n x : (forall z, f z = g z - op P g z) ->
  ex P n x (fun s => \sum_(y <- s) f y) = op P g x - iter n.+1 (op P) g x.
Proof.
move=> Hg; elim: n x => [|n IH] x; first by rewrite /= big_nil subrr.
rewrite /= /op -sumrB; apply: eq_bigr => y _.
rewrite (eq_ex _ (H := fun s => f y + \sum_(z <- s) f z)) => [|s _]; last by rewrite big_cons.
by rewrite ex_add ex_const IH Hg -mulrBr addrA subrK.
Qed.

Lemma moment2 g n x : (forall z, f z = g z - op P g z) ->
  ex P n x (fun s => (\sum_(y <- s) f y) ^+ 2) <= (bound f ^+ 2 + 4%:R * bound f * bound g) * n%:R.
Proof.
move=> Hg; elim: n x => [|n IH] x; first by rewrite /= big_nil expr0n mulr0.
rewrite /=; set C := (X in X * _).
have -> : C * n.+1%:R = \sum_y P x y * (C + C * n%:R).
  by rewrite -mulr_suml (proj2 HP) mul1r -[C in C + _]mulr1 -mulrDr -add1n natrD.
apply: ler_sum => y _; apply: ler_wpmul2l; first exact: (proj1 HP).
rewrite (eq_ex _ (H := fun s => (f y ^+ 2 + (2%:R * f y) * (\sum_(z <- s) f z)) + (\sum_(z <- s) f z) ^+ 2)) => [|s _]; last first.
  by rewrite big_cons sqrrD -mulr_natl mulrA.
rewrite ex_add ex_add ex_const ex_scale (moment1 _ _ Hg) ler_add ?IH // /C ler_add //.
  by rewrite -real_normK ?num_real // ler_expn2r ?nnegrE ?normr_ge0 ?boundP // /bound sumr_ge0.
apply: le_trans (ler_norm _) _; rewrite normrM normrM normr_nat.
have -> : 4%:R * bound f * bound g = 2%:R * bound f * (bound g + bound g).
  by rewrite -mulr2n -[bound g *+ 2]mulr_natl mulrACA -natrM mulrA.
apply: ler_pmul; rewrite ?mulr_ge0 ?normr_ge0 ?ler0n //; first by rewrite ler_wpmul2l ?ler0n ?boundP.
apply: le_trans (ler_norm_sub _ _) _; apply: ler_add.
  by apply: (iter_op_bound HP 1) => z; apply: boundP.
by apply: (iter_op_bound HP) => z; apply: boundP.
Qed.
End Reversible.

Theorem ergodic_mean_square P w f : stochastic P -> (forall x, 0 < w x) -> reversible w P -> irreducible P ->
  exists C, forall n x, (0 < n)%N -> ex P n x (fun s => (avg f s - wmean w f) ^+ 2) <= C / n%:R.
Proof.
move=> HP Hw HR HI; pose m := wmean w f; pose f0 x := f x - m.
case: (pickP [pred x : X | true]) => [x0 _|H0]; last by exists 0 => n x; have := H0 x.
have W0 : \sum_y w y != 0.
  by rewrite gt_eqF // (bigD1 x0) //= ltr_paddr // sumr_ge0 // => y _; apply: ltW.
have Hf0 : \sum_x w x * f0 x = 0.
  rewrite /f0; under eq_bigr do rewrite mulrBr.
  by rewrite sumrB -mulr_suml /m /wmean mulrC divfK // subrr.
have [g Hg] := poisson HP Hw HR HI Hf0.
exists (bound f0 ^+ 2 + 4%:R * bound f0 * bound g) => n x Hn.
have N0 : n%:R != 0 :> F by rewrite pnatr_eq0 -lt0n.
rewrite (eq_ex P x (H := fun s => (n%:R ^- 2) * (\sum_(y <- s) f0 y) ^+ 2)) => [|s Hs]; last first.
  rewrite -exprVn -exprMn; congr (_ ^+ 2); rewrite /avg Hs /f0 sumrB big_const_seq count_predT Hs.
  by rewrite mulrBr mulrC iter_addr addr0 -[m *+ n]mulr_natl mulKf.
rewrite ex_scale; apply: le_trans (ler_wpmul2l _ (moment2 HP n x Hg)) _.
  by rewrite invr_ge0 exprn_ge0 ?ler0n.
set C := bound f0 ^+ 2 + _; rewrite mulrCA expr2 invfM -[n%:R^-1 * _ * n%:R]mulrA mulVf // mulr1; exact: lexx.
Qed.

Lemma back_and_forth P w x j : stochastic P -> (forall x, 0 < w x) -> reversible w P -> 0 < pw P (2 * j) x x.
Proof.
move=> HP Hw HR.
have [z Hz] : exists z, 0 < P x z.
  apply/existsP; apply: contraT; rewrite negb_exists => /forallP H.
  have := proj2 HP x; rewrite big1 => [/eqP|z _]; first by rewrite eq_sym oner_eq0.
  by apply/eqP; rewrite eq_le (proj1 HP) andbT leNgt.
have Hzx : 0 < P z x.
  by rewrite -(pmulr_rgt0 _ (Hw z)) -HR mulr_gt0.
elim: j => [|j IH]; first by rewrite pw0 eqxx ltr01.
by rewrite mulnS; apply: pw_pos IH => //; apply: (@pw_pos P HP 1 1 x z x); rewrite pw1.
Qed.

(* a reversible irreducible chain with one closed walk of odd length: from some number of steps
   on, every state can be reached in exactly that many steps *)
Lemma eventually P w x0 k : stochastic P -> (forall x, 0 < w x) -> reversible w P -> irreducible P ->
  odd k -> 0 < pw P k x0 x0 -> forall x y, exists N, forall n, (N <= n)%N -> 0 < pw P n x y.
Proof.
move=> HP Hw HR HI Hk Hpk x y.
have [a Ha] := HI x x0; have [b Hb] := HI x0 y.
have H2 j := @back_and_forth P w x j HP Hw HR.
exists (a + k + b)%N => n Hn; have := odd_double_half (n - (a + b)).
case: (boolP (odd (n - (a + b)))) => Ho; rewrite -mul2n => E.
- have -> : n = (2 * ((n - (a + b + k))./2) + (a + (k + b)))%N.
    have := odd_double_half (n - (a + b + k)); rewrite -mul2n.
    have -> : odd (n - (a + b + k)) = false by rewrite subnDA oddB ?Ho ?Hk //; lia.
    lia.
  exact: (pw_pos HP (H2 _) (pw_pos HP Ha (pw_pos HP Hpk Hb))).
- have -> : n = (2 * (n - (a + b))./2 + (a + b))%N by move: E; rewrite /= ; lia.
  exact: (pw_pos HP (H2 _) (pw_pos HP Ha Hb)).
Qed.

Lemma irreducible_pw P m : stochastic P -> (0 < m)%N ->
  (forall x y, exists N, forall n, (N <= n)%N -> 0 < pw P n x y) -> irreducible (pw P m).
Proof.
move=> HP Hm H x y; have [N HN] := H x y; exists N; rewrite pw_pw //; apply: HN.
by rewrite leq_pmulr.
Qed.

Lemma irreducible_pw_odd P w m : stochastic P -> (forall x, 0 < w x) -> reversible w P -> irreducible P ->
  odd m -> irreducible (pw P m).
Proof.
move=> HP Hw HR HI Hm x y; have [d Hd] := HI x y; exists d; rewrite pw_pw //.
have -> : (d * m = 2 * (d * m.-1)./2 + d)%N.
  have Hmm : m = m.-1.+1 by case: (m) Hm.
  rewrite {1}Hmm mulnS addnC; congr (_ + _)%N.
  have := odd_double_half (d * m.-1); rewrite oddM -mul2n.
  by move: Hm; rewrite {1}Hmm /= => /negbTE->; rewrite andbF.
exact: (pw_pos HP (back_and_forth _ _ HP Hw HR) Hd).
Qed.

(* discarding the first d samples *)
Lemma ex_drop P d n x G : ex P (d + n) x (fun s => G (drop d s)) = \sum_z pw P d x z * ex P n z G.
Proof.
elim: d x => [|d IH] x.
  rewrite add0n (bigD1 x) // pw0 eqxx mul1r big1 => [|z]; last by rewrite pw0 eq_sym => /negbTE->; rewrite mul0r.
  rewrite [RHS]addr0; apply: eq_ex => s _; by rewrite drop0.
rewrite addSn [LHS]/=; under eq_bigr do rewrite IH mulr_sumr.
by rewrite exchange_big; apply: eq_bigr => z _; rewrite pwS mulr_suml; apply: eq_bigr => y _; rewrite mulrA.
Qed.

Lemma ex_drop_le P d n x G c : stochastic P -> (forall z, ex P n z G <= c) ->
  ex P (d + n) x (fun s => G (drop d s)) <= c.
Proof.
move=> HP H; rewrite ex_drop -[c]mul1r -(pw_sum HP d x) mulr_suml; apply: ler_sum => z _.
by rewrite ler_wpmul2l ?(pw_ge0 HP).
Qed.
End Chain.
