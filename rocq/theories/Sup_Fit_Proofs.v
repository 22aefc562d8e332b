(* Regularised least squares: the weights of setup_fit_alpha_dep minimise the loss among all weights
   that vanish on the inactive elements. *)
From Verif Require Import Base Sup_Model Sup_Fit_Model.
Import Num.Theory Order.TTheory.
Local Open Scope ring_scope.

Section Alg.
Variable A : comRingType.
Add Ring RX : (r_theory A).
Lemma alg_perm4 (a b c d : A) : a * (b * (c * d)) = c * (d * (b * a)).
Proof. by mring A. Qed.
Lemma alg_row (s y m cm : A) (cy : A) (d cd : A) :
  s * ((y - (m + d)) * (cy - (cm + cd))) =
  s * ((y - m) * (cy - cm)) + s * (d * cd) - s * ((y - m) * cd) - s * ((cy - cm) * d).
Proof. by mring A. Qed.
Lemma alg_reg (a x cx d cd : A) : a * ((x + d) * (cx + cd)) = a * (x * cx) + a * (d * cd) + a * (x * cd) + a * (cx * d).
Proof. by mring A. Qed.
Lemma alg_fin (b l1 q1 r1 c1 l2 q2 r2 c2 : A) :
  b * (l1 + q1 - r1 - c1) + (l2 + q2 + r2 + c2) = (b * l1 + l2) + (b * q1 + q2) + (r2 - b * r1) + (c2 - b * c1).
Proof. by mring A. Qed.
Lemma alg_sum8 (a1 a2 a3 a4 b1 b2 b3 b4 : A) :
  a4 + a3 - a2 - a1 + (b2 + b1 - b4 - b3) = a4 + b2 + (a3 + b1) - (a2 + b4) - (a1 + b3).
Proof. by mring A. Qed.
End Alg.

Section Loss.
Variables (C : numFieldType) (conj : {rmorphism C -> C}) (n : nat).
Hypothesis conjK : involutive conj.
Hypothesis norm_ge0 : forall x, 0 <= x * conj x.
Hypothesis conj_ge0 : forall x, 0 <= x -> conj x = x.

(* the loss: beta sum_i s_i |y_i - (K x)_i|^2 + sum_j al_j |x_j|^2 *)
Definition loss (beta : C) (al : 'I_n -> C) (ranks : seq (seq (frow C n))) (x : 'cV[C]_n) : C :=
  beta * (\sum_(rk <- ranks) \sum_(r <- rk)
    fs r * ((fy r - (fk r *m x) 0 0) * conj (fy r - (fk r *m x) 0 0)))
  + \sum_(i < n) al i * (x i 0 * conj (x i 0)).

Definition quad (beta : C) (al : 'I_n -> C) (ranks : seq (seq (frow C n))) (x : 'cV[C]_n) : C :=
  beta * (\sum_(rk <- ranks) \sum_(r <- rk) fs r * ((fk r *m x) 0 0 * conj ((fk r *m x) 0 0)))
  + \sum_(i < n) al i * (x i 0 * conj (x i 0)).

Lemma sum_all_ge0 (T : Type) (P : pred T) (F : T -> C) s : (forall x, P x -> 0 <= F x) -> all P s ->
  0 <= \sum_(x <- s) F x.
Proof.
move=> H; elim: s => [|x s IH] /=; first by rewrite big_nil.
by case/andP=> Hx Hs; rewrite big_cons addr_ge0 ?H ?IH.
Qed.
Lemma sum_all_eq0 (T : Type) (P : pred T) (F G : T -> C) s : (forall x, P x -> 0 <= F x) ->
  (forall x, P x -> F x = 0 -> G x = 0) -> all P s -> \sum_(x <- s) F x = 0 -> \sum_(x <- s) G x = 0.
Proof.
move=> H HG; elim: s => [|x s IH] /=; first by rewrite !big_nil.
case/andP=> Hx Hs; rewrite !big_cons => /eqP; rewrite paddr_eq0 ?H ?(sum_all_ge0 H) // => /andP[/eqP H1 /eqP H2].
by rewrite IH // HG // addr0.
Qed.

Lemma sum_flatten (T : Type) (F : T -> C) (rr : seq (seq T)) :
  \sum_(rk <- rr) \sum_(x <- rk) F x = \sum_(x <- flatten rr) F x.
Proof. by elim: rr => [|a rr IH] /=; rewrite ?big_nil // big_cons big_cat IH. Qed.

Variables (beta : C) (al : 'I_n -> C) (ranks : seq (seq (frow C n))).
Hypothesis beta_gt0 : 0 < beta.
Hypothesis al_ge0 : forall i, 0 <= al i.
Hypothesis fs_ge0 : all (all (fun r => 0 <= fs r)) ranks.
Let rows := flatten ranks.
Let rows_ge0 : all (fun r => 0 <= fs r) rows.
Proof. by rewrite /rows; elim: ranks fs_ge0 => //= a rr IH /andP[H1 H2]; rewrite all_cat H1 IH. Qed.

Lemma quadE x : quad beta al ranks x =
  beta * (\sum_(r <- rows) fs r * ((fk r *m x) 0 0 * conj ((fk r *m x) 0 0)))
  + \sum_(i < n) al i * (x i 0 * conj (x i 0)).
Proof. by rewrite /quad sum_flatten. Qed.
Lemma lossE x : loss beta al ranks x =
  beta * (\sum_(r <- rows) fs r * ((fy r - (fk r *m x) 0 0) * conj (fy r - (fk r *m x) 0 0)))
  + \sum_(i < n) al i * (x i 0 * conj (x i 0)).
Proof. by rewrite /loss sum_flatten. Qed.

Lemma quad_ge0 x : 0 <= quad beta al ranks x.
Proof.
rewrite quadE; apply: addr_ge0.
  apply: mulr_ge0; first exact: ltW.
  by apply: (sum_all_ge0 _ rows_ge0) => r Hr; rewrite mulr_ge0.
by apply: sumr_ge0 => i _; rewrite mulr_ge0.
Qed.

(* the gradient term *)
Definition resid (x : 'cV[C]_n) (i : 'I_n) : C :=
  (KtK_alpha_of beta al (KtK_of conj ranks) *m x) i 0 - beta * y_of conj ranks i 0.

Lemma resid_sum (x d : 'cV[C]_n) :
  \sum_i conj (d i 0) * resid x i =
  \sum_i al i * (x i 0 * conj (d i 0))
  - beta * \sum_(r <- rows) fs r * ((fy r - (fk r *m x) 0 0) * conj ((fk r *m d) 0 0)).
Proof.
have E i : resid x i = al i * x i 0 - beta * \sum_(r <- rows) conj (fk r 0 i) * (fs r * (fy r - (fk r *m x) 0 0)).
  have Ek : \sum_j KtK_of conj ranks i j * x j 0 = \sum_(r <- rows) conj (fk r 0 i) * (fs r * (fk r *m x) 0 0).
    under eq_bigr => j _ do rewrite mxE sum_flatten big_distrl /=.
    rewrite exchange_big /=; apply: eq_bigr => r _; rewrite mxE !big_distrr /=.
    by apply: eq_bigr => j _; rewrite -!mulrA.
  rewrite /resid mxE mxE sum_flatten.
  under [X in X - _]eq_bigr => j _ do rewrite mxE mulrDl -mulrA.
  have Ed : \sum_j (if i == j then al i else 0) * x j 0 = al i * x i 0.
    by rewrite (bigD1 i) //= eqxx big1 ?addr0 // => j /negPf; rewrite eq_sym => ->; rewrite mul0r.
  rewrite big_split /= -big_distrr /= Ek Ed.
  under [X in _ = _ - _ * X]eq_bigr => r _ do rewrite !mulrBr.
  by rewrite sumrB mulrBr opprB addrA [al i * _ + _]addrC.
under eq_bigr => i _ do rewrite E mulrBr mulrCA [conj _ * x i 0]mulrC.
rewrite sumrB; congr (_ - _).
under eq_bigr => i _ do rewrite mulrCA.
rewrite -big_distrr /=; congr (_ * _).
under eq_bigr => i _ do rewrite big_distrr /=.
rewrite exchange_big /=; apply: eq_bigr => r _.
rewrite [(fk r *m d) 0 0]mxE rmorph_sum !big_distrr /=; apply: eq_bigr => i _.
by rewrite rmorphM /= alg_perm4.
Qed.

Lemma loss_shift (x d : 'cV[C]_n) :
  loss beta al ranks (x + d) = loss beta al ranks x + quad beta al ranks d
    + \sum_i conj (d i 0) * resid x i + conj (\sum_i conj (d i 0) * resid x i).
Proof.
rewrite resid_sum !lossE quadE rmorphB rmorphM /= (conj_ge0 (ltW beta_gt0)) !rmorph_sum /=.
have Eb : \sum_(r <- rows) fs r * ((fy r - (fk r *m (x + d)) 0 0) * conj (fy r - (fk r *m (x + d)) 0 0)) =
  \sum_(r <- rows) fs r * ((fy r - (fk r *m x) 0 0) * conj (fy r - (fk r *m x) 0 0))
  + \sum_(r <- rows) fs r * ((fk r *m d) 0 0 * conj ((fk r *m d) 0 0))
  - \sum_(r <- rows) fs r * ((fy r - (fk r *m x) 0 0) * conj ((fk r *m d) 0 0))
  - \sum_(r <- rows) conj (fs r * ((fy r - (fk r *m x) 0 0) * conj ((fk r *m d) 0 0))).
  elim: rows rows_ge0 => [|r rr IH] /=; first by rewrite !big_nil addr0 !subr0.
  case/andP=> Hr Hrr; rewrite !big_cons {}IH // mulmxDr mxE !rmorphB !rmorphD !rmorphM /= conjK (conj_ge0 Hr) alg_row.
  rewrite !rmorphB /=.
  move: (fs r * _) (fs r * _) (fs r * _) (fs r * _) => a1 a2 a3 a4; move: (\sum_(_ <- _) _) (\sum_(_ <- _) _) => b1 b2.
  move: (\sum_(_ <- _) _) (\sum_(_ <- _) _) => b3 b4.
  exact: alg_sum8.
have Er : \sum_(i < n) al i * ((x + d) i 0 * conj ((x + d) i 0)) =
  \sum_(i < n) al i * (x i 0 * conj (x i 0)) + \sum_(i < n) al i * (d i 0 * conj (d i 0))
  + \sum_(i < n) al i * (x i 0 * conj (d i 0)) + \sum_(i < n) conj (al i * (x i 0 * conj (d i 0))).
  rewrite -!big_split /=; apply: eq_bigr => i _; rewrite mxE !rmorphD !rmorphM /= conjK (conj_ge0 (al_ge0 i)).
  exact: alg_reg.
by rewrite Eb Er alg_fin.
Qed.

Lemma quad_resid (d : 'cV[C]_n) :
  \sum_i conj (d i 0) * (KtK_alpha_of beta al (KtK_of conj ranks) *m d) i 0 = quad beta al ranks d.
Proof.
have E i : (KtK_alpha_of beta al (KtK_of conj ranks) *m d) i 0 = resid d i - resid 0 i.
  by rewrite /resid mulmx0 [(0 : 'cV_n) _ _]mxE sub0r opprK subrK.
under eq_bigr => i _ do rewrite E mulrBr.
rewrite sumrB !resid_sum quadE.
rewrite [X in _ - (X - _)]big1 => [|i _]; last by rewrite mxE mul0r mulr0.
rewrite sub0r opprK addrC [RHS]addrC addrCA; congr (_ + _); rewrite -mulrN -mulrDr; congr (_ * _).
rewrite -sumrB; apply: eq_bigr => r _; rewrite mulmx0 mxE subr0.
by rewrite -mulrBr -mulrBl opprB addrC subrK.
Qed.

Lemma y_kernel (d : 'cV[C]_n) : quad beta al ranks d = 0 -> \sum_i conj (d i 0) * y_of conj ranks i 0 = 0.
Proof.
rewrite quadE => /eqP; rewrite paddr_eq0; last first.
- by apply: sumr_ge0 => i _; rewrite mulr_ge0.
- apply: mulr_ge0; first exact: ltW.
  by apply: (sum_all_ge0 _ rows_ge0) => r Hr; rewrite mulr_ge0.
case/andP; rewrite mulf_eq0 (gt_eqF beta_gt0) /= => /eqP H0 _.
apply: (mulfI (lt0r_neq0 beta_gt0)); rewrite mulr0.
have E : \sum_i conj (d i 0) * resid 0 i = - (beta * \sum_i conj (d i 0) * y_of conj ranks i 0).
  rewrite -mulrN -sumrN big_distrr /=; apply: eq_bigr => i _.
  by rewrite /resid mulmx0 [(0 : 'cV_n) _ _]mxE sub0r mulrN mulrN mulrCA.
apply: oppr_inj; rewrite -E oppr0 resid_sum big1 => [|i _]; last by rewrite mxE mul0r mulr0.
rewrite sub0r; apply/eqP; rewrite oppr_eq0 mulf_eq0 (gt_eqF beta_gt0) /=; apply/eqP.
apply: (sum_all_eq0 _ _ rows_ge0 H0) => r Hr; first by rewrite mulr_ge0.
move/eqP; rewrite !mulf_eq0 (fmorph_eq0 conj) orbb => /orP[/eqP ->|/eqP ->]; first by rewrite mul0r.
by rewrite rmorph0 !mulr0.
Qed.

(* --- the active block *)
Variable act : pred 'I_n.
Definition embed (v : 'cV[C]_#|act|) : 'cV[C]_n := \col_i \sum_(k < #|act| | enum_val k == i) v k 0.

Lemma embedE v k : embed v (enum_val k) 0 = v k 0.
Proof.
rewrite mxE (bigD1 k) //= big1 ?addr0 // => j /andP[/eqP H1 H2].
by case/negP: H2; apply/eqP/enum_val_inj.
Qed.
Lemma embed_out v i : ~~ act i -> embed v i 0 = 0.
Proof.
move=> Hi; rewrite mxE big1 // => k /eqP Hk; case/negP: Hi; rewrite -Hk.
by move: (enum_valP k).
Qed.
Lemma embed_sum (v : 'cV[C]_#|act|) (F : 'I_n -> C -> C) : (forall i, F i 0 = 0) ->
  \sum_i F i (embed v i 0) = \sum_k F (enum_val k) (v k 0).
Proof.
move=> HF; rewrite (bigID (mem act)) /= [X in _ + X]big1 ?addr0; last first.
  by move=> i Hi; rewrite embed_out.
by rewrite big_enum_val; apply: eq_bigr => k _; rewrite embedE.
Qed.

Let KA := KtK_alpha_of beta al (KtK_of conj ranks).

Lemma KA_herm i j : conj (KA i j) = KA j i.
Proof.
rewrite !mxE rmorphD rmorphM /= (conj_ge0 (ltW beta_gt0)) !sum_flatten; congr (_ * _ + _).
  rewrite -/rows rmorph_sum; elim: rows rows_ge0 => [|r rr IH] /=; first by rewrite !big_nil.
  case/andP=> Hr Hrr; rewrite !big_cons {}IH //; congr (_ + _).
  by rewrite !rmorphM /= conjK (conj_ge0 Hr) mulrCA [in RHS]mulrCA [fk _ _ _ * _]mulrC.
rewrite eq_sym; case: eqP => [->|_]; last exact: rmorph0.
exact: conj_ge0.
Qed.

Lemma sub_mulE (x : 'cV[C]_#|act|) k : (sub_mat act KA *m x) k 0 = (KA *m embed x) (enum_val k) 0.
Proof.
rewrite !mxE (embed_sum x (F := fun j v => KA (enum_val k) j * v)); last by move=> i; rewrite mulr0.
by apply: eq_bigr => j _; rewrite mxE.
Qed.

(* the linear system of the active elements has a solution *)
Lemma active_solvable : exists x, sub_mat act KA *m x = sub_vec act (y_of conj ranks).
Proof.
set A := sub_mat act KA; set y := sub_vec act _.
suff: (y^T <= A^T)%MS by case/submxP => z Hz; exists z^T; apply: trmx_inj; rewrite trmx_mul trmxK -Hz.
rewrite submxE; apply/eqP/matrixP => i0 j; rewrite [i0]ord1 [RHS]mxE.
set c := cokermx A^T.
pose v : 'cV[C]_#|act| := \col_k conj (c k j).
have Hv : A *m v = 0.
  apply/matrixP => k l; rewrite [l]ord1 !mxE.
  have /matrixP/(_ k j) : A^T *m c = 0 by exact: mulmx_coker.
  rewrite [(A^T *m c) k j]mxE [RHS]mxE => H.
  apply: etrans (_ : conj (\sum_h A^T k h * c h j) = 0); last by rewrite H rmorph0.
  rewrite rmorph_sum; apply: eq_bigr => h _.
  have AE a b : A a b = KA (enum_val a) (enum_val b) by rewrite mxE.
  by rewrite rmorphM /= [A^T k h]mxE !AE KA_herm [v h 0]mxE.
have Hq : quad beta al ranks (embed v) = 0.
  rewrite -quad_resid -/KA (eq_bigr (fun i => conj (embed v i 0) * (KA *m embed v) i 0)) //.
  rewrite (bigID (mem act)) /= [X in _ + X]big1 ?addr0; last by move=> i Hi; rewrite embed_out // rmorph0 mul0r.
  rewrite big_enum_val big1 // => k _; by rewrite -sub_mulE Hv [(0 : matrix _ _ _) _ _]mxE mulr0.
have := y_kernel Hq.
rewrite (embed_sum v (F := fun i z => conj z * y_of conj ranks i 0)); last by move=> i; rewrite rmorph0 mul0r.
by move=> H; rewrite mxE -[RHS]H; apply: eq_bigr => k _; rewrite !mxE conjK mulrC.
Qed.

(* --- the solver: exact on every solvable system (Cholesky where the matrix is positive definite,
   the pseudo-inverse of a Hermitian matrix otherwise) *)
Definition exact_solver (solve : forall m, 'M[C]_m -> 'cV[C]_m -> 'cV[C]_m) : Prop :=
  forall m (A : 'M[C]_m) (v : 'cV[C]_m), (exists x, A *m x = v) -> A *m solve m A v = v.

Variable solve : forall m, 'M[C]_m -> 'cV[C]_m -> 'cV[C]_m.
Hypothesis solveP : exact_solver solve.
Let W := weights_of solve act beta KA (y_of conj ranks).

Lemma W_embed : W = embed (beta *: solve (sub_mat act KA) (sub_vec act (y_of conj ranks))).
Proof. by apply/matrixP => i j; rewrite [j]ord1 !mxE; apply: eq_bigr => k _; rewrite mxE. Qed.

Lemma W_out i : ~~ act i -> W i 0 = 0.
Proof. by move=> Hi; rewrite W_embed embed_out. Qed.

Lemma W_resid i : act i -> resid W i = 0.
Proof.
move=> Hi; pose k := enum_rank_in (A := act) Hi i.
have <- : enum_val k = i by rewrite enum_rankK_in.
rewrite /resid -/KA W_embed -sub_mulE -scalemxAr mxE solveP; last exact: active_solvable.
by rewrite mxE subrr.
Qed.

Theorem W_loss (x : 'cV[C]_n) : (forall i, ~~ act i -> x i 0 = 0) ->
  loss beta al ranks x = loss beta al ranks W + quad beta al ranks (x - W).
Proof.
move=> Hx; rewrite -{1}(subrK W x) addrC loss_shift big1 ?rmorph0 ?addr0 // => i _.
have [Hi|Hi] := boolP (act i); first by rewrite W_resid ?mulr0.
have -> : (x - W) i 0 = x i 0 - W i 0 by rewrite mxE [(- W) i 0]mxE.
by rewrite Hx // W_out // subrr rmorph0 mul0r.
Qed.

Theorem W_minimal (x : 'cV[C]_n) : (forall i, ~~ act i -> x i 0 = 0) ->
  loss beta al ranks W <= loss beta al ranks x.
Proof. by move=> Hx; rewrite (W_loss Hx) ler_addl quad_ge0. Qed.

(* unique where all active elements are regularised *)
Theorem W_unique (x : 'cV[C]_n) : (forall i, act i -> 0 < al i) -> (forall i, ~~ act i -> x i 0 = 0) ->
  loss beta al ranks x <= loss beta al ranks W -> x = W.
Proof.
move=> Ha Hx; rewrite (W_loss Hx) -ler_subr_addl subrr => H.
have /eqP : quad beta al ranks (x - W) = 0 by apply/eqP; rewrite eq_le H quad_ge0.
rewrite quadE paddr_eq0; last first.
- by apply: sumr_ge0 => i _; rewrite mulr_ge0.
- apply: mulr_ge0; first exact: ltW.
  by apply: (sum_all_ge0 _ rows_ge0) => r Hr; rewrite mulr_ge0.
case/andP=> _; rewrite psumr_eq0 => [|i _]; last by rewrite mulr_ge0.
move/allP=> Hall; apply/matrixP => i j; rewrite [j]ord1.
have [Hi|Hi] := boolP (act i); last by rewrite Hx // W_out.
move: (Hall i (mem_index_enum i)); rewrite /= !mulf_eq0 (fmorph_eq0 conj) orbb (gt_eqF (Ha i Hi)) /=.
have -> : (x - W) i 0 = x i 0 - W i 0 by rewrite mxE [(- W) i 0]mxE.
by rewrite subr_eq0 => /eqP.
Qed.

Lemma KtK_diag0 j : KtK_of conj ranks j j = 0 -> forall i, KtK_of conj ranks i j = 0.
Proof.
rewrite mxE sum_flatten -/rows => H0 i; rewrite mxE sum_flatten -/rows.
apply: (sum_all_eq0 _ _ rows_ge0 H0) => r Hr; first by rewrite mulrCA mulr_ge0 // mulrC.
move/eqP; rewrite !mulf_eq0 (fmorph_eq0 conj) => /or3P[|/eqP ->|] /=; last 1 first.
- by move/eqP=> ->; rewrite !mulr0.
- by move/eqP=> ->; rewrite !mulr0.
by rewrite mul0r mulr0.
Qed.

(* weights that agree with W on the active elements minimise the loss over these elements, all others
   held fixed, provided each of the others vanishes or has a vanishing feature *)
Theorem agree_minimal (x z : 'cV[C]_n) : (forall i, act i -> x i 0 = W i 0) ->
  (forall i, ~~ act i -> x i 0 = 0 \/ KtK_of conj ranks i i = 0) ->
  (forall i, ~~ act i -> z i 0 = x i 0) ->
  loss beta al ranks x <= loss beta al ranks z.
Proof.
move=> Hx H0 Hz; rewrite -[z](subrK x) [_ - _ + _]addrC loss_shift.
rewrite [X in _ <= _ + X + conj X]big1 ?rmorph0 ?addr0; first by rewrite ler_addl quad_ge0.
move=> i _; have E : (z - x) i 0 = z i 0 - x i 0 by rewrite mxE [(- x) i 0]mxE.
have [Hi|Hi] := boolP (act i); last by rewrite E Hz // subrr rmorph0 mul0r.
suff -> : resid x i = 0 by rewrite mulr0.
rewrite -(W_resid Hi) /resid; congr (_ - _); rewrite -/KA !mxE; apply: eq_bigr => j _.
have [Hj|Hj] := boolP (act j); first by rewrite Hx.
rewrite W_out // mulr0; case: (H0 j Hj) => [->|H]; first by rewrite mulr0.
rewrite [KA i j]mxE (KtK_diag0 H) mulr0 add0r; case: eqP => [E'|_]; last by rewrite mul0r.
by move: Hj; rewrite -E' Hi.
Qed.
End Loss.

(* such a solver exists over every field *)
Lemma exact_solver_exists (C : numFieldType) : exists solve, @exact_solver C solve.
Proof.
exists (fun m (A : 'M[C]_m) (v : 'cV[C]_m) => (v^T *m pinvmx A^T)^T) => m A v [x Hx].
apply: trmx_inj; rewrite trmx_mul trmxK mulmxKpV //.
by apply/submxP; exists x^T; rewrite -Hx trmx_mul.
Qed.
