(* C131: the update of VMC_SRRMSProp for complex parameters *)
From Verif Require Import Base SRR_Model SRR_Props SRR_Ranks SRR_Pytree_Model.
Import Num.Theory GRing.Theory.
Local Open Scope ring_scope.

Lemma sum_all (T : Type) (V : zmodType) (Q : pred T) (f g : T -> V) (l : seq T) :
  all Q l -> (forall x, Q x -> f x = g x) -> \sum_(x <- l) f x = \sum_(x <- l) g x.
Proof. by move=> h e; elim: l h => [|x l IH] /=; rewrite ?big_nil // !big_cons => /andP[/e -> /IH ->]. Qed.
Lemma map_all (T U : Type) (Q : pred T) (f g : T -> U) (l : seq T) :
  all Q l -> (forall x, Q x -> f x = g x) -> map f l = map g l.
Proof. by move=> h e; elim: l h => [|x l IH] //= /andP[/e -> /IH ->]. Qed.
Lemma zip_flatten_all (T A B : Type) (Q : pred T) (f : T -> seq A) (g : T -> seq B) (l : seq T) :
  all Q l -> (forall x, Q x -> size (f x) = size (g x)) ->
  zip (flatten (map f l)) (flatten (map g l)) = flatten [seq zip (f x) (g x) | x <- l].
Proof. by move=> h e; elim: l h => [|x l IH] //= /andP[/e h /IH <-]; rewrite zip_cat. Qed.

(* as many derivatives and energies as samples on every rank *)
Definition shaped (R : rcfType) (P : nat) (rk : rank_data R P) : bool :=
  (size (o_re rk) == size (o_im rk)) && (size (o_re rk) == size (energies rk)).

Section Rows.
Variables (R : rcfType) (P : nat) (ranks : seq (rank_data R P)).
Hypothesis Hs : all (@shaped R P) ranks.
Let ranks2 := map (@split_rank R P) ranks.

Lemma sum_row_mx (T : Type) (l : seq T) (f g : T -> 'rV[R]_P) :
  \sum_(x <- l) row_mx (f x) (g x) = row_mx (\sum_(x <- l) f x) (\sum_(x <- l) g x).
Proof.
elim: l => [|x l IH]; first by rewrite !big_nil row_mx0.
by rewrite !big_cons IH add_row_mx.
Qed.
Lemma sum_zip1 (A B : Type) (V : zmodType) (f : A -> V) (s : seq A) (t : seq B) : size s = size t ->
  \sum_(p <- zip s t) f p.1 = \sum_(x <- s) f x.
Proof. by move=> h; rewrite -[in RHS](@unzip1_zip _ _ s t) ?h // big_map. Qed.
Lemma sum_zip2 (A B : Type) (V : zmodType) (f : B -> V) (s : seq A) (t : seq B) : size s = size t ->
  \sum_(p <- zip s t) f p.2 = \sum_(x <- t) f x.
Proof. by move=> h; rewrite -[in RHS](@unzip2_zip _ _ s t) ?h // big_map. Qed.

Lemma mean_re : o_mean ranks2 (@o_re R _) = row_mx (o_mean ranks (@o_re R P)) (- o_mean ranks (@o_im R P)).
Proof.
rewrite /o_mean size_map -scalerN -scale_row_mx -sumrN -sum_row_mx; congr (_ *: _); rewrite big_map.
apply: (sum_all Hs) => rk /andP[/eqP h _]; rewrite /= big_map sum_row_mx size_map size_zip -h minnn.
by rewrite (sum_zip1 id) // (sum_zip2 (fun x => - x)) // sumrN scale_row_mx scalerN.
Qed.
Lemma mean_im : o_mean ranks2 (@o_im R _) = row_mx (o_mean ranks (@o_im R P)) (o_mean ranks (@o_re R P)).
Proof.
rewrite /o_mean size_map -scale_row_mx -sum_row_mx; congr (_ *: _); rewrite big_map.
apply: (sum_all Hs) => rk /andP[/eqP h _]; rewrite /= big_map sum_row_mx size_map size_zip -h minnn.
by rewrite (sum_zip1 id) // (sum_zip2 id) // scale_row_mx.
Qed.

(* the centred rows of the holomorphic derivatives, all ranks *)
Let rows := zip (gathered ranks (@o_re R P)) (gathered ranks (@o_im R P)).

Lemma n_mc_split rk : shaped rk -> n_mc ranks2 (split_rank rk) = n_mc ranks rk.
Proof. by case/andP=> /eqP h _; rewrite /n_mc /= !size_map size_zip -h minnn. Qed.

Lemma rowsE : rows = flatten [seq [seq (Num.sqrt (n_mc ranks rk)%:R *: (p.1 - o_mean ranks (@o_re R P)),
                                       Num.sqrt (n_mc ranks rk)%:R *: (p.2 - o_mean ranks (@o_im R P)))
                                 | p <- zip (o_re rk) (o_im rk)] | rk <- ranks].
Proof.
rewrite /rows /gathered (zip_flatten_all Hs); last by move=> rk /andP[/eqP h _]; rewrite !size_map.
congr flatten; apply: eq_map => rk.
by elim: (o_re rk) (o_im rk) => [|x l IH] [|y m] //=; rewrite IH.
Qed.
Lemma gathered_re : gathered ranks2 (@o_re R _) = [seq row_mx p.1 (- p.2) | p <- rows].
Proof.
rewrite rowsE map_flatten /gathered -!map_comp; congr flatten; apply: (map_all Hs) => rk h /=.
rewrite n_mc_split // mean_re -!map_comp; apply: eq_map => p /=.
by rewrite opp_row_mx add_row_mx scale_row_mx -opprD scalerN.
Qed.
Lemma gathered_im : gathered ranks2 (@o_im R _) = [seq row_mx p.2 p.1 | p <- rows].
Proof.
rewrite rowsE map_flatten /gathered -!map_comp; congr flatten; apply: (map_all Hs) => rk h /=.
rewrite n_mc_split // mean_im -!map_comp; apply: eq_map => p /=.
by rewrite opp_row_mx add_row_mx scale_row_mx.
Qed.
End Rows.

Section C131.
Variables (R : rcfType) (P : nat) (ranks : seq (rank_data R P)) (e_mean : R * R).
Variables (ema : 'cV[R]_(P + P)) (step : nat) (diag_shift decay eps : R).
Variable solver : 'M[R]_(P + P) -> 'cV[R]_(P + P) -> 'cV[R]_(P + P).
(* any commutative ring that contains R and a square root of -1, e.g. the complex numbers *)
Variables (C : comRingType) (emb : {rmorphism R -> C}) (i : C).
Hypothesis ii : i * i = -1.
Add Ring C_ring : (r_theory C).

(* complex numbers and their conjugates from real and imaginary part *)
Definition cplx (x y : R) : C := emb x + i * emb y.
Definition ccnj (x y : R) : C := emb x - i * emb y.
Definition c_row (p : 'rV[R]_P * 'rV[R]_P) : 'rV[C]_P := \row_a cplx (p.1 0 a) (p.2 0 a).
Definition c_adj (p : 'rV[R]_P * 'rV[R]_P) : 'cV[C]_P := \col_a ccnj (p.1 0 a) (p.2 0 a).
(* the complex vector of a vector of real, then imaginary parts *)
Definition joined (w : 'cV[R]_(P + P)) : 'cV[C]_P := \col_a cplx (w (lshift P a) 0) (w (rshift P a) 0).

Lemma joinedD x y : joined (x + y) = joined x + joined y.
Proof. by apply/matrixP => a j; rewrite !mxE /cplx !rmorphD; mring C. Qed.
Lemma joined0 : joined 0 = 0.
Proof. by apply/matrixP => a j; rewrite !mxE /cplx !rmorph0 mulr0 addr0. Qed.
Lemma joined_sum (T : Type) (l : seq T) (f : T -> 'cV[R]_(P + P)) :
  joined (\sum_(x <- l) f x) = \sum_(x <- l) joined (f x).
Proof. exact: (big_morph joined joinedD joined0). Qed.

Lemma joined_grad (p : 'rV[R]_P * 'rV[R]_P) (e : R * R) :
  joined (e.1 *: (row_mx p.1 (- p.2))^T + (- e.2) *: (row_mx p.2 p.1)^T) = ccnj e.1 e.2 *: c_adj p.
Proof.
apply/matrixP => a j; rewrite (ord1 j) !tr_row_mx !scale_col_mx add_col_mx mxE col_mxEu col_mxEd !mxE.
rewrite /cplx /ccnj !rmorphD !rmorphM !rmorphN.
transitivity (emb e.1 * emb (p.1 0 a) - i * (emb e.1 * emb (p.2 0 a)) - i * (emb e.2 * emb (p.1 0 a))
   + i * i * (emb e.2 * emb (p.2 0 a))); last by mring C.
by rewrite ii; mring C.
Qed.
Lemma joined_S (p : 'rV[R]_P * 'rV[R]_P) (w : 'cV[R]_(P + P)) :
  joined ((row_mx p.1 (- p.2))^T *m row_mx p.1 (- p.2) *m w + (row_mx p.2 p.1)^T *m row_mx p.2 p.1 *m w)
  = c_adj p *m (c_row p *m joined w).
Proof.
rewrite -!mulmxA; set A := row_mx p.1 _ *m w; set B := row_mx p.2 _ *m w.
have hc : (c_row p *m joined w) 0 0 = cplx (A 0 0) (B 0 0).
  rewrite /A /B !mxE !big_split_ord /= /cplx !rmorphD !rmorph_sum mulrDr !mulr_sumr -!big_split /=.
  apply: eq_bigr => k _; rewrite !row_mxEl !row_mxEr !mxE /cplx !rmorphM !rmorphN.
  transitivity (emb (p.1 0 k) * emb (w (lshift P k) 0) + i * (emb (p.1 0 k) * emb (w (rshift P k) 0))
    + i * (emb (p.2 0 k) * emb (w (lshift P k) 0)) + i * i * (emb (p.2 0 k) * emb (w (rshift P k) 0))); first by mring C.
  by rewrite ii; mring C.
move: A B hc => A B hc.
apply/matrixP => a j; rewrite (ord1 j) [RHS]mxE big_ord1 hc [LHS]mxE !tr_row_mx !mul_col_mx add_col_mx.
rewrite col_mxEu col_mxEd !mxE !big_ord1 !mxE /cplx /ccnj !rmorphD !rmorphM !rmorphN.
transitivity (emb (p.1 0 a) * emb (A 0 0) + i * (emb (p.1 0 a) * emb (B 0 0))
    - i * (emb (p.2 0 a) * emb (A 0 0)) - i * i * (emb (p.2 0 a) * emb (B 0 0))); last by mring C.
by rewrite ii; mring C.
Qed.

(* C131, what holds: in mode "complex" the vector of real and imaginary parts solves the complex equation of
   stochastic reconfiguration; sums over the samples of all ranks with centred, scaled rows and energies
   (conjugated and times -2, L28).  The regularisation acts on real and imaginary parts separately. *)
Theorem C131_complex_partial : all (@shaped R P) ranks ->
  0 < diag_shift -> 0 < eps -> (forall M b, M \in unitmx -> M *m solver M b = b) ->
  let d := ema_hat true (map (@split_rank R P) ranks) e_mean ema step decay in
  let w := root_updates true (map (@split_rank R P) ranks) e_mean ema step diag_shift decay eps solver in
  let rows := zip (gathered ranks (@o_re R P)) (gathered ranks (@o_im R P)) in
  (\sum_(p <- rows) c_adj p *m c_row p) *m joined w
    + joined (\col_a (diag_shift * (Num.sqrt (d a 0) + eps) * w a 0))
  = \sum_(p <- zip rows (flatten [seq energies_centered ranks e_mean rk | rk <- ranks])) ccnj p.2.1 p.2.2 *: c_adj p.1.
Proof.
move=> Hs s0 e0 Hinv d w rows.
pose S := S_matrix true (map (@split_rank R P) ranks) e_mean ema step diag_shift decay eps.
pose g := gradient true (map (@split_rank R P) ranks) e_mean.
have Hsol : S *m solver S g = g.
  apply: Hinv; apply: posdef_unit.
  by have [] := C47_posdef true decay (Driver ema step) (i := StepInput (map (@split_rank R P) ranks) e_mean diag_shift) s0 e0.
have gre := gathered_re Hs; have gim := gathered_im Hs.
have Eg : joined g = \sum_(p <- zip rows (flatten [seq energies_centered ranks e_mean rk | rk <- ranks])) ccnj p.2.1 p.2.2 *: c_adj p.1.
  have sz : size (flatten [seq energies_centered ranks e_mean rk | rk <- ranks]) = size rows.
    rewrite /rows rowsE // !size_flatten /shape -!map_comp; congr sumn; apply: (map_all Hs) => rk.
    by case/andP=> /eqP h1 /eqP h2; rewrite /= !size_map size_zip -h1 minnn.
  rewrite /g /gradient /dense_O /dense_E gre gim.
  have -> : flatten [seq energies_centered (map (@split_rank R P) ranks) e_mean rk | rk <- map (@split_rank R P) ranks]
     = flatten [seq energies_centered ranks e_mean rk | rk <- ranks].
    rewrite -map_comp; congr flatten; apply: (map_all Hs) => rk h /=.
    by rewrite /energies_centered n_mc_split.
  move: (flatten _) sz => es sz; rewrite zip_cat ?size_map // big_cat joinedD /=.
  rewrite -joinedD -/rows.
  have -> : \sum_(p <- zip [seq row_mx p.1 (- p.2) | p <- rows] [seq e.1 | e <- es]) p.2 *: p.1^T
          + \sum_(p <- zip [seq row_mx p.2 p.1 | p <- rows] [seq - e.2 | e <- es]) p.2 *: p.1^T
     = \sum_(p <- zip rows es) (p.2.1 *: (row_mx p.1.1 (- p.1.2))^T + (- p.2.2) *: (row_mx p.1.2 p.1.1)^T).
    move: rows es {sz}; elim => [|p l IH] [|e es]; rewrite ?big_nil ?addr0 //=.
    by rewrite !big_cons /= -IH addrACA.
  by rewrite joined_sum; apply: eq_bigr => p _; rewrite joined_grad.
rewrite -Eg -Hsol -/w; rewrite {1}/S /S_matrix mulmxDl joinedD; congr (_ + _).
  rewrite /dense_O gre gim big_cat !big_map /= -big_split /= !mulmx_suml joined_sum.
  by apply: eq_bigr => p _; rewrite mulmxDl joined_S mulmxA.
congr joined; apply/matrixP => a j; rewrite (ord1 j) -scalemxAl mul_diag_mx !mxE mulrA.
by [].
Qed.
End C131.

(* the vector has one entry per parameter and repacking pairs the real with the imaginary part of every
   parameter, ... *)
Theorem C131_repack (R : rcfType) (z : seq (R * R)) :
  driver_dp true true (size z) (map fst z ++ map snd z) = Some z.
Proof. by rewrite /driver_dp /= C66_repack /unravel eqxx. Qed.
Theorem C131_shape (R : rcfType) (complex_mode complex_parameters : bool) (n : nat) (updates : seq R) :
  size updates = n_columns complex_parameters n ->
  (driver_dp complex_mode complex_parameters n updates = None) <->
  [&& complex_parameters, ~~ complex_mode & (0 < n)%N].
Proof.
rewrite /driver_dp /unravel /n_columns; case: complex_parameters => h; last first.
  by rewrite andbF size_map h eqxx.
case: complex_mode => /=; last by rewrite size_map h mul2n -addnn -{3}[n]addn0 eqn_add2l; case: n {h}.
have -> : size (repack updates) = n; last by rewrite eqxx.
by rewrite /repack h mulKn // size_zip size_takel ?size_drop h mul2n -addnn ?leq_addr // addnK minnn.
Qed.
(* ... except in mode "real", the default for amplitudes with real values: there every step with complex
   parameters fails, the vector of 2 n entries does not fit n parameters *)
Theorem C131_real_mode_refuted (R : rcfType) :
  exists (n : nat) (updates : seq R), size updates = n_columns true n /\ driver_dp false true n updates = None.
Proof. by exists 1%N, [:: 1; 0]. Qed.

(* the theorem for one complex parameter, four samples on two ranks, complex numbers R[i] replaced by any
   field with a root of -1; a solver exists *)
Example C131_example (R : rcfType) (C : comRingType) (emb : {rmorphism R -> C}) (i : C) : i * i = -1 ->
  let ranks := [:: RankData [:: const_mx 1; const_mx 2%:R] [:: const_mx 3%:R; const_mx 0] [:: (1, 0); (-1, 1)];
                   RankData [:: const_mx 1; const_mx (-1)] [:: const_mx 1; const_mx 2%:R] [:: (1, 2%:R); (0, 0)]]
               : seq (rank_data R 1) in
  let split := map (@split_rank R 1) ranks in
  let solver := fun (M : 'M[R]_(1 + 1)) b => invmx M *m b in
  let w := root_updates true split (0, 0) 0 0 1 0 1 solver in
  let rows := zip (gathered ranks (@o_re R 1)) (gathered ranks (@o_im R 1)) in
  (\sum_(p <- rows) c_adj emb i p *m c_row emb i p) *m joined emb i w
    + joined emb i (\col_a (1 * (Num.sqrt (ema_hat true split (0, 0) 0 0 0 a 0) + 1) * w a 0))
  = \sum_(p <- zip rows (flatten [seq energies_centered ranks (0, 0) rk | rk <- ranks])) ccnj emb i p.2.1 p.2.2 *: c_adj emb i p.1.
Proof.
move=> ii ranks split solver w rows; apply: C131_complex_partial; rewrite ?ltr01 //.
by move=> M b hM; rewrite mulmxA mulmxV // mul1mx.
Qed.
