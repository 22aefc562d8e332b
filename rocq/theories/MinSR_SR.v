(* C46: what the minSR update solves. *)
From Verif Require Import Base MinSR_Model MinSR_Proofs MinSR_Props.
Import Num.Theory Order.TTheory.
Local Open Scope ring_scope.

Section Linear.
Variables (C : numFieldType) (conj : {rmorphism C -> C}).
Hypothesis conjK : involutive conj.
Hypothesis conj_ge0 : forall x, 0 <= x * conj x.

Definition sqnorm n (v : 'cV[C]_n) : C := \sum_a v a 0 * conj (v a 0).

Lemma sqnorm_ge0 n (v : 'cV[C]_n) : 0 <= sqnorm v.
Proof. by apply: sumr_ge0 => a _. Qed.
Lemma sqnorm_eq0 n (v : 'cV[C]_n) : sqnorm v = 0 -> v = 0.
Proof.
move=> H; apply/matrixP => a j; rewrite (ord1 j) mxE; apply/eqP.
have Ha : v a 0 * conj (v a 0) = 0 := psumr_eq0P (fun a _ => conj_ge0 (v a 0)) H isT.
by move/eqP: Ha; rewrite mulf_eq0 (fmorph_eq0 conj) orbb.
Qed.

Notation "A ^!" := (adjoint conj A) (at level 8, format "A ^!").
Lemma adjointK m n (A : 'M[C]_(m, n)) : (A^!)^! = A.
Proof. by apply/matrixP => i j; rewrite !mxE conjK. Qed.
Lemma adjointM m n p (A : 'M[C]_(m, n)) (B : 'M[C]_(n, p)) : (A *m B)^! = B^! *m A^!.
Proof. by rewrite /adjoint trmx_mul map_mxM. Qed.
Lemma sqnormE n (v : 'cV[C]_n) : sqnorm v = (v^! *m v) 0 0.
Proof. by rewrite mxE; apply: eq_bigr => a _; rewrite !mxE mulrC. Qed.
Lemma adj_kernel m n (A : 'M[C]_(m, n)) (r : 'cV[C]_m) : A *m A^! *m r = 0 -> A^! *m r = 0.
Proof.
move=> H; apply: sqnorm_eq0; rewrite sqnormE adjointM adjointK.
by rewrite -mulmxA (mulmxA A) H mulmx0 mxE.
Qed.

(* least squares in sample space gives least squares in parameter space *)
Lemma minsr_normal m n (A : 'M[C]_(m, n)) (x e : 'cV[C]_m) :
  (A *m A^!)^! *m (A *m A^! *m x - e) = 0 -> A^! *m (A *m (A^! *m x) - e) = 0.
Proof. by rewrite adjointM adjointK => /adj_kernel; rewrite -!mulmxA. Qed.

Lemma minsr_min_norm m n (A : 'M[C]_(m, n)) (x e : 'cV[C]_m) (d : 'cV[C]_n) :
  A^! *m (A *m (A^! *m x) - e) = 0 -> A^! *m (A *m d - e) = 0 -> sqnorm (A^! *m x) <= sqnorm d.
Proof.
move=> H1 H2; set u := A^! *m x in H1 *.
have H3 : A *m (d - u) = 0.
  rewrite -[A]adjointK; apply: adj_kernel; rewrite adjointK.
  have -> : A^! *m A *m (d - u) = A^! *m (A *m d - e) - A^! *m (A *m u - e).
    by rewrite !mulmxBr opprB !mulmxA addrA subrK.
  by rewrite H1 H2 subrr.
have H4 : (u^! *m (d - u)) = 0 by rewrite /u adjointM adjointK -mulmxA H3 mulmx0.
have H5 : ((d - u)^! *m u) = 0.
  have -> : (d - u)^! *m u = (u^! *m (d - u))^! by rewrite adjointM adjointK.
  by rewrite H4; apply/matrixP => i j; rewrite !mxE rmorph0.
have Ed : d = u + (d - u) by rewrite addrC subrK.
move: (d - u) Ed H4 H5 {H3} => v Ed H4 H5.
have -> : sqnorm d = sqnorm u + sqnorm v.
  rewrite !sqnormE Ed.
  have -> : (u + v)^! = u^! + v^! by apply/matrixP => i j; rewrite !mxE rmorphD.
  by rewrite mulmxDl !mulmxDr H4 H5 addr0 add0r mxE.
by rewrite ler_addl sqnorm_ge0.
Qed.

(* a least-squares solver exists *)
Definition lstsq m n (M : 'M[C]_(m, n)) (b : 'cV[C]_m) : 'cV[C]_n :=
  (b^! *m M *m pinvmx (M^! *m M))^!.
Lemma mxrank_adj m n (M : 'M[C]_(m, n)) : \rank (M^!) = \rank M.
Proof. by rewrite /adjoint mxrank_map mxrank_tr. Qed.
Lemma lstsqP m n (M : 'M[C]_(m, n)) (b : 'cV[C]_m) : M^! *m (M *m lstsq M b - b) = 0.
Proof.
have Hr : \rank (M^! *m M) = \rank M.
  have := mxrank_mul_ker (M^!) M; rewrite mxrank_adj.
  suff -> : (M^! :&: kermx M)%MS = 0 by rewrite mxrank0 addn0.
  apply/eqP/rowV0P => v; rewrite sub_capmx => /andP[/submxP[u Eu] /sub_kermxP Hv].
  have E : M *m u^! = v^! by rewrite Eu adjointM adjointK.
  have Ev : v^! = 0.
    apply: sqnorm_eq0; rewrite sqnormE adjointK -E mulmxA Hv mul0mx mxE //.
  by rewrite -[v]adjointK Ev; apply/matrixP => i j; rewrite !mxE rmorph0.
have Hs : (b^! *m M <= M^! *m M)%MS.
  apply: submx_trans (submxMl _ _) _.
  by have := mxrank_leqif_sup (submxMl (M^!) M) => /leqifP; case: ifP => // _; rewrite Hr ltnn.
have := congr1 (fun X => X^!) (mulmxKpV Hs).
rewrite (adjointM (_ *m pinvmx _)) -/(lstsq M b) [in LHS]adjointM [in RHS]adjointM !adjointK => E.
by rewrite mulmxBr mulmxA E subrr.
Qed.

Lemma minsr_shift m n (A : 'M[C]_(m, n)) (lam : C) (x e : 'cV[C]_m) :
  (A *m A^! + lam%:M) *m x = e -> (A^! *m A + lam%:M) *m (A^! *m x) = A^! *m e.
Proof.
by move=> <-; rewrite !mulmxDl !mulmxDr !mul_scalar_mx -!mulmxA -scalemxAr.
Qed.
End Linear.

(* The SR equation, written with sums over all weighted samples *)
Section Equation.
Variables (C : fieldType) (conj : C -> C) (T : Type) (P : nat) (oks : T -> 'rV[C]_P) (eloc : T -> C).
Variable ws : seq (T * C).
Definition O_bar (a : 'I_P) : C := \sum_(p <- ws) p.2 * oks p.1 0 a.
Definition E_bar : C := \sum_(p <- ws) p.2 * eloc p.1.
Definition S_matrix : 'M[C]_P :=
  \matrix_(a, b) \sum_(p <- ws) p.2 * (conj (oks p.1 0 a - O_bar a) * (oks p.1 0 b - O_bar b)).
Definition forces : 'cV[C]_P :=
  \col_a \sum_(p <- ws) p.2 * (conj (oks p.1 0 a - O_bar a) * (eloc p.1 - E_bar)).
End Equation.

Section Driver.
Variables (C : numFieldType) (conj : {rmorphism C -> C}) (sqrt : C -> C).
Hypothesis conjK : involutive conj.
Hypothesis conj_ge0 : forall x, 0 <= x * conj x.
Variables (T : eqType) (P : nat) (oks : T -> 'rV[C]_P) (eloc : T -> C).
Variables (ranks : seq (rank_state C T)) (c s N : nat) (scaled : bool).
Hypothesis Hs : (0 < s)%N.
Hypothesis Hw : well_shaped ranks c s.
Hypothesis HN : N = (size ranks * (c * s))%N.
Variable solver : 'M[C]_N -> 'cV[C]_N -> 'cV[C]_N.
(* all samples with the same weight w, and a real square root *)
Variable w : C.
Hypothesis Huniform : forall p, p \in weighted_samples ranks -> p.2 = w.
Hypothesis Hw0 : w != 0.
Hypothesis Hsqrt : sqrt w * sqrt w = w.
Hypothesis Hreal : conj (sqrt w) = sqrt w.

Let ws := weighted_samples ranks.
Let delta := (dense_update conj sqrt (netket_jac sqrt scaled oks) eloc true ranks c s solver)^T.
(* the factor missing from the rows if the jacobian is not rescaled *)
Let g : C := if scaled then 1 else sqrt w.

Let h : C := if scaled then sqrt w else 1.
Hypothesis Hsolver : forall M b, adjoint conj M *m (M *m solver M b - b) = 0.

Add Ring RC : (r_theory (GRing.Field.comRingType C)).
Section Rows.
Variable rs : N.-tuple (T * C).
Hypothesis Hrs : perm_eq rs ws.
Let A := centred_rows (netket_jac sqrt scaled oks) rs.
Let e := centred_energies sqrt eloc rs.

Lemma sum_rs (F : T * C -> C) : \sum_k F (tnth rs k) = \sum_(p <- ws) F p.
Proof. by rewrite -(perm_big _ Hrs) /= big_tuple. Qed.
Lemma w_rs k : (tnth rs k).2 = w.
Proof. by apply: Huniform; rewrite -/ws -(perm_mem Hrs) mem_tnth. Qed.
Lemma AE k a : A k a = h * (oks (tnth rs k).1 0 a - O_bar oks ws a).
Proof.
have Ew x : netket_jac sqrt scaled oks x w = h *: oks x by rewrite /netket_jac /h; case: scaled; rewrite ?scale1r.
rewrite !mxE w_rs Ew !mxE mulrBr /O_bar; congr (_ - _).
rewrite -sum_rs mulr_sumr summxE; apply: eq_bigr => l _.
by rewrite w_rs Ew !mxE mulrCA.
Qed.
Lemma eE k : e k 0 = (eloc (tnth rs k).1 - E_bar eloc ws) * sqrt w.
Proof. by rewrite mxE w_rs /all_mean_E (sum_rs (fun p => p.2 * eloc p.1)). Qed.
Lemma hconj : conj h = h.
Proof. by rewrite /h; case: scaled => //; rewrite rmorph1. Qed.
Lemma AAE : w *: (adjoint conj A *m A) = (h * h) *: S_matrix conj oks ws.
Proof.
apply/matrixP => a b; rewrite !mxE -sum_rs !mulr_sumr; apply: eq_bigr => k _.
rewrite 2!mxE !AE rmorphM hconj w_rs; set u := conj _; set v := _ - _.
by move: h u v => x u v; mring (GRing.Field.comRingType C).
Qed.
Lemma AeE : w *: (adjoint conj A *m e) = (h * sqrt w) *: forces conj oks eloc ws.
Proof.
apply/matrixP => a b; rewrite (ord1 b) !mxE -sum_rs !mulr_sumr; apply: eq_bigr => k _.
rewrite 2!mxE AE eE rmorphM hconj w_rs; set u := conj _; set v := _ - _.
by move: h u v (sqrt w) => x u v y; mring (GRing.Field.comRingType C).
Qed.
Lemma h0 : h != 0.
Proof.
rewrite /h; case: scaled; last exact: oner_neq0.
by apply: contraNneq Hw0 => E; rewrite -Hsqrt E mul0r.
Qed.
Lemma hg : h * sqrt w = h * h * g.
Proof. by rewrite /h /g; case: scaled; rewrite ?mulr1 ?mul1r. Qed.
Lemma equation d : (adjoint conj A *m (A *m d - e) = 0) <->
  (S_matrix conj oks ws *m d = g *: forces conj oks eloc ws).
Proof.
have hh : h * h != 0 by rewrite mulf_neq0 ?h0.
have E : w *: (adjoint conj A *m (A *m d - e)) =
         (h * h) *: (S_matrix conj oks ws *m d - g *: forces conj oks eloc ws).
  rewrite mulmxBr scalerBr mulmxA scalemxAl AAE AeE -scalemxAl hg [in RHS]scalerBr.
  by rewrite [in RHS]scalerA.
split=> H.
  move: E; rewrite H scaler0 => /esym/eqP.
  by rewrite scaler_eq0 (negPf hh) /= subr_eq0 => /eqP.
move: E; rewrite H subrr scaler0 => /eqP; rewrite scaler_eq0 (negPf Hw0) /= => /eqP //.
Qed.
End Rows.

Lemma driver_solves :
  S_matrix conj oks ws *m delta = g *: forces conj oks eloc ws /\
  forall d, S_matrix conj oks ws *m d = g *: forces conj oks eloc ws -> sqnorm conj delta <= sqnorm conj d.
Proof.
have [rs [Hrs [_ _ _ Ed]]] := C45_partial conj sqrt (netket_jac sqrt scaled oks) eloc solver Hs Hw HN.
rewrite -/delta in Ed; have H1 := minsr_normal conjK conj_ge0 (Hsolver _ (centred_energies sqrt eloc rs)).
split=> [|d Hd].
  by apply/(equation Hrs); rewrite Ed.
rewrite Ed; apply: (minsr_min_norm conjK conj_ge0 (H1 _ _)).
by apply/(equation Hrs).
Qed.
End Driver.

(* C46, uniform weights w (every state without counts), jacobian rescaled by sqrt(w): the update
   is the solution of least norm of the SR equation S d = F *)
Theorem C46_partial (C : numFieldType) (conj : {rmorphism C -> C}) (sqrt : C -> C) (T : eqType) (P : nat)
    (oks : T -> 'rV[C]_P) (eloc : T -> C) (ranks : seq (rank_state C T)) (c s N : nat)
    (solver : 'M[C]_N -> 'cV[C]_N -> 'cV[C]_N) (w : C) :
  involutive conj -> (forall x, 0 <= x * conj x) ->
  (0 < s)%N -> well_shaped ranks c s -> N = (size ranks * (c * s))%N ->
  (forall p, p \in weighted_samples ranks -> p.2 = w) -> w != 0 -> sqrt w * sqrt w = w -> conj (sqrt w) = sqrt w ->
  (forall M b, adjoint conj M *m (M *m solver M b - b) = 0) ->
  let ws := weighted_samples ranks in
  let delta := (dense_update conj sqrt (netket_jac sqrt true oks) eloc true ranks c s solver)^T in
  S_matrix conj oks ws *m delta = forces conj oks eloc ws /\
  forall d, S_matrix conj oks ws *m d = forces conj oks eloc ws -> sqnorm conj delta <= sqnorm conj d.
Proof.
move=> HK H0 Hs Hw HN Hu Hw0 Hq Hr Hsol ws delta.
have [H1 H2] := @driver_solves C conj sqrt HK H0 T P oks eloc ranks c s N true Hs Hw HN solver w Hu Hw0 Hq Hr Hsol.
split; first by rewrite H1 scale1r.
by move=> d Hd; apply: H2; rewrite scale1r.
Qed.

(* without the rescaling the update is sqrt(w) = 1/sqrt(n_samples) times an SR solution *)
Theorem C46_unscaled_partial (C : numFieldType) (conj : {rmorphism C -> C}) (sqrt : C -> C) (T : eqType) (P : nat)
    (oks : T -> 'rV[C]_P) (eloc : T -> C) (ranks : seq (rank_state C T)) (c s N : nat)
    (solver : 'M[C]_N -> 'cV[C]_N -> 'cV[C]_N) (w : C) :
  involutive conj -> (forall x, 0 <= x * conj x) ->
  (0 < s)%N -> well_shaped ranks c s -> N = (size ranks * (c * s))%N ->
  (forall p, p \in weighted_samples ranks -> p.2 = w) -> w != 0 -> sqrt w * sqrt w = w -> conj (sqrt w) = sqrt w ->
  (forall M b, adjoint conj M *m (M *m solver M b - b) = 0) ->
  let ws := weighted_samples ranks in
  let delta := (dense_update conj sqrt (netket_jac sqrt false oks) eloc true ranks c s solver)^T in
  S_matrix conj oks ws *m delta = sqrt w *: forces conj oks eloc ws /\
  forall d, S_matrix conj oks ws *m d = sqrt w *: forces conj oks eloc ws -> sqnorm conj delta <= sqnorm conj d.
Proof.
move=> HK H0 Hs Hw HN Hu Hw0 Hq Hr Hsol ws delta.
exact: (@driver_solves C conj sqrt HK H0 T P oks eloc ranks c s N false Hs Hw HN solver w Hu Hw0 Hq Hr Hsol).
Qed.

(* a solver with a diagonal shift: the shifted SR equation *)
Theorem C46_shift_partial (C : numFieldType) (conj : {rmorphism C -> C}) (sqrt : C -> C) (T : eqType) (P : nat)
    (oks : T -> 'rV[C]_P) (eloc : T -> C) (ranks : seq (rank_state C T)) (c s N : nat)
    (solver : 'M[C]_N -> 'cV[C]_N -> 'cV[C]_N) (w lam : C) :
  involutive conj ->
  (0 < s)%N -> well_shaped ranks c s -> N = (size ranks * (c * s))%N ->
  (forall p, p \in weighted_samples ranks -> p.2 = w) -> w != 0 -> sqrt w * sqrt w = w -> conj (sqrt w) = sqrt w ->
  (forall (A : 'M[C]_(N, P)) b, (A *m adjoint conj A + lam%:M) *m solver (A *m adjoint conj A) b = b) ->
  let ws := weighted_samples ranks in
  let delta := (dense_update conj sqrt (netket_jac sqrt true oks) eloc true ranks c s solver)^T in
  (S_matrix conj oks ws + lam%:M) *m delta = forces conj oks eloc ws.
Proof.
move=> HK Hs Hw HN Hu Hw0 Hq Hr Hsol ws delta.
have [rs [Hrs [_ _ _ Ed]]] := C45_partial conj sqrt (netket_jac sqrt true oks) eloc solver Hs Hw HN.
have H := minsr_shift (Hsol (centred_rows (netket_jac sqrt true oks) rs) (centred_energies sqrt eloc rs)).
rewrite -Ed -/delta in H.
have E1 := AAE oks true Hu Hr Hrs; have E2 := AeE oks eloc true Hu Hr Hrs.
rewrite /= Hq in E1 E2.
have I := scalerI Hw0.
by rewrite -(I _ _ _ E1) -(I _ _ _ E2).
Qed.

(* complex parameters: the update stored in _dp, after the cast of L226-230, is this solution *)
Theorem C46_complex_update_partial (C : numFieldType) (conj : {rmorphism C -> C}) (sqrt re : C -> C) (T : eqType) (P : nat)
    (oks : T -> 'rV[C]_P) (eloc : T -> C) (ranks : seq (rank_state C T)) (c s N : nat)
    (solver : 'M[C]_N -> 'cV[C]_N -> 'cV[C]_N) (w lam : C) :
  involutive conj ->
  (0 < s)%N -> well_shaped ranks c s -> N = (size ranks * (c * s))%N ->
  (forall p, p \in weighted_samples ranks -> p.2 = w) -> w != 0 -> sqrt w * sqrt w = w -> conj (sqrt w) = sqrt w ->
  (forall (A : 'M[C]_(N, P)) b, (A *m adjoint conj A + lam%:M) *m solver (A *m adjoint conj A) b = b) ->
  let ws := weighted_samples ranks in
  let dp := cast_update re true (dense_update conj sqrt (netket_jac sqrt true oks) eloc true ranks c s solver) in
  (S_matrix conj oks ws + lam%:M) *m dp^T = forces conj oks eloc ws.
Proof. by move=> HK Hs Hw HN Hu Hw0 Hq Hr Hsol ws dp; exact: (@C46_shift_partial C conj sqrt T P oks eloc ranks c s N solver w lam). Qed.
Print Assumptions C46_complex_update_partial.

(* Non-uniform weights (MCStateUniqueSamples), either convention for the jacobian: three
   samples with weights 1/9, 4/9, 4/9 and equal derivatives and energies 1, 0, 0.  The SR equation
   gives 1. *)
Definition q_sqrt (w : rat) : rat := if w == 9%:R^-1 then 3%:R^-1 else 2%:R / 3%:R.
Definition q_state : seq (rank_state rat_numFieldType nat_eqType) :=
  [:: RankState [:: [:: 1; 0; 0]]%N [:: 9%:R^-1; 4%:R / 9%:R; 4%:R / 9%:R : rat]].
Definition q_conj : {rmorphism rat_numFieldType -> rat_numFieldType} := [rmorphism of idfun].

Lemma one_parameter (sqrt : rat -> rat) (jac : nat -> rat -> 'rV[rat]_1) (eloc : nat -> rat)
    (ranks : seq (rank_state rat_numFieldType nat_eqType)) c s N
    (solver : 'M[rat]_N -> 'cV[rat]_N -> 'cV[rat]_N) (j : nat -> rat -> rat) :
  (forall x w, jac x w 0 0 = j x w) ->
  (0 < s)%N -> well_shaped ranks c s -> N = (size ranks * (c * s))%N ->
  (forall M b, adjoint q_conj M *m (M *m solver M b - b) = 0) ->
  let ws := weighted_samples ranks in
  let a p := j p.1 p.2 - \sum_(q <- ws) q.2 * j q.1 q.2 in
  let e p := (eloc p.1 - \sum_(q <- ws) q.2 * eloc q.1) * sqrt p.2 in
  (\sum_(p <- ws) a p * a p) * dense_update q_conj sqrt (jac : nat -> rat_numFieldType -> _) eloc true ranks c s solver 0 0
  = \sum_(p <- ws) a p * e p.
Proof.
move=> Hj Hs Hw HN Hsol ws a e.
have [rs [Hrs [_ _ _ Ed]]] := C45_partial q_conj sqrt jac eloc solver Hs Hw HN.
have H1 := minsr_normal (C := rat_numFieldType) (conj := q_conj) (fun _ => erefl) (fun x => sqr_ge0 (x : rat))
  (Hsol _ (centred_energies sqrt eloc rs)).
move: {H1}(H1 _ (centred_rows (jac : nat -> rat_numFieldType -> _) rs)); rewrite -Ed => /matrixP /(_ 0 0).
rewrite [LHS]mxE [RHS]mxE => H; apply/eqP; rewrite -subr_eq0 -[X in _ == X]H mulr_suml -sumrB.
rewrite -(perm_big _ Hrs) /= big_tuple.
have EO : all_mean_O (jac : nat -> rat_numFieldType -> _) rs 0 0 = \sum_(q <- ws) q.2 * j q.1 q.2.
  by rewrite -(perm_big _ Hrs) /= big_tuple summxE; apply: eq_bigr => k _; rewrite mxE Hj.
have EE : all_mean_E eloc rs = \sum_(q <- ws) q.2 * eloc q.1.
  by rewrite -(perm_big _ Hrs) /= big_tuple.
apply/eqP; apply: eq_bigr => k _; rewrite !mxE big_ord1 !mxE EE EO Hj /a /e.
set u := j _ _ - _; set v := (_ - _) * sqrt _; set d := dense_update _ _ _ _ _ _ _ _ _ _ _.
by rewrite -(mulrA u u d) -(mulrBr u).
Qed.

Theorem C46_counts_refuted : forall scaled : bool,
  exists (ranks : seq (rank_state rat_numFieldType nat_eqType)) (sqrt : rat -> rat)
         (oks : nat -> 'rV[rat]_1) (eloc : nat -> rat),
  [/\ well_shaped ranks 1 3, \sum_(p <- weighted_samples ranks) p.2 = 1,
      forall p, p \in weighted_samples ranks -> sqrt p.2 * sqrt p.2 = p.2 &
      forall solver : 'M[rat]_3 -> 'cV[rat]_3 -> 'cV[rat]_3,
        (forall M b, adjoint q_conj M *m (M *m solver M b - b) = 0) ->
        S_matrix q_conj oks (weighted_samples ranks) *m
          (dense_update q_conj sqrt (netket_jac (C := rat_numFieldType) sqrt scaled oks) eloc true ranks 1 3 solver)^T <>
        forces q_conj oks eloc (weighted_samples ranks)].
Proof.
move=> scaled; exists q_state, q_sqrt, (fun x => const_mx x%:R), (fun x => x%:R); split.
- by [].
- by rewrite unlock; apply/eqP; vm_compute.
- by move=> p; rewrite !inE => /or3P[]/eqP ->; apply/eqP; vm_compute.
move=> solver Hsol; set oks := fun x => _; set eloc := fun x => _.
pose j (x : nat) (w : rat) : rat := (if scaled then q_sqrt w else 1) * x%:R.
have Hj x w : netket_jac (C := rat_numFieldType) q_sqrt scaled oks x w 0 0 = j x w.
  by rewrite /netket_jac /j /oks; case: (scaled); rewrite !mxE ?mul1r.
have := one_parameter (c := 1) (s := 3) (N := 3) q_sqrt eloc (ranks := q_state) Hj isT isT erefl Hsol.
move: (dense_update _ _ _ _ _ _ _ _ _) => d /= H /matrixP /(_ 0 0).
rewrite !mxE big_ord1 !mxE; move: {d}(d 0 0) H => x.
have Eb : O_bar oks (weighted_samples q_state) 0 = 9%:R^-1 :> rat.
  by rewrite /O_bar /q_state /weighted_samples !big_cons !big_nil !mxE; apply/eqP; vm_compute.
rewrite Eb.
have Eo (y : nat) : oks y 0 0 = y%:R :> rat by rewrite mxE.
move=> H1; under eq_bigr do rewrite Eo.
under [X in _ = X -> False]eq_bigr do rewrite Eo.
move: H1; set A2 := \sum_(p <- _) _; set Ae := \sum_(p <- _) _; set S2 := \sum_(p <- _) _; set F2 := \sum_(p <- _) _.
move=> H1 H2.
have HA : A2 != 0 by rewrite /A2 /j; case: (scaled); rewrite unlock; vm_compute.
have : S2 * Ae == F2 * A2 by rewrite -H2 -H1 -mulrA (mulrC x).
by rewrite /S2 /Ae /F2 /A2 /j /E_bar; case: (scaled); rewrite unlock; vm_compute.
Qed.

(* a state without counts: the SR equation of the plain averages over the samples of all ranks *)
Section Plain.
Variables (C : numFieldType) (conj : {rmorphism C -> C}) (T : eqType) (P : nat).
Variables (oks : T -> 'rV[C]_P) (eloc : T -> C) (xs : seq T).
Definition mean (f : T -> C) : C := (\sum_(x <- xs) f x) / (size xs)%:R.
Definition S_mean : 'M[C]_P :=
  \matrix_(a, b) mean (fun x => conj (oks x 0 a - mean (fun x => oks x 0 a)) * (oks x 0 b - mean (fun x => oks x 0 b))).
Definition F_mean : 'cV[C]_P :=
  \col_a mean (fun x => conj (oks x 0 a - mean (fun x => oks x 0 a)) * (eloc x - mean eloc)).
Lemma meanE (f : T -> C) : \sum_(p <- [seq (x, 1 / (size xs)%:R) | x <- xs]) p.2 * f p.1 = mean f.
Proof. by rewrite big_map /mean mulr_suml; apply: eq_bigr => x _; rewrite /= div1r mulrC. Qed.
Lemma S_meanE : S_matrix conj oks [seq (x, 1 / (size xs)%:R) | x <- xs] = S_mean.
Proof.
apply/matrixP => a b; rewrite !mxE (meanE (fun x => conj (oks x 0 a - _) * (oks x 0 b - _))) /O_bar.
by rewrite !(meanE (fun x => oks x 0 _)).
Qed.
Lemma F_meanE : forces conj oks eloc [seq (x, 1 / (size xs)%:R) | x <- xs] = F_mean.
Proof.
apply/matrixP => a b; rewrite !mxE (meanE (fun x => conj (oks x 0 a - _) * (eloc x - _))) /O_bar /E_bar.
by rewrite (meanE (fun x => oks x 0 a)) (meanE eloc).
Qed.
End Plain.
Lemma weighted_plain (C : fieldType) (T : eqType) (sampless : seq (seq (seq T))) :
  let xs := flatten (map flatten sampless) in
  weighted_samples (plain_counts C sampless) = [seq (x, 1 / (size xs)%:R) | x <- xs].
Proof.
move=> xs; rewrite /weighted_samples /plain_counts.
have -> : (\sum_(s <- sampless) size (flatten s))%N = size xs.
  by rewrite /xs size_flatten /shape -map_comp sumnE big_map.
move: (1 / _) => w; rewrite -map_comp {}/xs; elim: sampless => //= smp l IH.
rewrite IH map_cat; congr (_ ++ _); by elim: (flatten smp) => //= x v ->.
Qed.
Theorem C46_plain_partial (C : numFieldType) (conj : {rmorphism C -> C}) (sqrt : C -> C) (T : eqType) (P : nat)
    (oks : T -> 'rV[C]_P) (eloc : T -> C) (sampless : seq (seq (seq T))) (c s N : nat)
    (solver : 'M[C]_N -> 'cV[C]_N -> 'cV[C]_N) :
  involutive conj -> (forall x, 0 <= x * conj x) ->
  (0 < s)%N -> N = (size sampless * (c * s))%N -> (0 < N)%N ->
  all (fun smp => (size (flatten smp) == c * s)%N && all (fun row => size row == size (head [::] smp)) smp) sampless ->
  let w := 1 / N%:R in sqrt w * sqrt w = w -> conj (sqrt w) = sqrt w ->
  (forall M b, adjoint conj M *m (M *m solver M b - b) = 0) ->
  let xs := flatten (map flatten sampless) in
  let delta := (dense_update conj sqrt (netket_jac sqrt true oks) eloc true (plain_counts C sampless) c s solver)^T in
  S_mean conj oks xs *m delta = F_mean conj oks eloc xs /\
  forall d, S_mean conj oks xs *m d = F_mean conj oks eloc xs -> sqnorm conj delta <= sqnorm conj d.
Proof.
move=> HK H0 Hs HN N0 Hsh w Hq Hr Hsol xs delta.
have Sx : size xs = N.
  rewrite /xs size_flatten /shape -map_comp HN {xs delta HN}; elim: sampless Hsh => //= smp l IH /andP[/andP[/eqP H _] Hl].
  by rewrite IH // H mulSn.
have Hw : well_shaped (plain_counts C sampless) c s.
  rewrite /well_shaped all_map; apply: sub_all Hsh => smp /andP[/eqP H1 H2] /=.
  by rewrite size_nseq H1 eqxx H2.
have Hu p : p \in weighted_samples (plain_counts C sampless) -> p.2 = w.
  by rewrite weighted_plain -/xs Sx => /mapP[x _ ->].
have w0 : w != 0 by rewrite /w div1r invr_eq0 pnatr_eq0 -lt0n.
have HN' : N = (size (plain_counts C sampless) * (c * s))%N by rewrite size_map.
have := C46_partial oks eloc HK H0 Hs Hw HN' Hu w0 Hq Hr Hsol.
by cbv zeta; rewrite weighted_plain S_meanE F_meanE.
Qed.

(* Real parameters and complex amplitudes (mode "complex"): the real part of the solution of the
   complex system is not the solution of the real SR equation Re(S) d = Re(F) *)
Definition c_oks (C : numClosedFieldType) (x : bool) : 'rV[C]_2 :=
  \row_a ((if x then 1 else -1) * (if a == 0 then 1 else 'i)).
Definition c_eloc (C : numClosedFieldType) (x : bool) : C := if x then 1 else -1.
Definition c_state (C : numClosedFieldType) : seq (rank_state C bool_eqType) :=
  [:: RankState [:: [:: true; false]] [:: 2%:R^-1; 2%:R^-1]].
Definition c_re (C : numClosedFieldType) (x : C) : C := 'Re x.

Theorem C46_real_fails (C : numClosedFieldType) :
  well_shaped (c_state C) 1 2 /\
  forall solver : 'M[C]_2 -> 'cV[C]_2 -> 'cV[C]_2,
    (forall M b, adjoint conjC M *m (M *m solver M b - b) = 0) ->
    let dp := dense_update conjC sqrtC (netket_jac sqrtC true (@c_oks C)) (@c_eloc C) true (c_state C) 1 2 solver in
    map_mx (@c_re C) (S_matrix conjC (@c_oks C) (weighted_samples (c_state C))) *m (cast_update (@c_re C) false dp)^T <>
    map_mx (@c_re C) (forces conjC (@c_oks C) (@c_eloc C) (weighted_samples (c_state C))).
Proof.
split=> // solver Hsol dp.
have H2 : 2%:R != 0 :> C by rewrite pnatr_eq0.
have Hu p : p \in weighted_samples (c_state C) -> p.2 = 2%:R^-1 by rewrite !inE => /orP[]/eqP ->.
have Hq : sqrtC 2%:R^-1 * sqrtC 2%:R^-1 = 2%:R^-1 :> C by rewrite -expr2 sqrtCK.
have Hr : conjC (sqrtC 2%:R^-1) = sqrtC 2%:R^-1 :> C.
  by apply/CrealP; rewrite ger0_real // sqrtC_ge0 invr_ge0 ler0n.
have [HS Hmin] := @C46_partial C [rmorphism of @conjC C] sqrtC bool_eqType 2 (@c_oks C) (@c_eloc C) (c_state C) 1 2 2
  solver 2%:R^-1 (@conjCK C) (@mul_conjC_ge0 C) isT isT erefl Hu (invr_neq0 H2) Hq Hr Hsol.
rewrite -/dp /= in HS Hmin.
set ws := weighted_samples (c_state C) in HS Hmin *.
have Ebar a : O_bar (@c_oks C) ws a = 0.
  by rewrite /O_bar /ws /weighted_samples /= !big_cons big_nil !mxE /= mul1r mulN1r mulrN addr0 subrr.
have EE : E_bar (@c_eloc C) ws = 0.
  by rewrite /E_bar /ws /weighted_samples /= !big_cons big_nil mulr1 mulrN1 addr0 subrr.
have half (z : C) : 2%:R^-1 * z + 2%:R^-1 * z = z by rewrite -mulrDl -mulr2n -mulr_natr mulVf // mul1r.
have ES a b : S_matrix conjC (@c_oks C) ws a b = conjC (if a == 0 then 1 else 'i) * (if b == 0 then 1 else 'i).
  rewrite mxE !Ebar /ws /weighted_samples /= !big_cons big_nil /= !subr0 !mxE /=.
  by rewrite !mul1r !mulN1r rmorphN mulrNN addr0 half.
have EF a : forces conjC (@c_oks C) (@c_eloc C) ws a 0 = conjC (if a == 0 then 1 else 'i).
  rewrite mxE !Ebar EE /ws /weighted_samples /= !big_cons big_nil /= !subr0 !mxE /=.
  by rewrite !mul1r !mulN1r rmorphN mulrNN addr0 mulr1 half.
have Hi : 'i * 'i^* = 1 :> C by rewrite -normCK normCi expr1n.
pose d : 'cV[C]_2 := \col_a (2%:R^-1 * conjC (if a == 0 then 1 else 'i)).
have Hd : S_matrix conjC (@c_oks C) ws *m d = forces conjC (@c_oks C) (@c_eloc C) ws.
  apply/matrixP => a b; rewrite (ord1 b) EF mxE !big_ord_recl big_ord0 addr0 !ES !mxE /=.
  move: (conjC (if a == 0 then 1 else 'i)) => u.
  by rewrite rmorph1 !mulr1 mulrACA Hi mulr1 ![u * _]mulrC half.
move/matrixP/(_ 0 0) => H.
have H0 : 'Re (dp 0 0) = 1.
  move: H; rewrite [LHS]mxE !big_ord_recl big_ord0 addr0 !mxE -!/(S_matrix _ _ _ _ _).
  move: (ES 0 0) (ES 0 (lift 0 0)) (EF 0); rewrite !mxE => -> -> -> /=.
  by rewrite /c_re rmorph1 !mul1r Re_i mul0r addr0 (Creal_ReP 1 _) ?mul1r // rpred1.
have := Hmin d Hd; rewrite /sqnorm !big_ord_recl !big_ord0 !addr0 !mxE /=.
rewrite rmorph1 mulr1 -!normCK.
have -> : `|2%:R^-1| ^+ 2 + `|2%:R^-1 * 'i^*| ^+ 2 = 2%:R^-1 :> C.
  rewrite normrM norm_conjC normCi mulr1 -mulr2n normfV normr_nat expr2 -mulr_natr -mulrA mulVf // mulr1 //.
have H1 : 1 <= `|dp 0 0| ^+ 2 + `|dp 0 (lift 0 0)| ^+ 2.
  rewrite -[1]addr0; apply: ler_add; last by rewrite exprn_ge0.
  by rewrite normC2_Re_Im H0 expr1n ler_addl -realEsqr Creal_Im.
move=> /(le_trans H1); rewrite invf_ge1 ?ltr0n // => /le_gtF; by rewrite ltr1n.
Qed.

Theorem C46_real_refuted (C : numClosedFieldType) :
  exists (ranks : seq (rank_state C bool_eqType)) (oks : bool -> 'rV[C]_2) (eloc : bool -> C),
  [/\ well_shaped ranks 1 2, (forall p, p \in weighted_samples ranks -> p.2 = 2%:R^-1) &
  forall solver : 'M[C]_2 -> 'cV[C]_2 -> 'cV[C]_2,
    (forall M b, adjoint conjC M *m (M *m solver M b - b) = 0) ->
    let dp := dense_update conjC sqrtC (netket_jac sqrtC true oks) eloc true ranks 1 2 solver in
    map_mx (@c_re C) (S_matrix conjC oks (weighted_samples ranks)) *m (cast_update (@c_re C) false dp)^T <>
    map_mx (@c_re C) (forces conjC oks eloc (weighted_samples ranks))].
Proof.
exists (c_state C), (@c_oks C), (@c_eloc C); have [H1 H2] := C46_real_fails C; split=> //.
by move=> p; rewrite !inE => /orP[]/eqP ->.
Qed.

(* four samples x = 0, 1, 2, 3 of weight 1/4 in two chains of two, derivative x and energy 2 x:
   the update is 2 with any least-squares solver, in particular with [lstsq] *)
Example C46_example (solver : 'M[rat]_4 -> 'cV[rat]_4 -> 'cV[rat]_4) :
  (forall M b, adjoint q_conj M *m (M *m solver M b - b) = 0) ->
  dense_update q_conj (fun _ => 2%:R^-1) (netket_jac (C := rat_numFieldType) (fun _ => 2%:R^-1) true (fun x : nat => (const_mx x%:R : 'rV[rat]_1)))
    (fun x : nat => 2%:R * x%:R) true (two_chains (4%:R^-1 : rat)) 2 2 solver 0 0 = 2%:R.
Proof.
move=> Hsol; set oks := fun x : nat => (const_mx x%:R : 'rV[rat]_1).
have Hu p : p \in weighted_samples (two_chains (4%:R^-1 : rat)) -> p.2 = 4%:R^-1.
  by rewrite weighted_two_chains => /mapP[x _ ->].
have Hq : 2%:R^-1 * 2%:R^-1 = 4%:R^-1 :> rat by apply/eqP; vm_compute.
have Hge (x : rat_numFieldType) : 0 <= x * q_conj x := sqr_ge0 (x : rat).
have [H _] := @C46_partial rat_numFieldType q_conj (fun _ => 2%:R^-1) nat_eqType 1 oks (fun x => 2%:R * x%:R)
  (two_chains (4%:R^-1 : rat)) 2 2 4 solver 4%:R^-1 (fun _ => erefl) Hge isT isT erefl Hu isT Hq erefl Hsol.
move/matrixP/(_ 0 0): H; rewrite !mxE big_ord1 !mxE; set d := dense_update _ _ _ _ _ _ _ _ _ _ _.
have Eb : O_bar oks (weighted_samples (two_chains (4%:R^-1 : rat))) 0 = 3%:R / 2%:R :> rat.
  by rewrite /O_bar weighted_two_chains /= !big_cons !big_nil !mxE; apply/eqP; vm_compute.
have Eo (y : nat) : oks y 0 0 = y%:R :> rat by rewrite mxE.
rewrite Eb; under eq_bigr do rewrite Eo; under [X in _ = X -> _]eq_bigr do rewrite Eo.
set A2 := \sum_(p <- _) _; set F2 := \sum_(p <- _) _ => H.
have HA : A2 != 0 by rewrite /A2 unlock; vm_compute.
apply: (mulfI HA); rewrite H /A2 /F2 /E_bar unlock; apply/eqP; by vm_compute.
Qed.
Example C46_solver_exists (M : 'M[rat]_4) (b : 'cV[rat]_4) : adjoint q_conj M *m (M *m lstsq q_conj M b - b) = 0.
Proof. by apply: lstsqP => // x; apply: (sqr_ge0 (x : rat)). Qed.
