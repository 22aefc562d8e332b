(* Derivatives of real functions (Coq's derivable_pt_lim) with the ring notations of mathcomp; derivatives
   of determinants and of solutions of linear systems. *)
From Coq Require Import Reals Lra.
From mathcomp Require Import perm.
From Verif Require Import Base Rstruct.
Import Num.Theory Order.TTheory.
Local Open Scope ring_scope.
Notation RR := R_realFieldType.

Definition der (f : RR -> RR) (x l : RR) : Prop := derivable_pt_lim f x l.

Section Rules.
Implicit Types (f g : RR -> RR) (x l m : RR).
Lemma der_eq f x l m : der f x l -> l = m -> der f x m. Proof. by move=> H <-. Qed.
Lemma der_unique f x l m : der f x l -> der f x m -> l = m.
Proof. exact: uniqueness_limite. Qed.
(* only the values near x matter *)
Lemma der_near f g x l lo hi : lo < x -> x < hi -> (forall a, lo < a -> a < hi -> f a = g a) -> der g x l -> der f x l.
Proof.
move=> /RltP H1 /RltP H2 E D eps He; have [d Hd] := D eps He.
have H3 : Rlt R0 (Rmin d (Rmin (Rminus x lo) (Rminus hi x))).
  by apply: Rmin_pos; [exact: cond_pos | apply: Rmin_pos; apply: Rlt_Rminus].
exists (mkposreal _ H3) => h h0 /= Hh.
have Hh1 : Rlt (Rabs h) d by apply: Rlt_le_trans Hh _; apply: Rmin_l.
have Hh2 : Rlt (Rabs h) (Rminus x lo).
  by apply: Rlt_le_trans Hh _; apply: Rle_trans (Rmin_r _ _) _; apply: Rmin_l.
have Hh3 : Rlt (Rabs h) (Rminus hi x).
  by apply: Rlt_le_trans Hh _; apply: Rle_trans (Rmin_r _ _) _; apply: Rmin_r.
have [A1 A2] := Rabs_def2 _ _ Hh2; have [A3 A4] := Rabs_def2 _ _ Hh3.
rewrite (E (Rplus x h)) ?(E x); [exact: Hd | exact/RltP | exact/RltP | |]; apply/RltP; lra.
Qed.
Lemma der_ext f g x l : f =1 g -> der g x l -> der f x l.
Proof.
by move=> E; apply: (@der_near _ _ _ _ (x - 1) (x + 1)); rewrite ?ltr_addl ?ltr01 // ltr_subl_addr ltr_addl ltr01.
Qed.
Lemma der_const c x : der (fun _ => c) x 0. Proof. exact: derivable_pt_lim_const. Qed.
Lemma der_id x : der id x 1. Proof. exact: derivable_pt_lim_id. Qed.
Lemma der_add f g x l m : der f x l -> der g x m -> der (fun a => f a + g a) x (l + m).
Proof. exact: derivable_pt_lim_plus. Qed.
Lemma der_opp f x l : der f x l -> der (fun a => - f a) x (- l).
Proof. exact: derivable_pt_lim_opp. Qed.
Lemma der_sub f g x l m : der f x l -> der g x m -> der (fun a => f a - g a) x (l - m).
Proof. by move=> H1 H2; apply: der_add => //; apply: der_opp. Qed.
Lemma der_mul f g x l m : der f x l -> der g x m -> der (fun a => f a * g a) x (l * g x + f x * m).
Proof. exact: derivable_pt_lim_mult. Qed.
Lemma der_scale c f x l : der f x l -> der (fun a => c * f a) x (c * l).
Proof. by move=> H; apply: der_eq (der_mul (der_const c x) H) _; rewrite mul0r add0r. Qed.
Lemma der_sum (I : Type) (r : seq I) (P : pred I) (f : I -> RR -> RR) x (l : I -> RR) :
  (forall i, P i -> der (f i) x (l i)) -> der (fun a => \sum_(i <- r | P i) f i a) x (\sum_(i <- r | P i) l i).
Proof.
move=> H; elim: r => [|i r IH].
  by apply: der_eq (_ : der _ x 0) _; rewrite ?big_nil //; apply: der_ext (der_const 0 x) => a; rewrite big_nil.
rewrite big_cons; case Pi: (P i).
  by apply: der_ext (der_add (H i Pi) IH) => a; rewrite big_cons Pi.
by apply: der_ext IH => a; rewrite big_cons Pi.
Qed.
Lemma der_prod (I : finType) (f : I -> RR -> RR) x (l : I -> RR) : (forall i, der (f i) x (l i)) ->
  der (fun a => \prod_i f i a) x (\sum_i l i * \prod_(j | j != i) f j x).
Proof.
move=> H.
suff G (r : seq I) : uniq r -> der (fun a => \prod_(i <- r) f i a) x (\sum_(i <- r) l i * \prod_(j <- r | j != i) f j x).
  exact: (G (index_enum I) (index_enum_uniq I)).
elim: r => [_|i r IH /= /andP[ir Ur]].
  apply: der_eq (_ : der _ x 0) _; last by rewrite big_nil.
  by apply: der_ext (der_const 1 x) => a; rewrite big_nil.
apply: der_eq (_ : der _ x (l i * (\prod_(j <- r) f j x) + f i x * _)) _.
  by apply: der_ext (der_mul (H i) (IH Ur)) => a; rewrite big_cons.
rewrite big_cons big_cons eqxx /=; congr (_ * _ + _).
  rewrite big_seq [RHS]big_seq_cond; apply: eq_bigl => j; case jr: (j \in r) => //=.
  by symmetry; apply: contraTneq jr => ->.
rewrite mulr_sumr; apply: eq_big_seq => j jr; rewrite big_cons.
have -> : i != j by apply: contraNneq ir => ->.
by rewrite mulrCA.
Qed.
Lemma Rinv_mc x : Rinv x = x^-1.
Proof.
case: (eqVneq x 0) => [->|H]; last exact: RinvE.
by rewrite invr0; exact: Rinv_0.
Qed.
Lemma der_inv f x l : f x != 0 -> der f x l -> der (fun a => (f a)^-1) x (- l / f x ^+ 2).
Proof.
move=> /eqP H D; have H1 := derivable_pt_lim_div _ _ _ _ _ (derivable_pt_lim_const 1 x) D H.
apply: der_ext (der_eq H1 _) => [a|].
  by rewrite /div_fct /fct_cte /Rdiv Rinv_mc -[RHS]/(1 * (f a)^-1) mul1r.
by rewrite /fct_cte /Rdiv Rinv_mc -[LHS]/((0 * f x - l * 1) * (f x * f x)^-1) mul0r mulr1 sub0r expr2.
Qed.
Lemma der_ln f x l : 0 < f x -> der f x l -> der (fun a => rln (f a)) x (l / f x).
Proof.
move=> /RltP H D; have := derivable_pt_lim_comp _ _ _ _ _ D (derivable_pt_lim_ln _ H).
by rewrite Rinv_mc => H1; apply: der_eq H1 _; rewrite -[LHS]/((f x)^-1 * l) mulrC.
Qed.
Lemma der_sq f x l : der f x l -> der (fun a => f a ^+ 2) x (2%:R * f x * l).
Proof.
move=> H; apply: der_ext (der_eq (der_mul H H) _) => [a|]; first exact: expr2.
by rewrite [l * _]mulrC -mulr2n mulr_natl mulrnAl.
Qed.
End Rules.

Section Mat.
Definition derm m n (M : RR -> 'M[RR]_(m, n)) (x : RR) (D : 'M[RR]_(m, n)) : Prop :=
  forall i j, der (fun a => M a i j) x (D i j).
Implicit Types x : RR.
Lemma derm_eq m n (M : RR -> 'M_(m, n)) x D E : derm M x D -> D = E -> derm M x E. Proof. by move=> H <-. Qed.
Lemma derm_unique m n (M : RR -> 'M_(m, n)) x D E : derm M x D -> derm M x E -> D = E.
Proof. by move=> H1 H2; apply/matrixP => i j; apply: der_unique (H1 i j) (H2 i j). Qed.
Lemma derm_ext m n (M M' : RR -> 'M_(m, n)) x D : M =1 M' -> derm M' x D -> derm M x D.
Proof. by move=> E H i j; apply: der_ext (H i j) => a; rewrite E. Qed.
Lemma derm_near m n (M M' : RR -> 'M_(m, n)) x D lo hi : lo < x -> x < hi ->
  (forall a, lo < a -> a < hi -> M a = M' a) -> derm M' x D -> derm M x D.
Proof. by move=> H1 H2 E H i j; apply: der_near H1 H2 _ (H i j) => a A1 A2; rewrite E. Qed.
Lemma derm_const m n (A : 'M_(m, n)) x : derm (fun _ => A) x 0.
Proof. by move=> i j; apply: der_eq (der_const _ x) _; rewrite mxE. Qed.
Lemma derm_add m n (M M' : RR -> 'M_(m, n)) x D D' : derm M x D -> derm M' x D' -> derm (fun a => M a + M' a) x (D + D').
Proof.
move=> H H' i j; apply: der_ext (der_eq (der_add (H i j) (H' i j)) _) => [a|]; by rewrite mxE.
Qed.
Lemma derm_opp m n (M : RR -> 'M_(m, n)) x D : derm M x D -> derm (fun a => - M a) x (- D).
Proof. by move=> H i j; apply: der_ext (der_eq (der_opp (H i j)) _) => [a|]; rewrite mxE. Qed.
Lemma derm_tr m n (M : RR -> 'M_(m, n)) x D : derm M x D -> derm (fun a => (M a)^T) x D^T.
Proof. by move=> H i j; rewrite mxE; apply: der_ext (H j i) => a; rewrite mxE. Qed.
Lemma derm_mul m n k (M : RR -> 'M_(m, n)) (M' : RR -> 'M_(n, k)) x D D' : derm M x D -> derm M' x D' ->
  derm (fun a => M a *m M' a) x (D *m M' x + M x *m D').
Proof.
move=> H H' i j; apply: der_ext (der_eq (der_sum _ _) _) => [a|r _|].
- by rewrite mxE.
- exact: der_mul (H i r) (H' r j).
- by rewrite big_split /= [RHS]mxE [in RHS]mxE [X in _ = _ + X]mxE.
Qed.
(* Jacobi's formula *)
Lemma der_det m (M : RR -> 'M_m) x D : derm M x D ->
  der (fun a => \det (M a)) x (\sum_i \sum_j D i j * cofactor (M x) i j).
Proof.
move=> H.
have G : der (fun a => \sum_(s : {perm 'I_m}) (-1) ^+ s * \prod_i M a i (s i)) x
  (\sum_(s : {perm 'I_m}) (-1) ^+ s * \sum_i D i (s i) * \prod_(j | j != i) M x j (s j)).
  apply: der_sum => s _; apply: der_scale; exact: (der_prod (fun i => H i (s i))).
apply: der_eq (G) _.
transitivity (\sum_(s : {perm 'I_m}) \sum_i (-1) ^+ s * (D i (s i) * \prod_(j | j != i) M x j (s j))).
  by apply: eq_bigr => s _; exact: mulr_sumr.
rewrite exchange_big /=; apply: eq_bigr => i _.
pose B := \matrix_(k, j) if k == i then D i j else M x k j.
have -> : \sum_j D i j * cofactor (M x) i j = \det B.
  rewrite (expand_det_row B i); apply: eq_bigr => j _; rewrite mxE eqxx; congr (_ * (_ * \det _)).
  by apply/matrixP => k l; rewrite !mxE -[_ == i]eq_sym (negbTE (neq_lift _ _)).
rewrite /determinant; apply: eq_bigr => s _; congr (_ * _); rewrite [RHS](bigD1 i) //= mxE eqxx; congr (_ * _).
by apply: eq_bigr => j ji; rewrite mxE (negbTE ji).
Qed.
Lemma cof_tr m (A D : 'M[RR]_m) : A \in unitmx -> \sum_i \sum_j D i j * cofactor A i j = \det A * \tr (invmx A *m D).
Proof.
move=> U; rewrite /invmx U -scalemxAl mxtraceZ mulrA divff ?mul1r; last by rewrite -unitfE -unitmxE.
rewrite exchange_big; apply: eq_bigr => j _; rewrite mxE; apply: eq_bigr => i _; by rewrite mxE mulrC.
Qed.
Lemma der_lndet m (M : RR -> 'M_m) x D : derm M x D -> 0 < \det (M x) ->
  der (fun a => rln (\det (M a))) x (\tr (invmx (M x) *m D)).
Proof.
move=> H d0; have U : M x \in unitmx by rewrite unitmxE unitfE gt_eqF.
apply: der_eq (der_ln d0 (der_det H)) _; by rewrite cof_tr // mulrC mulKf // gt_eqF.
Qed.
Lemma derm_inv m (M : RR -> 'M_m) x D lo hi : lo < x -> x < hi ->
  (forall a, lo < a -> a < hi -> M a \in unitmx) -> derm M x D ->
  derm (fun a => invmx (M a)) x (- (invmx (M x) *m D *m invmx (M x))).
Proof.
move=> H1 H2 U H; have Ux := U x H1 H2.
have dx : \det (M x) != 0 by rewrite -unitfE -unitmxE.
have [X HX] : exists X, derm (fun a => invmx (M a)) x X.
  pose adjD (i j : 'I_m) := (-1) ^+ (j + i) * \sum_k \sum_l (row' j (col' i D)) k l * cofactor (row' j (col' i (M x))) k l.
  pose dd := - (\sum_i \sum_j D i j * cofactor (M x) i j) / \det (M x) ^+ 2.
  exists (\matrix_(i, j) (dd * \adj (M x) i j + (\det (M x))^-1 * adjD i j)).
  apply: derm_near H1 H2 (_ : forall a, _ -> _ -> _ = (\det (M a))^-1 *: \adj (M a)) _ => [a A1 A2|i j].
    by rewrite /invmx U.
  apply: der_ext (der_eq (der_mul (der_inv dx (der_det H)) (_ : der _ x (adjD i j))) _) => [a||].
  - by rewrite mxE.
  - apply: der_ext (der_scale _ (der_det (_ : derm (fun a => row' j (col' i (M a))) x (row' j (col' i D))))) => [a|k l].
      by rewrite mxE.
    by rewrite !mxE; apply: der_ext (H _ _) => a; rewrite !mxE.
  - by rewrite mxE.
have E : D *m invmx (M x) + M x *m X = 0.
  apply: derm_unique (derm_mul H HX) _; apply: derm_near H1 H2 _ (derm_const 1%:M x) => a A1 A2.
  by rewrite mulmxV // U.
apply: derm_eq HX _; rewrite -mulmxA -mulmxN; apply: (can_inj (mulKmx Ux)); rewrite mulKVmx //.
by apply/eqP; rewrite -addr_eq0 addrC E.
Qed.
End Mat.
