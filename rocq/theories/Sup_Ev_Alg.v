(* Gaussian covariances C = diag(1/p) + sum_j a_j^-1 phi_j phi_j^T of a linear model: Woodbury's
   identities and the change with one feature. *)
From Verif Require Import Base Fld.
Import Num.Theory Order.TTheory.
Local Open Scope ring_scope.

Section Sylvester.
Variable F : fieldType.
Lemma det_1DmulC m n (A : 'M[F]_(m, n)) (B : 'M[F]_(n, m)) : \det (1%:M + A *m B) = \det (1%:M + B *m A).
Proof.
have E1 : block_mx 1%:M (- A) B 1%:M = block_mx 1%:M 0 B 1%:M *m block_mx 1%:M (- A) 0 (1%:M + B *m A).
  by rewrite mulmx_block ?mul1mx ?mul0mx ?mulmx0 ?mulmx1 ?addr0 ?mul0mx ?addr0 mulmxN addrCA addNr addr0.
have E2 : block_mx 1%:M (- A) B 1%:M = block_mx 1%:M (- A) 0 1%:M *m block_mx (1%:M + A *m B) 0 B 1%:M.
  by rewrite mulmx_block ?mul1mx ?mul0mx ?mulmx0 ?mulmx1 ?add0r mulNmx addrK.
have := congr1 (@determinant _ _) (etrans (esym E1) E2).
by rewrite !det_mulmx !det_ublock !det_lblock !det1 !mul1r mulr1 => ->.
Qed.
End Sylvester.

Section Cov.
Variables (R : realFieldType) (N n : nat) (p : 'I_N -> R) (Phi : 'M[R]_(N, n)).
Hypothesis p_gt0 : forall i, 0 < p i.
Implicit Types (act : pred 'I_n) (al : 'I_n -> R) (x : 'cV[R]_N).

Definition sq m (x : 'cV[R]_m) : R := (x^T *m x) 0 0.
Definition Cov act al : 'M[R]_N :=
  diag_mx (\row_i (p i)^-1) + \sum_(j | act j) (al j)^-1 *: (col j Phi *m (col j Phi)^T).
Definition quadf (A : 'M[R]_N) x : R := (x^T *m A *m x) 0 0.

Lemma Cov_sym act al : (Cov act al)^T = Cov act al.
Proof.
rewrite /Cov linearD /= tr_diag_mx linear_sum /=; congr (_ + _); apply: eq_bigr => j _.
by rewrite linearZ /= trmx_mul trmxK.
Qed.
Lemma Cov_quad act al x :
  quadf (Cov act al) x = (\sum_i (p i)^-1 * x i 0 ^+ 2) + \sum_(j | act j) (al j)^-1 * ((col j Phi)^T *m x) 0 0 ^+ 2.
Proof.
rewrite /quadf /Cov mulmxDr mulmxDl mxE; congr (_ + _).
  rewrite mul_mx_diag mxE; apply: eq_bigr => i _; rewrite !mxE mulrAC -expr2 mulrC //.
rewrite mulmx_sumr mulmx_suml summxE; apply: eq_bigr => j _.
rewrite -scalemxAr -scalemxAl [LHS]mxE; congr (_ * _).
have -> : x^T *m (col j Phi *m (col j Phi)^T) *m x = (x^T *m col j Phi) *m ((col j Phi)^T *m x) by rewrite !mulmxA.
rewrite [LHS]mxE big_ord1 expr2; congr (_ * _).
by rewrite -[x^T *m _]trmxK trmx_mul trmxK mxE.
Qed.
Lemma Cov_quad_ge0 act al x : (forall j, act j -> 0 < al j) -> 0 <= quadf (Cov act al) x.
Proof.
move=> Ha; rewrite Cov_quad addr_ge0 //.
  by apply: sumr_ge0 => i _; rewrite mulr_ge0 ?sqr_ge0 // invr_ge0 ltW.
by apply: sumr_ge0 => j Hj; rewrite mulr_ge0 ?sqr_ge0 // invr_ge0 ltW ?Ha.
Qed.
Lemma Cov_quad_eq0 act al x : (forall j, act j -> 0 < al j) -> quadf (Cov act al) x = 0 -> x = 0.
Proof.
move=> Ha /eqP; rewrite Cov_quad paddr_eq0; last first.
- by apply: sumr_ge0 => j Hj; rewrite mulr_ge0 ?sqr_ge0 // invr_ge0 ltW ?Ha.
- by apply: sumr_ge0 => i _; rewrite mulr_ge0 ?sqr_ge0 // invr_ge0 ltW.
case/andP; rewrite psumr_eq0 => [/allP H _|i _]; last by rewrite mulr_ge0 ?sqr_ge0 // invr_ge0 ltW.
apply/matrixP => i j; rewrite [j]ord1 !mxE; move: (H i (mem_index_enum i)).
by rewrite /= mulf_eq0 invr_eq0 (gt_eqF (p_gt0 i)) sqrf_eq0 /= => /eqP.
Qed.
Lemma Cov_unit act al : (forall j, act j -> 0 < al j) -> Cov act al \in unitmx.
Proof.
move=> Ha; rewrite -row_free_unit -kermx_eq0; apply/eqP/row_matrixP => i; rewrite row0.
have : row i (kermx (Cov act al)) *m Cov act al = 0 by apply/sub_kermxP/row_sub.
move: (row i _) => v Hv; apply: trmx_inj; rewrite trmx0; apply: (Cov_quad_eq0 Ha).
by rewrite /quadf trmxK Hv mul0mx mxE.
Qed.
Lemma Cov_inv_sym act al : (invmx (Cov act al))^T = invmx (Cov act al).
Proof. by rewrite trmx_inv Cov_sym. Qed.
Lemma Cov_inv_quad act al x : (forall j, act j -> 0 < al j) ->
  quadf (invmx (Cov act al)) x = quadf (Cov act al) (invmx (Cov act al) *m x).
Proof.
move=> Ha; rewrite /quadf trmx_mul Cov_inv_sym -[in RHS]mulmxA -[in RHS]mulmxA [Cov act al *m _]mulmxA mulmxV ?Cov_unit // mul1mx.
by rewrite -!mulmxA.
Qed.
Lemma Cov_inv_ge0 act al x : (forall j, act j -> 0 < al j) -> 0 <= quadf (invmx (Cov act al)) x.
Proof. by move=> Ha; rewrite Cov_inv_quad // Cov_quad_ge0. Qed.
Lemma Cov_inv_gt0 act al x : (forall j, act j -> 0 < al j) -> x != 0 -> 0 < quadf (invmx (Cov act al)) x.
Proof.
move=> Ha Hx; rewrite lt_neqAle Cov_inv_ge0 // andbT eq_sym; apply: contra_neq Hx => H.
have H0 : invmx (Cov act al) *m x = 0 by apply: (Cov_quad_eq0 Ha); rewrite -Cov_inv_quad.
by rewrite -[x](mulKVmx (Cov_unit Ha)) H0 mulmx0.
Qed.

(* --- one feature more *)
Section RankOne.
Variables (C : 'M[R]_N) (phi : 'cV[R]_N) (a : R).
Hypotheses (CT : C^T = C) (Cu : C \in unitmx) (a0 : a != 0).
Let s := quadf (invmx C) phi.
Let C' := C + a^-1 *: (phi *m phi^T).
Lemma rank1_det : \det C' = \det C * ((a + s) / a).
Proof.
have -> : C' = C *m (1%:M + (invmx C *m phi) *m (a^-1 *: phi^T)).
  by rewrite mulmxDr mulmx1 -scalemxAr -scalemxAr mulmxA mulmxA mulmxV // mul1mx.
rewrite det_mulmx det_1DmulC; congr (_ * _); rewrite det_mx11 -scalemxAl mulmxA [LHS]mxE [(1%:M : 'M_1) 0 0]mxE eqxx [X in _ + X]mxE -/(quadf _ _) -/s.
by rewrite mulrDl divff // [s / a]mulrC.
Qed.
Hypothesis as0 : a + s != 0.
Lemma rank1_inv : C' *m (invmx C - (a + s)^-1 *: (invmx C *m phi *m (phi^T *m invmx C))) = 1%:M.
Proof.
rewrite /C' mulmxDl !mulmxBr mulmxV // -!scalemxAr -!scalemxAl.
set w := phi^T *m invmx C.
have -> : C *m (invmx C *m phi *m w) = phi *m w by rewrite !mulmxA mulmxV // mul1mx.
have E : phi *m phi^T *m (invmx C *m phi *m w) = s *: (phi *m w).
  rewrite -!mulmxA [phi^T *m _]mulmxA [phi^T *m _ *m _]mulmxA.
  by rewrite [phi^T *m invmx C *m phi]mx11_scalar -/(quadf _ _) -/s mul_scalar_mx -scalemxAr.
have -> : phi *m phi^T *m invmx C = phi *m w by rewrite -mulmxA.
rewrite E -addrA -[RHS]addr0; congr (_ + _); rewrite !scalerA -scaleNr -scalerBl -scalerDl.
suff -> : (- (a + s)^-1 + (a^-1 - (a + s)^-1 * a^-1 * s)) = 0 by rewrite scale0r.
by rewrite [(a + s)^-1 * a^-1]mulrC -[_ * _ * s]mulrA mfield_test.
Qed.
Lemma rank1_unit : C' \in unitmx.
Proof. by have /mulmx1_unit[] := rank1_inv. Qed.
Lemma rank1_invE : invmx C' = invmx C - (a + s)^-1 *: (invmx C *m phi *m (phi^T *m invmx C)).
Proof. by rewrite -[RHS](mulKmx rank1_unit) rank1_inv mulmx1. Qed.
End RankOne.

Definition bilf (A : 'M[R]_N) (x z : 'cV[R]_N) : R := (x^T *m A *m z) 0 0.
Lemma bilfC A x z : A^T = A -> bilf A x z = bilf A z x.
Proof.
move=> HA; rewrite /bilf; have -> : x^T *m A *m z = (z^T *m A *m x)^T by rewrite !trmx_mul trmxK HA mulmxA.
by rewrite mxE.
Qed.
Lemma rank1_bil C phi a x z : C \in unitmx -> a != 0 -> a + quadf (invmx C) phi != 0 ->
  bilf (invmx (C + a^-1 *: (phi *m phi^T))) x z =
  bilf (invmx C) x z - bilf (invmx C) x phi * bilf (invmx C) phi z / (a + quadf (invmx C) phi).
Proof.
move=> Cu a0 as0; rewrite /bilf rank1_invE // mulmxBr mulmxBl -scalemxAr -scalemxAl [LHS]mxE; congr (_ + _).
rewrite mxE; congr (- _); rewrite mxE [RHS]mulrC; congr (_ * _).
have -> : x^T *m (invmx C *m phi *m (phi^T *m invmx C)) *m z = (x^T *m invmx C *m phi) *m (phi^T *m invmx C *m z) by rewrite !mulmxA.
by rewrite mxE big_ord1.
Qed.

Definition upd al (i : 'I_n) (a : R) : 'I_n -> R := fun j => if j == i then a else al j.
Lemma eq_Cov act act' al al' : act =1 act' -> (forall j, act j -> al j = al' j) -> Cov act al = Cov act' al'.
Proof. by move=> H1 H2; rewrite /Cov; congr (_ + _); apply: eq_big => // j Hj; rewrite H2. Qed.
Lemma Cov_add act al i : act i ->
  Cov act al = Cov (predD1 act i) al + (al i)^-1 *: (col i Phi *m (col i Phi)^T).
Proof.
by move=> Hi; rewrite /Cov -addrA (bigD1 i) //= [X in _ + X]addrC; congr (_ + (_ + _)); apply: eq_bigl => j; rewrite andbC.
Qed.
Lemma det_Cov act al : (forall j, act j -> 0 < al j) -> 0 < \det (Cov act al).
Proof.
move Em : #|act| => m; elim: m act Em => [|m IH] act Em Ha.
  rewrite /Cov big_pred0 ?addr0 ?det_diag; last by move=> j; have := card0_eq Em j.
  by apply: prodr_gt0 => i _; rewrite mxE invr_gt0.
have /card_gt0P[i Hi] : (0 < #|act|)%N by rewrite Em.
have Ha' j : predD1 act i j -> 0 < al j by rewrite /= => /andP[_ /Ha].
rewrite (Cov_add al (i := i)) // rank1_det ?Cov_unit ?gt_eqF ?Ha // mulr_gt0 //.
  apply: IH => //; have := cardD1 i act; rewrite Em Hi add1n => -[->].
  by apply: eq_card => j; rewrite !inE.
by rewrite divr_gt0 ?Ha // ltr_paddr ?Ha // Cov_inv_ge0.
Qed.

(* --- Woodbury: the dense system of the active features *)
Section Woodbury.
Variables (act : pred 'I_n) (al : 'I_n -> R) (t : 'cV[R]_N).
Hypothesis al_gt0 : forall j, act j -> 0 < al j.
Notation m := #|act|.
Let P := diag_mx (\row_i p i).
Let D : 'M[R]_m := diag_mx (\row_k al (enum_val k)).
Let PA : 'M[R]_(N, m) := \matrix_(r, k) Phi r (enum_val k).
Definition gram : 'M[R]_n := Phi^T *m P *m Phi.
Definition gvec : 'cV[R]_n := Phi^T *m P *m t.
Definition GA : 'M[R]_m := \matrix_(k, l) (gram (enum_val k) (enum_val l) + (if k == l then al (enum_val k) else 0)).

Lemma D_unit : D \in unitmx.
Proof. by rewrite unitmxE det_diag unitfE; apply/prodf_neq0 => k _; rewrite mxE gt_eqF // al_gt0 //; apply: (enum_valP k). Qed.
Lemma P_unit : P \in unitmx.
Proof. by rewrite unitmxE det_diag unitfE; apply/prodf_neq0 => k _; rewrite mxE gt_eqF. Qed.
Lemma inv_diag q (d : 'I_q -> R) : (forall k, 0 < d k) -> invmx (diag_mx (\row_k d k)) = diag_mx (\row_k (d k)^-1).
Proof.
move=> Hd; have E : diag_mx (\row_k d k) *m diag_mx (\row_k (d k)^-1) = 1%:M.
  rewrite mulmx_diag -diag_const_mx; congr diag_mx; apply/matrixP => i j; rewrite !mxE.
  by rewrite divff // gt_eqF.
have U : diag_mx (\row_k d k) \in unitmx by have /mulmx1_unit[] := E.
by rewrite -[RHS](mulKmx U) E mulmx1.
Qed.
Lemma PAE : PA^T *m P *m PA + D = GA.
Proof.
apply/matrixP => k l; rewrite [LHS]mxE [GA k l]mxE; congr (_ + _); last first.
  by rewrite !mxE; case: (k == l); rewrite ?mulr1n ?mulr0n.
rewrite /gram !mul_mx_diag !mxE; apply: eq_bigr => r _; by rewrite !mxE.
Qed.
Lemma CovE : Cov act al = invmx P + PA *m invmx D *m PA^T.
Proof.
rewrite /Cov inv_diag // inv_diag; last by move=> k; apply: al_gt0; apply: (enum_valP k).
congr (_ + _); rewrite mul_mx_diag; apply/matrixP => r r'; rewrite summxE [RHS]mxE big_enum_val.
by apply: eq_bigr => k _; rewrite !mxE big_ord1 !mxE mulrA [_^-1 * _]mulrC.
Qed.
Lemma GA_det : \det GA = \det (Cov act al) * \prod_(j | act j) al j * \prod_i p i.
Proof.
have -> : GA = D *m (1%:M + (invmx D *m PA^T) *m (P *m PA)).
  by rewrite -PAE mulmxDr mulmx1 addrC !mulmxA mulmxV ?D_unit // mul1mx.
rewrite det_mulmx det_1DmulC.
have -> : 1%:M + P *m PA *m (invmx D *m PA^T) = P *m Cov act al.
  by rewrite CovE mulmxDr mulmxV ?P_unit // !mulmxA.
rewrite det_mulmx !det_diag mulrCA [RHS]mulrC; congr (_ * _); first by apply: eq_bigr => i _; rewrite mxE.
rewrite [LHS]mulrC; congr (_ * _); by rewrite [RHS]big_enum_val; apply: eq_bigr => k _; rewrite mxE.
Qed.
Lemma GA_unit : GA \in unitmx.
Proof.
rewrite unitmxE unitfE GA_det gt_eqF // !mulr_gt0 ?det_Cov //; last by apply: prodr_gt0 => i _.
by apply: prodr_gt0 => j Hj; apply: al_gt0.
Qed.
Lemma woodbury : invmx (Cov act al) = P - P *m PA *m invmx GA *m PA^T *m P.
Proof.
set X := RHS; suff E : Cov act al *m X = 1%:M by rewrite -[RHS](mulKmx (Cov_unit al_gt0)) E mulmx1.
rewrite /X CovE mulmxBr !mulmxDl mulVmx ?P_unit // !mulmxA mulVmx ?P_unit // mul1mx.
have -> : PA *m invmx D *m PA^T *m P *m PA *m invmx GA *m PA^T *m P
   = PA *m invmx D *m (PA^T *m P *m PA) *m invmx GA *m PA^T *m P by rewrite !mulmxA.
have -> : PA^T *m P *m PA = GA - D by rewrite -PAE addrK.
rewrite !mulmxBr !mulmxBl -[_ *m GA *m invmx GA]mulmxA mulmxV ?GA_unit // mulmx1.
rewrite -[_ *m invmx D *m D]mulmxA mulVmx ?D_unit // mulmx1.
by rewrite [X in _ - X]addrC subrK addrK.
Qed.
Definition gA : 'M[R]_(n, m) := \matrix_(i, k) gram i (enum_val k).
Definition zA : 'cV[R]_m := \col_k gvec (enum_val k) 0.
Lemma gAE : gA = Phi^T *m P *m PA.
Proof. by apply/matrixP => i k; rewrite [gA i k]mxE /gram !mxE; apply: eq_bigr => r _; rewrite [PA r k]mxE. Qed.
Lemma gATE : gA^T = PA^T *m P *m Phi.
Proof. by rewrite gAE !trmx_mul trmxK tr_diag_mx mulmxA. Qed.
Lemma zAE : zA = PA^T *m P *m t.
Proof.
apply/matrixP => k j; rewrite [j]ord1 [zA k 0]mxE /gvec -!mulmxA !mxE; apply: eq_bigr => r _.
by rewrite [PA^T k r]mxE [PA r k]mxE [Phi^T _ _]mxE.
Qed.
Lemma bil_mx (A : 'M[R]_N) i j : bilf A (col i Phi) (col j Phi) = (Phi^T *m A *m Phi) i j.
Proof. by rewrite /bilf tr_col -row_mul [LHS]mxE [RHS]mxE; apply: eq_bigr => k _; rewrite [row _ _ _ _]mxE [col _ _ _ _]mxE. Qed.
Lemma bil_phi i j : bilf (invmx (Cov act al)) (col i Phi) (col j Phi) = (gram - gA *m invmx GA *m gA^T) i j.
Proof. by rewrite bil_mx woodbury mulmxBr mulmxBl gATE gAE !mulmxA. Qed.
Lemma bil_t i : bilf (invmx (Cov act al)) (col i Phi) t = (gvec - gA *m invmx GA *m zA) i 0.
Proof.
have -> : bilf (invmx (Cov act al)) (col i Phi) t = (Phi^T *m invmx (Cov act al) *m t) i 0.
  by rewrite /bilf tr_col -row_mul [LHS]mxE [RHS]mxE; apply: eq_bigr => k _; rewrite [row _ _ _ _]mxE.
by rewrite woodbury mulmxBr mulmxBl zAE gAE !mulmxA.
Qed.
Lemma bil_tt : bilf (invmx (Cov act al)) t t = \sum_i p i * t i 0 ^+ 2 - (zA^T *m invmx GA *m zA) 0 0.
Proof.
rewrite /bilf woodbury mulmxBr mulmxBl [LHS]mxE [X in _ + X]mxE; congr (_ - _).
  by rewrite mul_mx_diag mxE; apply: eq_bigr => i _; rewrite !mxE mulrAC -expr2 mulrC.
by rewrite zAE !trmx_mul trmxK tr_diag_mx !mulmxA.
Qed.
(* the posterior of the active weights: mean and covariance from the covariance of the data *)
Lemma Cov_PD : PA *m invmx D *m PA^T = Cov act al - invmx P.
Proof. by rewrite CovE addrC addKr. Qed.
Lemma GA_inv : invmx GA = invmx D - invmx D *m PA^T *m invmx (Cov act al) *m PA *m invmx D.
Proof.
set X := RHS; suff E : GA *m X = 1%:M by rewrite -[RHS](mulKmx GA_unit) E mulmx1.
have Cu := Cov_unit al_gt0.
rewrite /X -PAE mulmxDl !mulmxBr mulmxV ?D_unit //.
rewrite !mulmxA mulmxV ?D_unit // mul1mx.
have -> : PA^T *m P *m PA *m invmx D *m PA^T *m invmx (Cov act al) *m PA *m invmx D
  = PA^T *m P *m (PA *m invmx D *m PA^T) *m invmx (Cov act al) *m PA *m invmx D by rewrite !mulmxA.
rewrite Cov_PD !mulmxBr !mulmxBl -[PA^T *m P *m _ *m invmx (Cov act al)]mulmxA mulmxV // mulmx1.
rewrite -[PA^T *m P *m invmx P]mulmxA mulmxV ?P_unit // mulmx1.
by rewrite subKr addrCA subrr addr0.
Qed.
Lemma GA_inv_diag k : invmx GA k k =
  (al (enum_val k))^-1 - (al (enum_val k))^-2 * quadf (invmx (Cov act al)) (col (enum_val k) Phi).
Proof.
rewrite GA_inv [LHS]mxE inv_diag; last by move=> l; apply: al_gt0; apply: (enum_valP l).
congr (_ + _); first by rewrite !mxE eqxx.
rewrite [LHS]mxE; congr (- _).
have -> : quadf (invmx (Cov act al)) (col (enum_val k) Phi) = (PA^T *m invmx (Cov act al) *m PA) k k.
  have -> : col (enum_val k) Phi = col k PA by apply/matrixP => r j; rewrite !mxE.
  by rewrite /quadf tr_col -row_mul [LHS]mxE [RHS]mxE; apply: eq_bigr => r _; rewrite [row _ _ _ _]mxE [col _ _ _ _]mxE.
rewrite -![diag_mx _ *m _ *m _]mulmxA; set M := _ *m PA.
clearbody M; rewrite mulmxA mul_mx_diag mul_diag_mx !mxE mulrAC; congr (_ * _).
by rewrite expr2 invfM.
Qed.
Lemma GA_inv_z : invmx GA *m zA = invmx D *m PA^T *m invmx (Cov act al) *m t.
Proof.
have Cu := Cov_unit al_gt0.
suff E : GA *m (invmx D *m PA^T *m invmx (Cov act al) *m t) = zA by rewrite -E mulKmx // GA_unit.
rewrite -PAE mulmxDl !mulmxA mulmxV ?D_unit // mul1mx.
have -> : PA^T *m P *m PA *m invmx D *m PA^T *m invmx (Cov act al)
  = PA^T *m P *m (PA *m invmx D *m PA^T) *m invmx (Cov act al) by rewrite !mulmxA.
rewrite Cov_PD mulmxBr mulmxBl -[PA^T *m P *m _ *m invmx (Cov act al)]mulmxA mulmxV // mulmx1.
rewrite -[PA^T *m P *m invmx P]mulmxA mulmxV ?P_unit // mulmx1.
by rewrite mulmxBl subrK zAE.
Qed.
Lemma GA_inv_zE k : (invmx GA *m zA) k 0 = (al (enum_val k))^-1 * bilf (invmx (Cov act al)) (col (enum_val k) Phi) t.
Proof.
rewrite GA_inv_z inv_diag; last by move=> l; apply: al_gt0; apply: (enum_valP l).
rewrite -!mulmxA mul_diag_mx [LHS]mxE [X in X * _]mxE; congr (_ * _).
have -> : col (enum_val k) Phi = col k PA by apply/matrixP => r j; rewrite !mxE.
rewrite /bilf tr_col -!mulmxA [LHS]mxE [RHS]mxE; apply: eq_bigr => r _; by rewrite [row _ _ _ _]mxE.
Qed.
End Woodbury.
End Cov.
