(* C130: the update and the gradient of minSRVMC as pytrees *)
From Verif Require Import Base Numq MinSR_Model MinSR_Proofs MinSR_Pytree_Model MinSR_Props MinSR_SR.
Import Order.Theory Num.Theory GRing.Theory.
Local Open Scope ring_scope.

(* C45_partial with the same order of the samples for all jacobians *)
Lemma same_order (C : fieldType) (conj sqrt : C -> C) (T : eqType)
    (eloc : T -> C) (ranks : seq (rank_state C T)) (c s N : nat) :
  (0 < s)%N -> well_shaped ranks c s -> N = (size ranks * (c * s))%N ->
  exists rs : N.-tuple (T * C), forall (P : nat) (jac : T -> C -> 'rV[C]_P)
    (solver : 'M[C]_N -> 'cV[C]_N -> 'cV[C]_N),
    let A := centred_rows jac rs in
    (dense_update conj sqrt jac eloc true ranks c s solver)^T =
          adjoint conj A *m solver (A *m adjoint conj A) (centred_energies sqrt eloc rs).
Proof.
move=> Hs Hw HN; pose rk0 := RankState (@nil (seq T)) (@nil C).
have Hsz : size (order ranks c s) == N by rewrite (size_order Hw rk0) HN mulnCA.
exists (Tuple Hsz) => P jac solver A.
have Hsamp i : (i < size ranks)%N -> forall rk, size (flat (nth rk ranks i)) = (c * s)%N.
  by move=> Hi rk; have [] := shape_nth Hw rk Hi.
have Hcnt i : (i < size ranks)%N -> forall rk, size (counts (nth rk ranks i)) = (c * s)%N.
  by move=> Hi rk; have [] := shape_nth Hw rk Hi.
have HN' : N = (c * (size ranks * s))%N by rewrite HN mulnCA.
have nth_o x0 (k : 'I_N) : nth x0 (order ranks c s) k = tnth (Tuple Hsz) k.
  by rewrite (tnth_nth x0).
have EO : O_avg jac ranks c s = all_mean_O jac (Tuple Hsz).
  rewrite (O_avgE _ Hw rk0) /all_mean_O -[order ranks c s]/(tval (Tuple Hsz)).
  by rewrite big_tuple.
have EE : e_mean eloc true ranks = all_mean_E eloc (Tuple Hsz).
  rewrite (e_meanE _ Hw rk0) /all_mean_E -[order ranks c s]/(tval (Tuple Hsz)).
  by rewrite big_tuple.
have Erow (k : 'I_N) : nth 0 (flatten [seq rows_gathered jac ranks c s i | i <- iota 0 c]) k = row k A.
  have Hk : (k < size (order ranks c s))%N by rewrite (eqP Hsz).
  rewrite all_rowsE (nth_map (tnth (Tuple Hsz) k)) // nth_o EO.
  by apply/rowP => a; rewrite !mxE.
have EK : tangent_kernel conj jac ranks c s N = A *m adjoint conj A.
  apply/matrixP => p q; rewrite (kernelE conj jac Hs Hsamp Hcnt HN') /dot_conj !Erow mxE.
  by apply: eq_bigr => a _; rewrite /adjoint !mxE.
have Een : \col_p nth 0 (restacked sqrt eloc true ranks c s) (val p) = centred_energies sqrt eloc (Tuple Hsz).
  apply/matrixP => k j; rewrite !mxE (restackedE _ _ Hw rk0).
  have Hk : (k < size (order ranks c s))%N by rewrite (eqP Hsz).
  by rewrite (nth_map (tnth (Tuple Hsz) k)) // nth_o EE.
rewrite (updateE conj sqrt jac eloc Hw rk0 solver HN) /OO_epsilon EK Een.
set x := solver _ _; apply/matrixP => a j; rewrite !mxE summxE.
have -> : zip (order ranks c s) [seq x p 0 | p <- enum 'I_N] =
          [seq (tnth (Tuple Hsz) k, x k 0) | k <- enum 'I_N].
  rewrite -[order ranks c s]/(tval (Tuple Hsz)) -{1}(map_tnth_enum (Tuple Hsz)) zip_map2.
  by elim: (enum 'I_N) => //= k l ->.
rewrite big_map big_enum; apply: eq_bigr => k _ /=.
by rewrite !mxE EO (ord1 j) mulrC.
Qed.

Lemma centred_complex (C : fieldType) (sqrt : C -> C) (i : C) (T : Type) (P : nat) (scaled : bool) (o : T -> 'rV[C]_P)
    (N : nat) (rs : N.-tuple (T * C)) :
  centred_rows (netket_jac sqrt scaled (complex_row o (fun x => i *: o x))) rs =
  row_mx (centred_rows (netket_jac sqrt scaled o) rs) (i *: centred_rows (netket_jac sqrt scaled o) rs).
Proof.
have jE x w : netket_jac sqrt scaled (complex_row o (fun x => i *: o x)) x w
    = row_mx (netket_jac sqrt scaled o x w) (i *: netket_jac sqrt scaled o x w).
  by rewrite /netket_jac /complex_row; case: scaled; rewrite // scale_row_mx !scalerA mulrC.
have mE : all_mean_O (netket_jac sqrt scaled (complex_row o (fun x => i *: o x))) rs =
    row_mx (all_mean_O (netket_jac sqrt scaled o) rs) (i *: all_mean_O (netket_jac sqrt scaled o) rs).
  rewrite /all_mean_O; apply/rowP => a; rewrite summxE.
  case: (split_ordP a) => b ->; rewrite ?row_mxEl ?row_mxEr ?mxE summxE ?mulr_sumr.
    by apply: eq_bigr => k _; rewrite mxE jE row_mxEl mxE.
  by apply: eq_bigr => k _; rewrite mxE jE row_mxEr !mxE mulrCA.
apply/matrixP => k a; rewrite mxE jE mE opp_row_mx add_row_mx -scalerBr.
by case: (split_ordP a) => b ->; rewrite ?row_mxEl ?row_mxEr !mxE.
Qed.

Section C130.
Variables (C : numFieldType) (conj : {rmorphism C -> C}) (sqrt : C -> C) (i : C).
Variables (T : eqType) (P : nat) (o : T -> 'rV[C]_P) (eloc : T -> C) (scaled : bool).
Variables (ranks : seq (rank_state C T)) (c s N : nat) (solver : 'M[C]_N -> 'cV[C]_N -> 'cV[C]_N).

(* C130, what holds: for holomorphic amplitudes (derivatives i O for the imaginary parts) the update does
   not depend on the mode, for all weights and both versions of the jacobian *)
Theorem C130_update_partial : involutive conj -> (forall x, 0 <= x * conj x) -> i * i = -1 -> conj i = - i ->
  (0 < s)%N -> well_shaped ranks c s -> N = (size ranks * (c * s))%N ->
  (forall M b, adjoint conj M *m (M *m solver M b - b) = 0) ->
  dp_complex i conj sqrt scaled eloc true ranks c s solver o (fun x => i *: o x) =
  dp_holomorphic conj sqrt scaled eloc true ranks c s solver o.
Proof.
move=> cK c0 ii ci Hs Hw HN Hsol.
have [rs H] := same_order conj sqrt eloc Hs Hw HN.
have := H _ (netket_jac sqrt scaled (complex_row o (fun x => i *: o x))) solver.
have := H _ (netket_jac sqrt scaled o) solver; rewrite /= centred_complex.
set A := centred_rows _ rs; set e := centred_energies _ _ _; set x := solver _ e => E1.
set A2 := row_mx A _; set y := solver _ e => E2.
have a2 : adjoint conj A2 = col_mx (adjoint conj A) (- i *: adjoint conj A).
  by rewrite /adjoint /A2 tr_row_mx map_col_mx linearZ /= map_mxZ ci.
have n1 : adjoint conj A *m (A *m (adjoint conj A *m x) - e) = 0 by apply: (minsr_normal cK c0); apply: Hsol.
have n2 : adjoint conj A2 *m (A2 *m (adjoint conj A2 *m y) - e) = 0 by apply: (minsr_normal cK c0); apply: Hsol.
have aa : A2 *m adjoint conj A2 = 2%:R *: (A *m adjoint conj A).
  rewrite a2 mul_row_col -scalemxAl -scalemxAr scalerA mulrN ii opprK scale1r.
  by rewrite scaler_nat mulr2n.
have n3 : adjoint conj A *m (2%:R *: (A *m (adjoint conj A *m y)) - e) = 0.
  move: n2; rewrite mulmxA aa -scalemxAl -mulmxA a2 mul_col_mx => /eqP; rewrite col_mx_eq0.
  by case/andP => /eqP.
have key : adjoint conj A *m x = 2%:R *: (adjoint conj A *m y).
  apply/eqP; rewrite -subr_eq0 scalemxAr -mulmxBr; apply/eqP.
  apply: (adj_kernel cK c0); set z := x - _.
  rewrite -mulmxA -[A](adjointK cK); apply: (adj_kernel cK c0); rewrite (adjointK cK).
  have -> : adjoint conj A *m A *m (adjoint conj A *m z) =
     adjoint conj A *m (A *m (adjoint conj A *m x) - e) - adjoint conj A *m (2%:R *: (A *m (adjoint conj A *m y)) - e).
    by rewrite /z !mulmxBr opprB addrA subrK -!scalemxAr !mulmxA.
  by rewrite n1 n3 subrr.
rewrite /dp_complex /dp_holomorphic; apply: trmx_inj; rewrite E1 key.
move: E2; rewrite a2 mul_col_mx -scalemxAl; set u := dense_update _ _ _ _ _ _ _ _ _.
move: (adjoint conj A *m y) => g /matrixP E2; apply/matrixP => a j; rewrite (ord1 j) {j} !mxE.
have e1 := E2 (lshift P a) 0; have e2 := E2 (rshift P a) 0.
rewrite mxE col_mxEu in e1; rewrite mxE col_mxEd mxE in e2.
by rewrite e1 e2 mulrA mulrN ii opprK mul1r mulr_natl mulr2n.
Qed.

(* what fails: in mode "complex" self._loss_grad is zero for every holomorphic amplitude, whatever the
   samples and energies (the two halves g and i g cancel, g + i (i g) = 0) *)
Theorem C130_loss_grad_zero : i * i = -1 ->
  (0 < s)%N -> well_shaped ranks c s ->
  loss_grad_complex i sqrt scaled eloc true ranks c s o (fun x => i *: o x) = 0.
Proof.
move=> ii Hs Hw.
have [rs [_ [E _ _ _]]] := C45_partial id sqrt (netket_jac sqrt scaled (complex_row o (fun x => i *: o x)))
  eloc (fun _ b => b) Hs Hw erefl.
rewrite /loss_grad_complex E /reassemble !linear_sum /= -big_split big1 //= => p _.
rewrite !linearZ /=.
have -> : netket_jac sqrt scaled (complex_row o (fun x => i *: o x)) p.1 p.2
    = row_mx (netket_jac sqrt scaled o p.1 p.2) (i *: netket_jac sqrt scaled o p.1 p.2).
  by rewrite /netket_jac /complex_row; case: scaled; rewrite // scale_row_mx !scalerA mulrC.
by rewrite row_mxKl row_mxKr -scalerDr [i *: (i *: _)]scalerA ii scaleN1r addrN scaler0.
Qed.

(* in mode "holomorphic" it is the gradient for real log-derivatives (and real energies): ... *)
Theorem C130_loss_grad_real_partial : (0 < s)%N -> well_shaped ranks c s ->
  (forall p, p \in weighted_samples ranks -> sqrt p.2 * sqrt p.2 = p.2) ->
  \sum_(p <- weighted_samples ranks) p.2 = 1 ->
  (forall x a, conj (o x 0 a) = o x 0 a) -> (forall p, p \in weighted_samples ranks -> conj p.2 = p.2) ->
  loss_grad_holomorphic sqrt true eloc true ranks c s o = (forces conj o eloc (weighted_samples ranks))^T.
Proof.
move=> Hs Hw hq h1 hr hc.
have [rs [_ [E _ _ _]]] := C45_partial id sqrt (netket_jac sqrt true o) eloc (fun _ b => b) Hs Hw erefl.
rewrite /loss_grad_holomorphic E; apply/rowP => a; rewrite !mxE summxE /E_bar.
set m := \sum_(q <- _) _ * eloc _.
have hO : conj (O_bar o (weighted_samples ranks) a) = O_bar o (weighted_samples ranks) a.
  rewrite /O_bar rmorph_sum; apply: eq_big_seq => p hp; by rewrite rmorphM hr hc.
have z : \sum_(p <- weighted_samples ranks) p.2 * (eloc p.1 - m) = 0.
  by under eq_bigr do rewrite mulrBr; rewrite sumrB -mulr_suml h1 mul1r subrr.
have -> : \sum_(p <- weighted_samples ranks) p.2 *
     (conj (o p.1 0 a - O_bar o (weighted_samples ranks) a) * (eloc p.1 - m)) =
   \sum_(p <- weighted_samples ranks) p.2 * (o p.1 0 a * (eloc p.1 - m)).
  under eq_bigr do rewrite rmorphB hr hO mulrBl mulrBr.
  rewrite sumrB -[RHS]subr0; congr (_ - _).
  by under eq_bigr do rewrite mulrCA; rewrite -mulr_sumr z mulr0.
apply: eq_big_seq => p hp; rewrite /netket_jac !mxE.
by rewrite -mulrA [sqrt _ * (_ * _)]mulrA hq // mulrCA [o _ _ _ * _]mulrC.
Qed.
End C130.

(* ... but not for complex ones, in neither mode: two samples with weights 1/2, log-derivatives i and -i,
   energies 1 and -1; the gradient is -i, reported are i and 0 *)
Definition p_oks (C : numClosedFieldType) (x : bool) : 'rV[C]_1 := \row_a (if x then 'i else - 'i).
Lemma p_forces (C : numClosedFieldType) :
  (forces conjC (@p_oks C) (@c_eloc C) (weighted_samples (c_state C)))^T 0 0 = - 'i.
Proof.
rewrite /c_state /weighted_samples /= !mxE !big_cons !big_nil /O_bar /E_bar !big_cons !big_nil /c_eloc /= !mxE /=.
rewrite !mulr1 !addr0 !mulrN1 !mulrN !addrN !subr0 !mulr1 rmorphN conjCi.
rewrite opprK mulrN1 -mulrDl -[RHS]mul1r; congr (_ * _); numq C.
Qed.
Lemma p_loss_grad (C : numClosedFieldType) :
  loss_grad_holomorphic sqrtC true (@c_eloc C) true (c_state C) 1 2 (@p_oks C) 0 0 = 'i.
Proof.
have Hw : well_shaped (c_state C) 1 2 by [].
have [rs [_ [E _ _ _]]] := C45_partial id sqrtC (netket_jac sqrtC true (@p_oks C))
  (@c_eloc C) (fun _ b => b) (isT : 0 < 2)%N Hw erefl.
rewrite /loss_grad_holomorphic E.
rewrite /c_state /weighted_samples /= !big_cons !big_nil !mxE /c_eloc /=.
rewrite !mulr1 !addr0 !mulrN1 !addrN !subr0 mul1r mulN1r [sqrtC _ * - _]mulrN mulrNN mulrA -expr2 sqrtCK.
by rewrite -mulrDl -[RHS]mul1r; congr (_ * _); numq C.
Qed.

Theorem C130_loss_grad_refuted (C : numClosedFieldType) :
  exists (o : bool -> 'rV[C]_1) (eloc : bool -> C) (ranks : seq (rank_state C bool_eqType)),
  [/\ well_shaped ranks 1 2, (forall p, p \in weighted_samples ranks -> p.2 = 2%:R^-1),
      \sum_(p <- weighted_samples ranks) p.2 = 1,
      loss_grad_holomorphic sqrtC true eloc true ranks 1 2 o <> (forces conjC o eloc (weighted_samples ranks))^T &
      loss_grad_complex 'i sqrtC true eloc true ranks 1 2 o (fun x => 'i *: o x)
        <> (forces conjC o eloc (weighted_samples ranks))^T].
Proof.
have i0 : 'i != 0 :> C by exact: neq0Ci.
exists (@p_oks C), (@c_eloc C), (c_state C); split=> //.
- by move=> p; rewrite /c_state /weighted_samples /= !inE => /orP[] /eqP ->.
- by rewrite /c_state /weighted_samples /= !big_cons big_nil /=; numq C.
- move=> /rowP /(_ 0); rewrite p_loss_grad p_forces => /eqP.
  by rewrite -addr_eq0 -mulr2n -mulr_natl mulf_eq0 pnatr_eq0 (negbTE i0).
- rewrite C130_loss_grad_zero -?expr2 ?sqrCi // => /rowP /(_ 0); rewrite p_forces mxE => /eqP.
  by rewrite eq_sym oppr_eq0 (negbTE i0).
Qed.

(* the update of the same state, in both modes, with a least-squares solver that exists *)
Example C130_example (C : numClosedFieldType) :
  dp_complex 'i conjC sqrtC true (@c_eloc C) true (c_state C) 1 2 (@lstsq C conjC 2 2) (@p_oks C) (fun x => 'i *: p_oks C x)
  = dp_holomorphic conjC sqrtC true (@c_eloc C) true (c_state C) 1 2 (@lstsq C conjC 2 2) (@p_oks C).
Proof.
apply: C130_update_partial => //; first exact: conjCK.
- by move=> x; rewrite -normCK exprn_ge0.
- by rewrite -expr2 sqrCi.
- exact: conjCi.
by move=> M b; apply: lstsqP; [exact: conjCK | move=> x; rewrite -normCK exprn_ge0].
Qed.

Definition r_oks (C : numClosedFieldType) (x : bool) : 'rV[C]_1 := \row_a (if x then 1 else -1).
Example C130_real_example (C : numClosedFieldType) :
  loss_grad_holomorphic sqrtC true (@c_eloc C) true (c_state C) 1 2 (@r_oks C) =
  (forces conjC (@r_oks C) (@c_eloc C) (weighted_samples (c_state C)))^T.
Proof.
have h p : p \in weighted_samples (c_state C) -> p.2 = 2%:R^-1.
  by rewrite /c_state /weighted_samples /= !inE => /orP[] /eqP ->.
apply: C130_loss_grad_real_partial => //.
- by move=> p /h ->; rewrite -expr2 sqrtCK.
- by rewrite /c_state /weighted_samples /= !big_cons big_nil /=; numq C.
- by move=> x a; rewrite mxE; case: x; rewrite ?rmorphN rmorph1.
by move=> p /h ->; rewrite fmorphV rmorph_nat.
Qed.
