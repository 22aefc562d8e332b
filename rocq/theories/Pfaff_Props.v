(* C39: log_pfaffian; C63, C64: the Pfaffian states *)
From Verif Require Import Base Pfaff_Spec Pfaff_Model Pfaff_Proofs.
Import Num.Theory Order.TTheory.
Local Open Scope ring_scope.

(* a matrix given by its entries below N *)
Definition as_mat (F : fieldType) (A : nat -> nat -> F) : mat F := fun i j => Some (A i j).
Definition is_abs (F : fieldType) (R : realFieldType) (absv : F -> R) : Prop :=
  (forall x, 0 <= absv x) /\ (forall x, absv x = 0 <-> x = 0).

Section C39.
Variables (F : fieldType) (R : realFieldType) (absv : F -> R).
Hypothesis Habs : is_abs absv.

Theorem C39_log_pfaffian_partial (n : nat) (A : nat -> nat -> F) : skew n.*2 A ->
  \det (\matrix_(i < n.*2, j < n.*2) A i j) != 0 ->
  log_pfaffian absv n.*2 (as_mat A) = Some (pf A n (iota 0 n.*2)) /\
  pf A n (iota 0 n.*2) ^+ 2 = \det (\matrix_(i < n.*2, j < n.*2) A i j).
Proof.
case: Habs => H0 H1 HA Hd; rewrite (log_pfaffian_lp absv HA) //.
have := lp_spec H0 H1 1 HA; case: (lp _ _ _ _) => [x [E1 E2]|[_ E]].
  by rewrite mul1r in E1; rewrite expr1n mul1r in E2; rewrite -E1.
by move: Hd; rewrite -/(detN _ _) E eqxx.
Qed.

(* singular matrices never give a non-zero number *)
Theorem C39_singular_partial (n : nat) (A : nat -> nat -> F) : skew n.*2 A ->
  \det (\matrix_(i < n.*2, j < n.*2) A i j) = 0 ->
  log_pfaffian absv n.*2 (as_mat A) = Some 0 \/ log_pfaffian absv n.*2 (as_mat A) = None.
Proof.
case: Habs => H0 H1 HA Hd; rewrite (log_pfaffian_lp absv HA) //.
have := lp_spec H0 H1 1 HA; case: (lp _ _ _ _) => [x [E1 E2]|_]; last by right.
left; congr Some; apply/eqP; rewrite -sqrf_eq0 E2; by rewrite /detN Hd mulr0.
Qed.

(* for 2 x 2 matrices the value is right for every matrix *)
Theorem C39_two_by_two (A : nat -> nat -> F) : skew 2 A -> log_pfaffian absv 2 (as_mat A) = Some (A 0%N 1%N).
Proof.
case: Habs => H0 H1 HA; rewrite (@log_pfaffian_lp _ _ absv 1 A) //.
have Hp : pivot absv 1 A = 0%N by have := pivot_lt absv (m := 1) A isT; case: (pivot _ _ _).
rewrite /= Hp /swapped /sw /= /sgn /= !mul1r; case: eqP => [E|//].
by rewrite (proj1 HA) // E oppr0.
Qed.
End C39.

(* the Pfaffian squares to the determinant, over any field *)
Lemma pf_sq (F : fieldType) n (A : nat -> nat -> F) : skew n.*2 A ->
  pf A n (iota 0 n.*2) ^+ 2 = \det (\matrix_(i < n.*2, j < n.*2) A i j).
Proof.
move=> HA; pose absv (x : F) : rat := (x != 0)%:R.
have H0 x : 0 <= absv x by rewrite /absv; case: (x != 0).
have H1 x : absv x = 0 <-> x = 0.
  by rewrite /absv; case: (altP (x =P 0)) => [->|H] //; split=> // /eqP; rewrite ?oner_eq0 ?(negbTE H).
have := lp_spec H0 H1 1 HA; case: (lp _ _ _ _) => [x [E1 E2]|[E1 E2]].
  by rewrite mul1r in E1; rewrite expr1n mul1r in E2; rewrite -E1.
by rewrite E1 -/(detN _ _) E2 expr0n.
Qed.

(* over polynomials *)
Lemma pf_sq_poly (F : fieldType) n (A : nat -> nat -> {poly F}) :
  (forall i j, (i < n.*2)%N -> (j < n.*2)%N -> A i j = - A j i) -> (forall i, (i < n.*2)%N -> A i i = 0) ->
  pf A n (iota 0 n.*2) ^+ 2 = \det (\matrix_(i < n.*2, j < n.*2) A i j).
Proof.
move=> H1 H2; apply/eqP; rewrite -tofrac_eq tofracX pf_rmorph pf_sq; last first.
  by split=> [i j Hi Hj|i Hi]; [rewrite H1 // rmorphN|rewrite H2 // rmorph0].
rewrite -det_map_mx; apply/eqP; congr (\det _); apply/matrixP => i j; by rewrite !mxE.
Qed.

Section Congruent.
Variable F : comRingType.
Add Ring RC : (r_theory F).

Lemma alt_sum N (u : 'I_N -> F) (A : 'I_N -> 'I_N -> F) :
  (forall i j, A i j = - A j i) -> (forall i, A i i = 0) -> \sum_i \sum_j u i * A i j * u j = 0.
Proof.
move=> H1 H2.
have E : \sum_i \sum_j u i * A i j * u j =
  \sum_(i < N) \sum_(j < N | (j < i)%N) u i * A i j * u j + \sum_(i < N) \sum_(j < N | (i < j)%N) u i * A i j * u j.
  rewrite -big_split; apply: eq_bigr => i _ /=.
  rewrite (bigID (fun j : 'I_N => (j < i)%N)) /=; congr (_ + _).
  rewrite (bigD1 i) ?ltnn //= H2 mulr0 mul0r add0r; apply: eq_bigl => j.
  by rewrite -leqNgt ltn_neqAle andbC eq_sym.
rewrite E [X in _ + X](exchange_big_dep xpredT) //= -big_split big1 // => i _ /=.
rewrite -big_split big1 // => j Hj /=.
rewrite (H1 j i); mring F.
Qed.

(* S A S^T, entry by entry *)
Definition congruent N (S A : nat -> nat -> F) (i j : nat) : F :=
  \sum_(k < N) \sum_(l < N) S i k * A k l * S j l.

Lemma det_congruent N (S A : nat -> nat -> F) :
  \det (\matrix_(i < N, j < N) congruent N S A i j) =
  \det (\matrix_(i < N, j < N) S i j) ^+ 2 * \det (\matrix_(i < N, j < N) A i j).
Proof.
have -> : \matrix_(i < N, j < N) congruent N S A i j =
  (\matrix_(i < N, j < N) S i j) *m (\matrix_(i < N, j < N) A i j) *m (\matrix_(i < N, j < N) S i j)^T.
  apply/matrixP => i j; rewrite !mxE /congruent exchange_big; apply: eq_bigr => l _.
  by rewrite !mxE mulr_suml; apply: eq_bigr => k _; rewrite !mxE.
by rewrite !det_mulmx det_tr mulrAC expr2.
Qed.

Lemma congruent_skew N (S A : nat -> nat -> F) :
  (forall i j, (i < N)%N -> (j < N)%N -> A i j = - A j i) -> (forall i, (i < N)%N -> A i i = 0) ->
  (forall i j, congruent N S A i j = - congruent N S A j i) /\ (forall i, congruent N S A i i = 0).
Proof.
move=> H1 H2; split=> [i j|i].
  rewrite /congruent exchange_big -sumrN; apply: eq_bigr => l _; rewrite -sumrN; apply: eq_bigr => k _.
  rewrite (H1 k l) //; mring F.
by apply: (@alt_sum N (fun k => S i k) (fun k l => A k l)) => [k l|k]; [exact: H1|exact: H2].
Qed.
End Congruent.

(* the Pfaffian of a congruent matrix *)
Theorem pf_congruent (F : fieldType) n (S A : nat -> nat -> F) : skew n.*2 A ->
  pf (congruent n.*2 S A) n (iota 0 n.*2) = \det (\matrix_(i < n.*2, j < n.*2) S i j) * pf A n (iota 0 n.*2).
Proof.
move=> HA; set N := n.*2.
pose SX (i j : nat) : {poly F} := 'X * (S i j)%:P + (1 - 'X) * ((i == j)%:R)%:P.
pose AX (i j : nat) : {poly F} := (A i j)%:P.
have [K1 K2] : (forall i j, congruent N SX AX i j = - congruent N SX AX j i) /\ (forall i, congruent N SX AX i i = 0).
  apply: congruent_skew => [i j Hi Hj|i Hi]; rewrite /AX; first by rewrite (proj1 HA) // polyCN.
  by rewrite (proj2 HA).
pose D := \det (\matrix_(i < N, j < N) SX i j) * (pf A n (iota 0 N))%:P.
have Hsq : pf (congruent N SX AX) n (iota 0 N) ^+ 2 = D ^+ 2.
  rewrite pf_sq_poly; [|by move=> *; apply: K1|by move=> *; apply: K2].
  rewrite det_congruent /D exprMn; congr (_ * _).
  rewrite -rmorphX /= pf_sq // -det_map_mx; congr (\det _); apply/matrixP => i j; by rewrite !mxE.
have ev0 (x : F) : (pf (congruent N SX AX) n (iota 0 N)).[x] = pf (congruent N (fun i j => (SX i j).[x]) A) n (iota 0 N).
  rewrite -/(horner_eval x _) pf_rmorph; apply: eq_pf => i j _ _; rewrite /congruent rmorph_sum; apply: eq_bigr => k _.
  rewrite rmorph_sum; apply: eq_bigr => l _; by rewrite !rmorphM /= /horner_eval hornerC.
have evD (x : F) : D.[x] = \det (\matrix_(i < N, j < N) (SX i j).[x]) * pf A n (iota 0 N).
  rewrite /D hornerM hornerC; congr (_ * _); rewrite -/(horner_eval x _) -det_map_mx; congr (\det _).
  by apply/matrixP => i j; rewrite !mxE.
have S0 i j : (SX i j).[0] = (i == j)%:R.
  by rewrite /SX !hornerE /= ?mul0r ?add0r ?subr0 ?mul1r.
have S1 i j : (SX i j).[1] = S i j.
  by rewrite /SX !hornerE /= subrr ?mul0r ?addr0 ?mul1r.
have C0 : pf (congruent N (fun i j => (SX i j).[0]) A) n (iota 0 N) = pf A n (iota 0 N).
  apply: eq_pf => i j; rewrite !mem_iota !add0n /= => Hi Hj; rewrite /congruent.
  rewrite (bigD1 (Ordinal Hi)) //= [X in _ + X]big1 ?addr0; last first.
    move=> k Hk; rewrite big1 // => l _; rewrite S0 eq_sym -[_ == _]/(k == Ordinal Hi) (negbTE Hk); by rewrite !mul0r.
  rewrite (bigD1 (Ordinal Hj)) //= [X in _ + X]big1 ?addr0; last first.
    move=> k Hk; rewrite (S0 j k); case: eqP => [E|_]; last by rewrite mulr0.
    by case/eqP: Hk; apply: val_inj.
  by rewrite !S0 !eqxx mul1r mulr1.
have C1 : pf (congruent N (fun i j => (SX i j).[1]) A) n (iota 0 N) = pf (congruent N S A) n (iota 0 N).
  apply: eq_pf => i j _ _; rewrite /congruent; apply: eq_bigr => k _; apply: eq_bigr => l _; by rewrite !S1.
have D0 : \det (\matrix_(i < N, j < N) (SX i j).[0]) = 1.
  by rewrite -(det1 F N); congr (\det _); apply/matrixP => i j; rewrite !mxE S0.
have D1 : \det (\matrix_(i < N, j < N) (SX i j).[1]) = \det (\matrix_(i < N, j < N) S i j).
  by congr (\det _); apply/matrixP => i j; rewrite !mxE S1.
move/eqP: Hsq; rewrite eqf_sqr => /orP[] /eqP E.
  by have := congr1 (fun p : {poly F} => p.[1]) E; rewrite /= ev0 evD C1 D1.
have := congr1 (fun p : {poly F} => p.[1]) E; rewrite /= hornerN ev0 evD C1 D1 => ->.
have := congr1 (fun p : {poly F} => p.[0]) E; rewrite /= hornerN ev0 evD C0 D0 mul1r => E0.
by rewrite [in RHS]E0 mulrN.
Qed.

(* log_pfaffian transforms like the Pfaffian: exchanging the basis by S multiplies it by det S *)
Theorem C39_congruence_partial (F : fieldType) (R : realFieldType) (absv : F -> R) n (S A : nat -> nat -> F) :
  is_abs absv -> skew n.*2 A ->
  \det (\matrix_(i < n.*2, j < n.*2) A i j) != 0 -> \det (\matrix_(i < n.*2, j < n.*2) S i j) != 0 ->
  exists2 p, log_pfaffian absv n.*2 (as_mat A) = Some p &
    log_pfaffian absv n.*2 (as_mat (congruent n.*2 S A)) = Some (\det (\matrix_(i < n.*2, j < n.*2) S i j) * p).
Proof.
move=> Habs HA HdA HdS; exists (pf A n (iota 0 n.*2)).
  by case: (C39_log_pfaffian_partial Habs HA HdA).
have [K1 K2] := congruent_skew S (proj1 HA) (proj2 HA).
rewrite -pf_congruent //.
have HK : skew n.*2 (congruent n.*2 S A) by split=> *; [exact: K1|exact: K2].
have Hd : \det (\matrix_(i < n.*2, j < n.*2) congruent n.*2 S A i j) != 0.
  by rewrite det_congruent mulf_neq0 // expf_neq0.
by case: (C39_log_pfaffian_partial Habs HK Hd).
Qed.

(* a singular matrix whose vanishing pivot is not the last one gives nan, not -inf *)
Theorem C39_singular_nan_refuted : exists (n : nat) (A : nat -> nat -> rat),
  [/\ skew n.*2 A, \det (\matrix_(i < n.*2, j < n.*2) A i j) = 0 &
      log_pfaffian (fun x : rat => `|x|) n.*2 (as_mat A) = None].
Proof.
exists 2%N, (fun _ _ => 0); split.
- by split=> *; rewrite ?oppr0.
- have -> : \matrix_(i < 4, j < 4) (0 : rat) = 0 by apply/matrixP => i j; rewrite !mxE.
  by rewrite det0.
by vm_compute.
Qed.

(* 1 6 - 2 5 + 3 4 = 8, with a row exchange in the first step *)
Definition ex_A (i j : nat) : rat :=
  nth 0 (nth [::] [:: [:: 0; 1; 2%:R; 3%:R]; [:: -1; 0; 4%:R; 5%:R]; [:: - 2%:R; - 4%:R; 0; 6%:R]; [:: - 3%:R; - 5%:R; - 6%:R; 0]] i) j.
Example C39_example : log_pfaffian (fun x : rat => `|x|) 4 (as_mat ex_A) = Some 8%:R.
Proof. by apply/eqP; vm_compute. Qed.
Example C39_example_abs : is_abs (fun x : rat => `|x|).
Proof. by split=> x; [exact: normr_ge0|split=> [/normr0_eq0|->]; rewrite ?normr0]. Qed.

(* C63, C64: the states *)
Section States.
Variables (F : fieldType) (R : realFieldType) (absv : F -> R).
Hypothesis Habs : is_abs absv.
Add Ring RS : (r_theory (GRing.Field.comRingType F)).
(* the amplitude of the electron positions y *)
Definition amplitude (Fm : nat -> nat -> F) (y : seq nat) : entry F := log_pfaffian absv (size y) (skew_occ Fm y).

Lemma occ_skew (Fm : nat -> nat -> F) y N : skew N (fun i j => Fm (nth 0%N y i) (nth 0%N y j) - Fm (nth 0%N y j) (nth 0%N y i)).
Proof. by split=> *; rewrite ?subrr // opprB. Qed.

(* the value is the Pfaffian of F_ij - F_ji over the electrons *)
Lemma amplitude_pf Fm y n a : size y = n.*2 -> amplitude Fm y = Some a -> a = pf (fun p q => Fm p q - Fm q p) n y.
Proof.
case: Habs => H0 H1 Hs; rewrite /amplitude Hs (log_pfaffian_lp absv (occ_skew Fm y n.*2)) // => E.
have := lp_spec H0 H1 1 (occ_skew Fm y n.*2); rewrite E mul1r => -[-> _].
by rewrite -(pf_map (fun p q => Fm p q - Fm q p) (nth 0%N y)) -Hs map_nth_iota0 // take_size.
Qed.

Theorem C63_antisymmetric Fm n p q r x y a b : size (p ++ x :: q ++ y :: r) = n.*2 ->
  amplitude Fm (p ++ x :: q ++ y :: r) = Some a -> amplitude Fm (p ++ y :: q ++ x :: r) = Some b -> b = - a.
Proof.
move=> Hs Ea Eb.
have Hs' : size (p ++ y :: q ++ x :: r) = n.*2 by rewrite -Hs !size_cat /= !size_cat.
rewrite (amplitude_pf Hs Ea) (amplitude_pf Hs' Eb).
have sk u v : Fm u v - Fm v u = - (Fm v u - Fm u v) by rewrite opprB.
have S u v : size (p ++ u :: q ++ v :: r) = n.*2 by rewrite -Hs !size_cat /= !size_cat.
have S2 u v : size (u :: (p ++ v :: q) ++ r) = n.*2 by rewrite -(S u v) /= !size_cat /= !size_cat /=; lia.
have G u v : pf (fun p q => Fm p q - Fm q p) n (p ++ u :: q ++ v :: r) =
  (-1) ^+ (size p + size q).+1 * ((-1) ^+ size p * (- pf (fun p q => Fm p q - Fm q p) n (u :: v :: p ++ q ++ r))).
  have -> : p ++ u :: q ++ v :: r = (p ++ u :: q) ++ v :: r by rewrite -catA.
  rewrite (pf_front sk); last by rewrite -catA; apply: S.
  rewrite size_cat /= addnS; congr (_ * _).
  rewrite -catA -cat_cons.
  rewrite (pf_front sk (p := v :: p) (x := u)) /=; last by rewrite -(S u v) /= !size_cat /= !size_cat /=; lia.
  by rewrite exprS mulN1r mulNr mulrN.
rewrite !G -!mulrN; congr (_ * (_ * _)); rewrite opprK.
rewrite (@pf_swap _ _ _ sk n [::] y x (p ++ q ++ r)) ?opprK //=.
by rewrite -(S x y) /= !size_cat /= !size_cat /=; lia.
Qed.

(* two electrons at the same position *)
Theorem C63_pauli Fm n p q r x a : size (p ++ x :: q ++ x :: r) = n.*2 ->
  amplitude Fm (p ++ x :: q ++ x :: r) = Some a -> a = 0.
Proof.
move=> Hs Ea; rewrite (amplitude_pf Hs Ea) pf_dup // => [u v|u]; by rewrite ?opprB // subrr.
Qed.

(* the pairing matrix of the unrotated state and its spin rotation on both electrons *)
Definition pairing (L : nat) (f : nat -> nat -> F) (p q : nat) : F :=
  if (p < L <= q)%N then f p (q - L)%N else 0.
Definition rotate (L : nat) (ca sa : F) (G : nat -> F) (p : nat) : F :=
  if (p < L)%N then ca * G p - sa * G (p + L)%N else sa * G (p - L)%N + ca * G p.
Theorem C64_rotation L f ca sa p q : (p < 2 * L)%N -> (q < 2 * L)%N ->
  rotated_F L f ca sa p q = rotate L ca sa (fun p' => rotate L ca sa (pairing L f p') q) p.
Proof.
move=> Hp Hq; rewrite /rotated_F /rotate /pairing.
have M r : (r < 2 * L)%N -> (r %% L = if (r < L)%N then r else (r - L)%N)%N.
  move=> Hr; case: ltnP => H; first by rewrite modn_small.
  by rewrite -{1}(subnK H) modnDr modn_small //; lia.
rewrite !M //.
have A r : (r < L)%N -> [/\ (L <= r)%N = false, (r + L < L)%N = false, (L <= r + L)%N & (r + L - L = r)%N].
  by move=> H; split; lia.
have B r : (L <= r)%N -> (r < 2 * L)%N -> [/\ (r < L)%N = false, (r - L < L)%N & (L <= r - L)%N = false].
  by move=> H1 H2; split; lia.
case: ltnP => HpL; case: ltnP => HqL; rewrite ?HpL ?HqL.
- have [E1 E2 E3 E4] := A _ HpL; have [F1 F2 F3 F4] := A _ HqL; rewrite ?(E1, E2, E3, E4, F1, F2, F3, F4, HpL, HqL, andbF) /=.
  mring (GRing.Field.comRingType F).
- have [E1 E2 E3 E4] := A _ HpL; have [E5 E6 E7] := B _ HqL Hq; rewrite ?(E1, E2, E3, E4, E5, E6, E7, HpL, HqL, andbF) /=.
  mring (GRing.Field.comRingType F).
- have [E1 E2 E3 E4] := A _ HqL; have [E5 E6 E7] := B _ HpL Hp; rewrite ?(E1, E2, E3, E4, E5, E6, E7, HpL, HqL, andbF) /=.
  mring (GRing.Field.comRingType F).
have [E1 E2 E3] := B _ HqL Hq; have [E5 E6 E7] := B _ HpL Hp; rewrite ?(E1, E2, E3, E5, E6, E7, HpL, HqL, andbF) /=.
mring (GRing.Field.comRingType F).
Qed.

Lemma ex_skip (T : Type) (om : T -> T -> F) g u us ds : all (fun v => om u v == 0) us ->
  ex om g u (us ++ ds) = (-1) ^+ size us * ex om (fun s => g (us ++ s)) u ds.
Proof.
elim: us g => [|v us IH] g /=; first by rewrite expr0 mul1r.
by move=> /andP[/eqP -> H]; rewrite mul0r IH // exprS mulN1r mulNr add0r.
Qed.

Lemma pf_bipartite (om : nat -> nat -> F) n (us ds : seq nat) : size us = n -> size ds = n ->
  (forall u v, u \in us -> v \in us -> om u v = 0) ->
  pf om n (us ++ ds) = (-1) ^+ 'C(n, 2) * \det (\matrix_(i < n, j < n) om (nth 0%N us i) (nth 0%N ds j)).
Proof.
elim: n us ds => [|n IH] us ds; first by rewrite det_mx00 mulr1.
case: us => [//|u us] [Hus] Hds H0.
have Hskip : all (fun v => om u v == 0) us.
  by apply/allP => v Hv; rewrite H0 ?eqxx // ?mem_head // inE Hv orbT.
rewrite [LHS]/= ex_skip // (ex_sum _ _ _ _ 0%N) Hus (expand_det_row _ 0) binS bin1 exprD mulrAC -mulrA mulrA [X in _ = X * _]mulrC -mulrA.
rewrite [(-1) ^+ 'C(n, 2) * _]mulrC mulrCA; congr (_ * _).
rewrite Hds mulr_suml; apply: eq_bigr => j _.
rewrite mxE /= [(-1) ^+ j * _]mulrC -!mulrA; congr (_ * _).
rewrite IH //; last by move=> a b Ha Hb; apply: H0; rewrite inE ?Ha ?Hb orbT.
  congr (_ * _); rewrite mulrC; congr (_ * _).
  congr (\det _); apply/matrixP => i k; rewrite !mxE /=; congr (om _ _).
  rewrite nth_cat size_take Hds ltn_ord; case: ltnP => Hk; first by rewrite nth_take // /bump leqNgt Hk.
  by rewrite nth_drop /bump Hk; congr nth; lia.
rewrite size_cat size_take size_drop Hds ltn_ord; have := ltn_ord j; lia.
Qed.

(* without rotation: up to the ordering sign the determinant of f between up and down positions *)
Theorem C64_zero_magnetization L f n (ups dns : seq nat) a : size ups = n -> size dns = n ->
  all (fun i => i < L)%N ups -> all (fun i => i < L)%N dns ->
  amplitude (rotated_F L f 1 0) (ups ++ [seq (i + L)%N | i <- dns]) = Some a ->
  a = (-1) ^+ 'C(n, 2) * \det (\matrix_(i < n, j < n) f (nth 0%N ups i) (nth 0%N dns j)).
Proof.
move=> Hu Hd /allP Au /allP Ad Ea.
have Hs : size (ups ++ [seq (i + L)%N | i <- dns]) = n.*2 by rewrite size_cat size_map Hu Hd addnn.
rewrite (amplitude_pf Hs Ea) pf_bipartite ?size_map //; last first.
  by move=> u v /Au Hu' /Au Hv; rewrite /rotated_F Hu' Hv !mulr0 subrr.
congr (_ * _); congr (\det _); apply/matrixP => i j; rewrite !mxE.
have Hi : (nth 0%N ups i < L)%N by apply: Au; rewrite mem_nth // Hu.
have Hj : (nth 0%N dns j < L)%N by apply: Ad; rewrite mem_nth // Hd.
rewrite (nth_map 0%N) ?Hd // /rotated_F Hi ltnNge leq_addl /= modnDr !modn_small // !mulr0 subr0 !mulr1 //.
Qed.

(* the whole state is the sum over symmetries (and rotations with their characters) *)
Fixpoint osum (s : seq (entry F)) : entry F := if s is x :: s' then oadd x (osum s') else Some 0.
Theorem C63_symmetrised Fm ys : pfaffian_state absv Fm ys = osum [seq amplitude Fm y | y <- ys].
Proof. by elim: ys => //= y ys IH; rewrite -IH. Qed.
End States.

(* positions of two up and two down electrons on two sites: both orbitals doubly occupied *)
Example C64_example : amplitude (fun x : rat => `|x|) (rotated_F 2 (fun i j => nth 0 (nth [::] [:: [:: 1; 2%:R]; [:: 3%:R; 1]] i) j) 1 0) [:: 0; 1; 2; 3]%N = Some 5%:R.
Proof. by apply/eqP; vm_compute. Qed.
Example C63_example : let Fm := fun i j => nth 0 (nth [::] [:: [:: 1; 2%:R]; [:: 3%:R; 1]] i) j : rat in
  amplitude (fun x : rat => `|x|) Fm [:: 0; 1]%N = Some (-1) /\ amplitude (fun x : rat => `|x|) Fm [:: 1; 0]%N = Some 1.
Proof. by split; apply/eqP; vm_compute. Qed.
