(* The Parlett-Reid elimination on the trailing block of the matrix *)
From mathcomp Require perm.
From Verif Require Import Base Pfaff_Spec Pfaff_Model.
Import Num.Theory Order.TTheory.
Local Open Scope ring_scope.

Section Proofs.
Variables (F : fieldType) (R : realFieldType) (absv : F -> R).
Hypothesis abs_ge0 : forall x, (0 <= absv x).
Hypothesis abs_eq0 : forall x, absv x = 0 <-> x = 0.
Add Ring RF : (r_theory (GRing.Field.comRingType F)).

Definition fmat := nat -> nat -> F.
Definition skew (N : nat) (B : fmat) : Prop :=
  (forall i j, (i < N)%N -> (j < N)%N -> B i j = - B j i) /\ (forall i, (i < N)%N -> B i i = 0).

(* the pass on the trailing block, without nan *)
Definition pivot (m : nat) (B : fmat) : nat := argmax_abs absv [seq Some (B (1 + k)%N 0%N) | k <- iota 0 m].
Definition sw (b i : nat) : nat := if i == 1%N then b.+1 else if i == b.+1 then 1%N else i.
Definition swapped (b : nat) (B : fmat) : fmat := fun i j => B (sw b i) (sw b j).
Definition reduced (C : fmat) : fmat := fun i j =>
  C i.+2 j.+2 + C 0%N i.+2 / C 0%N 1%N * C j.+2 1%N - C i.+2 1%N * (C 0%N j.+2 / C 0%N 1%N).
Definition sgn (b : nat) : F := if b != 0%N then -1 else 1.
Fixpoint lp (n : nat) (B : fmat) (v : F) : option F :=
  if n is n'.+1 then
    let b := pivot n'.*2.+1 B in
    let C := swapped b B in
    if C 1%N 0%N == 0 then if n' is 0 then Some 0 else None
    else lp n' (reduced C) (sgn b * v * C 0%N 1%N)
  else Some v.

Lemma argmax_lt (v : seq (entry F)) : (0 < size v)%N -> (argmax_abs absv v < size v)%N.
Proof.
rewrite /argmax_abs; case: ifP => [|_ Hs]; first by rewrite has_find.
rewrite -has_find; apply/hasP.
have: forall v : seq (entry F), (0 < size v)%N -> exists2 x, x \in v & all (fun y => (oabs absv y <= oabs absv x)) v.
  elim=> [//|x [|y w] IH] _; first by exists x; rewrite ?mem_head //= lexx.
  have [//|z Hz Az] := IH.
  have [H|H] := boolP (oabs absv z <= oabs absv x).
    exists x; first exact: mem_head.
    apply/allP => u; rewrite inE => /orP[/eqP ->|Hu]; first exact: lexx.
    apply: le_trans H; exact: (allP Az).
  exists z; first by rewrite inE Hz orbT.
  by move: H; rewrite -ltNge => /ltW H /=; rewrite H.
by move=> H; exact: H.
Qed.

Lemma argmax_zero (v : seq F) k :
  nth (Some 0) (map Some v) (argmax_abs absv (map Some v)) = Some 0 -> (k < size v)%N -> nth 0 v k = 0.
Proof.
move=> E Hk.
have Hs : (0 < size (map Some v))%N by rewrite size_map; case: (v) Hk.
have := argmax_lt Hs; rewrite /argmax_abs.
have -> : has (fun x => x == None) (map Some v) = false by apply/hasP => -[x /mapP[y _ ->]].
move: E; rewrite /argmax_abs.
have -> : has (fun x => x == None) (map Some v) = false by apply/hasP => -[x /mapP[y _ ->]].
move=> E; rewrite -has_find => /(nth_find (Some 0)); rewrite E => /allP /(_ (Some (nth 0 v k))).
rewrite map_f ?mem_nth // => /(_ isT) /=.
have -> : absv 0 = 0 by apply/abs_eq0.
move=> H; apply/abs_eq0; apply/eqP; by rewrite eq_le H abs_ge0.
Qed.

Lemma pivot_lt m B : (0 < m)%N -> (pivot m B < m)%N.
Proof. by move=> Hm; rewrite /pivot; apply: leq_trans (argmax_lt _) _; rewrite ?size_map ?size_iota. Qed.

(* a vanishing pivot means a vanishing column *)
Lemma pivot_zero m B i : (0 < m)%N ->
  swapped (pivot m B) B 1%N 0%N = 0 -> (0 < i <= m)%N -> B i 0%N = 0.
Proof.
move=> Hm; rewrite /swapped /sw /= => E /andP[Hi0 Him].
pose v := [seq B (1 + k)%N 0%N | k <- iota 0 m].
have Ev : [seq Some (B (1 + k)%N 0%N) | k <- iota 0 m] = map Some v by rewrite /v -map_comp.
have Hp := pivot_lt B Hm.
have := @argmax_zero v i.-1; rewrite -Ev -/(pivot m B) size_map size_iota.
rewrite (nth_map 0%N) ?size_iota // nth_iota // add0n add1n E => /(_ erefl).
have Hi1 : (i.-1 < m)%N by rewrite prednK.
move=> /(_ Hi1); by rewrite /v (nth_map 0%N) ?size_iota // nth_iota // add0n add1n prednK.
Qed.

Lemma sw_lt b N i : (1 < N)%N -> (b.+1 < N)%N -> (i < N)%N -> (sw b i < N)%N.
Proof. by rewrite /sw => *; case: ifP => // _; case: ifP. Qed.

Lemma swapped_skew b N B : (1 < N)%N -> (b.+1 < N)%N -> skew N B -> skew N (swapped b B).
Proof.
move=> H1 Hb [Hs Ha]; split=> [i j Hi Hj|i Hi]; rewrite /swapped.
  by apply: Hs; apply: sw_lt.
by apply: Ha; apply: sw_lt.
Qed.

Lemma reduced_skew N C : skew N.+2 C -> skew N (reduced C).
Proof.
move=> [Hs Ha]; split=> [i j Hi Hj|i Hi]; rewrite /reduced.
  rewrite (Hs i.+2 j.+2) ?ltnS //; mring (GRing.Field.comRingType F).
rewrite Ha ?ltnS //; mring (GRing.Field.comRingType F).
Qed.

(* the bilinear form of a matrix *)
Section Form.
Variables (N : nat) (C : fmat).
Hypothesis HC : skew N C.
Definition form (u v : 'rV[F]_N) : F := \sum_(i < N) \sum_(j < N) u 0 i * C i j * v 0 j.
Definition ev (i : nat) : 'rV[F]_N := \row_(j < N) (val j == i)%:R.

Lemma form_skew u v : form u v = - form v u.
Proof.
rewrite /form exchange_big -sumrN; apply: eq_bigr => j _; rewrite -sumrN; apply: eq_bigr => i _.
rewrite (proj1 HC i j) //; mring (GRing.Field.comRingType F).
Qed.
Lemma form_lin a u v w : form (a *: u + v) w = a * form u w + form v w.
Proof.
rewrite /form mulr_sumr -big_split; apply: eq_bigr => i _; rewrite mulr_sumr -big_split; apply: eq_bigr => j _.
rewrite !mxE /=; mring (GRing.Field.comRingType F).
Qed.
Lemma form_alt u : form u u = 0.
Proof.
rewrite /form.
have E : \sum_(i < N) \sum_(j < N) u 0 i * C i j * u 0 j =
  \sum_(i < N) \sum_(j < N | (j < i)%N) u 0 i * C i j * u 0 j + \sum_(i < N) \sum_(j < N | (i < j)%N) u 0 i * C i j * u 0 j.
  rewrite -big_split; apply: eq_bigr => i _ /=.
  rewrite (bigID (fun j : 'I_N => (j < i)%N)) /=; congr (_ + _).
  rewrite (bigD1 i) ?ltnn //= (proj2 HC) // mulr0 mul0r add0r; apply: eq_bigl => j.
  by rewrite -leqNgt ltn_neqAle andbC eq_sym.
rewrite E [X in _ + X](exchange_big_dep xpredT) //= -big_split big1 // => i _ /=.
rewrite -big_split big1 // => j Hj /=.
rewrite (proj1 HC j i) //; mring (GRing.Field.comRingType F).
Qed.
Lemma form_ev i j : (i < N)%N -> (j < N)%N -> form (ev i) (ev j) = C i j.
Proof.
move=> Hi Hj; rewrite /form (bigD1 (Ordinal Hi)) //= [X in _ + X]big1 ?addr0 => [|k Hk].
  rewrite (bigD1 (Ordinal Hj)) //= [X in _ + X]big1 ?addr0 => [|k Hk].
    by rewrite !mxE /= !eqxx mul1r mulr1.
  rewrite [ev j 0 k]mxE /=; case: eqP => [E|_]; last by rewrite mulr0.
  by case/eqP: Hk; apply: val_inj.
rewrite big1 // => l _; rewrite [ev i 0 k]mxE; case: eqP => [E|_]; last by rewrite !mul0r.
by case/eqP: Hk; apply: val_inj.
Qed.
Lemma pf_form n l : all (fun i => i < N)%N l -> pf C n l = pf form n (map ev l).
Proof.
move=> /allP Hl; rewrite pf_map; apply: eq_pf => a b Ha Hb; by rewrite form_ev ?Hl.
Qed.
End Form.

Lemma pf_exchange (T : Type) (om : T -> T -> F) n x y z p q :
  (forall a b, om a b = - om b a) -> size (z :: x :: p ++ y :: q) = n.*2 ->
  pf om n (z :: x :: p ++ y :: q) = - pf om n (z :: y :: p ++ x :: q).
Proof.
move=> Hs E.
have S a b : size ([:: z, a & p] ++ b :: q) = n.*2 by rewrite -E /= !size_cat.
have S2 a b c : size ([:: a, b, c & p ++ q]) = n.*2 by rewrite -(S x y) /= !size_cat /= addnS.
have G a b : pf om n (z :: a :: p ++ b :: q) = (-1) ^+ (size p).+2 * pf om n [:: b, z, a & p ++ q].
  exact: (pf_front Hs (S a b)).
rewrite !G -mulrN; congr (_ * _).
rewrite (@pf_swap _ _ _ Hs n [::] y z (x :: p ++ q)) ?S2 //.
rewrite (@pf_swap _ _ _ Hs n [:: z] y x (p ++ q)) ?S2 //.
by rewrite (@pf_swap _ _ _ Hs n [::] z x (y :: p ++ q)) ?S2 // opprK.
Qed.

Lemma map_sw b N : (b.+1 < N)%N -> b != 0%N ->
  iota 0 N = [:: 0%N, 1%N & iota 2 b.-1 ++ b.+1 :: iota b.+2 (N - b.+2)] /\
  map (sw b) (iota 0 N) = [:: 0%N, b.+1 & iota 2 b.-1 ++ 1%N :: iota b.+2 (N - b.+2)].
Proof.
move=> Hb Hb0.
have E : iota 0 N = [:: 0%N, 1%N & iota 2 b.-1 ++ b.+1 :: iota b.+2 (N - b.+2)].
  have -> : N = (2 + (b.-1 + (1 + (N - b.+2))))%N by lia.
  rewrite iotaD /= iotaD /= addnC; congr [:: _, _ & _ ++ _].
  have -> : (2 + b.-1 = b.+1)%N by lia.
  by congr (_ :: iota _ _); lia.
split=> //; rewrite E /= map_cat /=.
have M s k : (forall i, i \in iota s k -> sw b i = i) -> map (sw b) (iota s k) = iota s k.
  by move=> H; rewrite -[RHS]map_id; apply/eq_in_map.
have Hs0 : sw b 0 = 0%N by [].
have Hs1 : sw b 1 = b.+1 by [].
have Hs2 : sw b b.+1 = 1%N by rewrite /sw; case: ifP => [/eqP|_]; [lia|rewrite eqxx].
rewrite Hs0 Hs1 Hs2 !M //.
- by move=> i; rewrite mem_iota /sw => /andP[H1 H2]; rewrite !gtn_eqF //; lia.
by move=> i; rewrite mem_iota /sw => /andP[H1 H2]; case: eqP => [|_]; [lia|]; case: eqP => //; lia.
Qed.

Lemma pf_swapped n b B : skew n.+1.*2 B -> (b.+1 < n.+1.*2)%N ->
  pf (swapped b B) n.+1 (iota 0 n.+1.*2) = sgn b * pf B n.+1 (iota 0 n.+1.*2).
Proof.
move=> HB Hb; rewrite /sgn; case: (altP (b =P 0%N)) => [->|Hb0]; rewrite ?eqxx ?Hb0.
  rewrite mul1r; apply: eq_pf => i j _ _; rewrite /swapped /sw.
  by case: (altP (i =P 1%N)) => [->|_]; case: (altP (j =P 1%N)) => [->|_].
have [E1 E2] := map_sw Hb Hb0.
rewrite mulN1r.
have -> : pf (swapped b B) n.+1 (iota 0 n.+1.*2) = pf B n.+1 (map (sw b) (iota 0 n.+1.*2)) by rewrite pf_map.
rewrite E2 E1.
have A : all (fun i => i < n.+1.*2)%N (iota 0 n.+1.*2) by apply/allP => i; rewrite mem_iota.
have A' : all (fun i => i < n.+1.*2)%N (map (sw b) (iota 0 n.+1.*2)).
  by apply/allP => i /mapP[j]; rewrite mem_iota /= add0n => Hj ->; apply: sw_lt.
rewrite (@pf_form n.+1.*2); last by rewrite -E2.
rewrite (@pf_form n.+1.*2); last by rewrite -E1.
rewrite !(map_cons, map_cat); apply: pf_exchange; first exact: form_skew.
rewrite [size _]/= size_cat [size (_ :: _)]/= !size_map !size_iota; lia.
Qed.

Lemma pf_reduced n C : skew n.+1.*2 C -> C 0%N 1%N != 0 ->
  pf C n.+1 (iota 0 n.+1.*2) = C 0%N 1%N * pf (reduced C) n (iota 0 n.*2).
Proof.
move=> HC Hp; rewrite doubleS in HC *.
set N := n.*2.+2 in HC *.
have A : all (fun i => i < N)%N (iota 0 N) by apply/allP => i; rewrite mem_iota.
rewrite (@pf_form N) //.
pose t (z : 'rV[F]_N) : F := \sum_(i < N) z 0 i * (C 0%N i / C 0%N 1%N).
have Et i : (i < N)%N -> t (ev N i) = C 0%N i / C 0%N 1%N.
  move=> Hi; rewrite /t (bigD1 (Ordinal Hi)) //= [X in _ + X]big1 ?addr0 => [|k Hk].
    by rewrite mxE /= eqxx mul1r.
  rewrite mxE; case: eqP => [E|_]; last by rewrite mul0r.
  by case/eqP: Hk; apply: val_inj.
have FL := @form_lin N C; have FS := form_skew HC; have FA := form_alt HC.
rewrite [map _ _]/= -(pf_eliminate FS FA FL _ _ t); last by rewrite size_map size_iota.
pose w i := ev N i.+2 - (C 0%N i.+2 / C 0%N 1%N) *: ev N 1.
have -> : [seq z - t z *: ev N 1 | z <- [seq ev N i | i <- iota 2 n.*2]] = map w (iota 0 n.*2).
  rewrite -[iota 2 _]/(iota (2 + 0) n.*2) iotaDl -!map_comp; apply/eq_in_map => i.
  by rewrite mem_iota /= /w => Hi; rewrite Et.
have FR (u v c : 'rV[F]_N) d : form C u (c - d *: v) = form C u c - d * form C u v.
  rewrite FS addrC -scaleNr FL (FS v u) (FS c u); mring (GRing.Field.comRingType F).
have FL' (u v c : 'rV[F]_N) d : form C (c - d *: v) u = form C c u - d * form C v u.
  by rewrite addrC -scaleNr FL addrC mulNr.
have Z : forall (g : seq 'rV[F]_N -> F) s, (forall i, i \in s -> (i < n.*2)%N) -> ex (form C) g (ev N 0) (map w s) = 0.
  move=> g s; elim: s g => [|i s IH] g Hs //=.
  rewrite IH => [|j Hj]; last by apply: Hs; rewrite inE Hj orbT.
  have Hi : (i.+2 < N)%N by rewrite /N !ltnS Hs ?mem_head.
  by rewrite /w FR !form_ev // divfK // subrr mul0r subr0.
rewrite /= Z ?subr0 => [|i]; last by rewrite mem_iota.
rewrite form_ev //; congr (_ * _); rewrite pf_map; apply: eq_pf => i j.
rewrite !mem_iota !add0n /= => Hi Hj.
have Hi' : (i.+2 < N)%N by rewrite /N !ltnS.
have Hj' : (j.+2 < N)%N by rewrite /N !ltnS.
rewrite /w FL' !FR !form_ev // (proj2 HC 1%N) // (proj1 HC 1%N j.+2) // /reduced.
mring (GRing.Field.comRingType F).
Qed.

Definition detN (N : nat) (B : fmat) : F := \det (\matrix_(i < N, j < N) B i j).

Lemma det_swapped N b B : (1 < N)%N -> (b.+1 < N)%N -> detN N (swapped b B) = detN N B.
Proof.
move=> H1 Hb; pose s := perm.tperm (Ordinal H1) (Ordinal Hb).
have E : \matrix_(i < N, j < N) swapped b B i j = row_perm s (col_perm s (\matrix_(i < N, j < N) B i j)).
  have S (i : 'I_N) : sw b i = perm.fun_of_perm s i :> nat.
    rewrite /s /sw; case: perm.tpermP => [->|->|/eqP H2 /eqP H3] /=.
    - by [].
    - by case: eqP => [//|_]; rewrite eqxx.
    by rewrite -[_ == 1%N]/(i == Ordinal H1) -[_ == b.+1]/(i == Ordinal Hb) (negbTE H2) (negbTE H3).
  by apply/matrixP => i j; rewrite !mxE /swapped !S.
by rewrite /detN E row_permE col_permE !det_mulmx !det_perm perm.odd_permV [\det _ * _]mulrC mulrA -expr2 sqrr_sign mul1r.
Qed.

Lemma det_reduced N C : skew N.+2 C -> C 0%N 1%N != 0 -> detN N.+2 C = C 0%N 1%N ^+ 2 * detN N (reduced C).
Proof.
move=> HC Hp.
pose t (i : nat) := if (2 <= i)%N then C 0%N i / C 0%N 1%N else 0.
pose E : 'M[F]_N.+2 := \matrix_(i, j) ((i == j)%:R - t i * (val j == 1%N)%:R).
pose M : 'M[F]_N.+2 := \matrix_(i, j) C i j.
pose D (i j : nat) : F := C i j - t i * C 1%N j - (C i 1%N - t i * C 1%N 1%N) * t j.
have ED : E *m M *m E^T = \matrix_(i, j) D i j.
  have EM (i : 'I_N.+2) j : (E *m M) i j = C i j - t i * C 1%N j.
    rewrite mxE; under eq_bigr => k _ do rewrite !mxE mulrBl.
    rewrite sumrB; congr (_ - _).
      rewrite (bigD1 i) //= eqxx mul1r [X in _ + X]big1 ?addr0 // => k Hk.
      by rewrite eq_sym (negbTE Hk) mul0r.
    rewrite (bigD1 (Ordinal (isT : 1 < N.+2)%N)) //= mulr1 [X in _ + X]big1 ?addr0 // => k Hk.
    by rewrite -[_ == 1%N]/(k == Ordinal (isT : 1 < N.+2)%N) (negbTE Hk) mulr0 mul0r.
  apply/matrixP => i j; rewrite !mxE.
  under eq_bigr => k _ do rewrite EM !mxE mulrBr.
  rewrite sumrB /D; congr (_ - _).
    rewrite (bigD1 j) //= eqxx mulr1 [X in _ + X]big1 ?addr0 // => k Hk.
    by rewrite eq_sym (negbTE Hk) mulr0.
  rewrite (bigD1 (Ordinal (isT : 1 < N.+2)%N)) //= mulr1 [X in _ + X]big1 ?addr0 // => k Hk.
  by rewrite -[_ == 1%N]/(k == Ordinal (isT : 1 < N.+2)%N) (negbTE Hk) mulr0 mulr0.
have dE : \det E = 1.
  rewrite det_trig; last first.
    apply/is_trig_mxP => i j Hij; rewrite mxE.
    have -> : (i == j) = false by apply/eqP => Eij; move: Hij; rewrite Eij ltnn.
    rewrite sub0r; case: eqP => [Ej|_]; last by rewrite mulr0 oppr0.
    have Hi1 : (i < 1)%N by rewrite -[1%N]Ej.
    by rewrite /t leqNgt (leq_trans Hi1) // mul0r oppr0.
  apply: big1 => i _; rewrite mxE eqxx.
  case: eqP => [Ei|_]; last by rewrite mulr0 subr0.
  by rewrite /t Ei mul0r subr0.
have -> : detN N.+2 C = \det (\matrix_(i < N.+2, j < N.+2) D i j).
  by rewrite -ED !det_mulmx det_tr dE mul1r mulr1.
rewrite (expand_det_row _ 0) (bigD1 (Ordinal (isT : 1 < N.+2)%N)) //= [X in _ + X]big1 ?addr0; last first.
  move=> k Hk; rewrite mxE.
  have -> : D 0%N k = 0; last by rewrite mul0r.
  have [->|Hk0] := altP (val k =P 0%N).
    by rewrite /D /t /= (proj2 HC) // mulr0 subr0 mul0r subr0.
  have Hk2 : (2 <= k)%N.
    rewrite ltn_neqAle lt0n Hk0 andbT eq_sym; exact: Hk.
  by rewrite /D /t Hk2 /= !mul0r !subr0 mulrC divfK // subrr.
rewrite mxE /cofactor (expand_det_col _ 0) (bigD1 0) //= [X in _ + X]big1 ?addr0; last first.
  move=> k Hk; rewrite !mxE /=.
  have -> : D (bump 0 k) (bump 1 0) = 0; last by rewrite mul0r.
  have Hk1 : (0 < k)%N by rewrite lt0n; exact: Hk.
  have Hk2 : (k.+1 < N.+2)%N by rewrite ltnS.
  rewrite /bump leq0n add1n /D /t /= ltnS Hk1 mulr0 subr0 (proj1 HC 1%N 0%N) // mulrN divfK //.
  by rewrite opprK (proj1 HC k.+1) // addNr.
rewrite !mxE /= /cofactor.
have -> : D 0%N 1%N = C 0%N 1%N by rewrite /D /t /= mul0r subr0 mulr0 subr0.
have -> : D (bump 0 0) (bump 1 0) = - C 0%N 1%N.
  by rewrite /D /t /= /bump /= addn0 mul0r subr0 mulr0 subr0 (proj1 HC 1%N 0%N).
have -> : \det (row' 0 (col' 0 (row' 0 (col' (Ordinal (isT : 1 < N.+2)%N) (\matrix_(i < N.+2, j < N.+2) D i j))))) = detN N (reduced C).
  congr (\det _); apply/matrixP => i j; rewrite !mxE /= /bump /= !add1n /D /t /= /reduced.
  have Hj : (j.+2 < N.+2)%N by rewrite !ltnS; exact: (ltn_ord j).
  rewrite (proj2 HC 1%N) // mulr0 subr0 (proj1 HC 1%N j.+2) //.
  mring (GRing.Field.comRingType F).
rewrite /= addn0 expr0 mul1r expr1 expr2; mring (GRing.Field.comRingType F).
Qed.

(* a vanishing first column *)
Lemma pf_zero n B : skew n.+1.*2 B -> (forall i, (0 < i < n.+1.*2)%N -> B i 0%N = 0) -> pf B n.+1 (iota 0 n.+1.*2) = 0.
Proof.
move=> HB H; rewrite doubleS in HB H *.
have Z : forall g s, (forall i, i \in s -> (0 < i < n.*2.+2)%N) -> ex B g 0%N s = 0.
  move=> g s; elim: s g => [|i s IH] g Hs //.
  rewrite [LHS]/= IH => [|j Hj]; last by apply: Hs; rewrite inE Hj orbT.
  have Hi := Hs i (mem_head _ _); rewrite (proj1 HB) //; last by case/andP: Hi.
  by rewrite H // oppr0 mul0r addr0.
rewrite -[LHS]/(ex B (pf B n) 0%N (iota 1 n.*2.+1)) Z // => i; by rewrite mem_iota.
Qed.
Lemma det_zero N B : (forall i, (i < N.+1)%N -> B i 0%N = 0) -> detN N.+1 B = 0.
Proof.
by move=> H; rewrite /detN (expand_det_col _ 0) big1 // => i _; rewrite mxE H // mul0r.
Qed.

(* the elimination returns the Pfaffian, and its square is the determinant *)
Lemma lp_spec n B v : skew n.*2 B ->
  if lp n B v is Some x then x = v * pf B n (iota 0 n.*2) /\ x ^+ 2 = v ^+ 2 * detN n.*2 B
  else pf B n (iota 0 n.*2) = 0 /\ detN n.*2 B = 0.
Proof.
elim: n B v => [|n IH] B v HB.
  by rewrite /= mulr1 /detN det_mx00 mulr1.
rewrite [lp _ _ _]/=; set b := pivot _ B; set C := swapped b B.
have Hb : (b < n.*2.+1)%N by apply: pivot_lt.
have HC : skew n.+1.*2 C by apply: swapped_skew.
have [E|Hne] := altP (C 1%N 0%N =P 0).
  have Hcol i : (0 < i < n.+1.*2)%N -> B i 0%N = 0.
    by move=> Hi; apply: (pivot_zero (m := n.*2.+1) _ E).
  have Hp : pf B n.+1 (iota 0 n.+1.*2) = 0 by apply: pf_zero.
  have Hd : detN n.+1.*2 B = 0.
    rewrite doubleS; apply: det_zero => -[_|i Hi]; first by rewrite (proj2 HB).
    by apply: Hcol; rewrite doubleS.
  case: (n) Hp Hd => [|n'] Hp Hd; last by rewrite Hp Hd.
  by rewrite Hp Hd !mulr0 expr0n.
have Hp : C 0%N 1%N != 0 by rewrite (proj1 HC) // oppr_eq0.
have HR : skew n.*2 (reduced C) by apply: reduced_skew; rewrite -doubleS.
have := IH (reduced C) (sgn b * v * C 0%N 1%N) HR.
have Epf : C 0%N 1%N * pf (reduced C) n (iota 0 n.*2) = sgn b * pf B n.+1 (iota 0 n.+1.*2).
  by rewrite -pf_swapped // -pf_reduced.
have Edet : C 0%N 1%N ^+ 2 * detN n.*2 (reduced C) = detN n.+1.*2 B.
  by rewrite -det_reduced // -doubleS det_swapped.
have Hsg : sgn b * sgn b = 1 by rewrite /sgn; case: ifP; rewrite ?mulr1 // mulrN1 opprK.
case: (lp _ _ _) => [x [E1 E2]|[E1 E2]].
  split; first by rewrite E1 -mulrA Epf mulrACA Hsg mul1r.
  by rewrite E2 !exprMn -Edet [sgn b ^+ 2]expr2 Hsg mul1r mulrA.
split; last by rewrite -Edet E2 mulr0.
by rewrite -[LHS]mul1r -Hsg -mulrA -Epf E1 !mulr0.
Qed.

(* refinement of the loop *)
Lemma sw_alt b i : (if i == b.+1 then 1%N else if i == 1%N then b.+1 else i) = sw b i.
Proof. by rewrite /sw; case: (altP (i =P b.+1)) => [->|//]; case: eqP. Qed.

Lemma exchange_at (M : mat F) k b i j : exchange M k b (k + i)%N (k + j)%N = M (k + sw b i)%N (k + sw b j)%N.
Proof.
have E1 m : ((k + m)%N == (k + 1)%N) = (m == 1%N) by rewrite eqn_add2l.
have E2 m : ((k + m)%N == (k + b + 1)%N) = (m == b.+1) by rewrite -addnA eqn_add2l addn1.
have E3 m : (k <= k + m)%N by rewrite leq_addr.
have U m c : set_row (set_row M (k + 1) k (fun c => M (k + b + 1)%N c)) (k + b + 1) k (fun c => M (k + 1)%N c) (k + m)%N (k + c)%N
   = M (k + sw b m)%N (k + c)%N.
  rewrite /set_row E1 E2 !E3 !andbT -sw_alt.
  by case: (m == b.+1); case: (m == 1%N); rewrite -?addnA ?addn1.
have Eb : (k + b + 1 = k + b.+1)%N by rewrite -addnA addn1.
rewrite /exchange /set_col E1 E2 !E3 /= -[sw b j]sw_alt.
case: (j == b.+1); first by rewrite U.
case: (j == 1%N); last by rewrite U.
by move: (U i b.+1); rewrite -Eb.
Qed.

Definition trail (k m : nat) (M : mat F) (f : nat -> nat -> entry F) : Prop :=
  forall i j, (i < m)%N -> (j < m)%N -> M (k + i)%N (k + j)%N = f i j.

Lemma step_ok n count v M B : skew n.+1.*2 B ->
  trail (count * 2) n.+1.*2 M (fun i j => Some (B i j)) ->
  let b := pivot n.*2.+1 B in let C := swapped b B in
  let st := pfaff_step absv (count * 2 + n.+1.*2) (Some v, M) count in
  if C 1%N 0%N == 0 then trail (count.+1 * 2) n.*2 st.2 (fun _ _ => None) /\ st.1 = Some 0
  else trail (count.+1 * 2) n.*2 st.2 (fun i j => Some (reduced C i j)) /\ st.1 = Some (sgn b * v * C 0%N 1%N).
Proof.
move=> HB HM b C; set k := (count * 2)%N in HM *.
have Hb : (b < n.*2.+1)%N by apply: pivot_lt.
have Ebig : argmax_abs absv [seq M r k | r <- iota (k + 1) (k + n.+1.*2 - (k + 1))] = b.
  rewrite /b /pivot; congr (argmax_abs _ _).
  have -> : (k + n.+1.*2 - (k + 1) = n.*2.+1)%N by rewrite doubleS; lia.
  rewrite iotaDl -[iota 1 _]/(iota (1 + 0) _) iotaDl -!map_comp; apply/eq_in_map => i.
  rewrite mem_iota /= add0n => Hi; rewrite -[k in M _ k]addn0 HM //; by rewrite doubleS ltnS.
have EX i j : (i < n.+1.*2)%N -> (j < n.+1.*2)%N -> exchange M k b (k + i)%N (k + j)%N = Some (C i j).
  by move=> Hi Hj; rewrite exchange_at HM //; apply: sw_lt.
have HC : skew n.+1.*2 C by apply: swapped_skew.
move=> st; rewrite /st /pfaff_step -/k Ebig {st}.
have X10 : exchange M k b (k + 1)%N k = Some (C 1%N 0%N) by rewrite -[X in exchange _ _ _ _ X]addn0 EX.
have X0 j : (j < n.+1.*2)%N -> exchange M k b k (k + j)%N = Some (C 0%N j).
  by move=> Hj; rewrite -[X in exchange _ _ _ X _]addn0 EX.
have EC : C 1%N 0%N = - C 0%N 1%N by rewrite (proj1 HC).
have K i : (count.+1 * 2 + i = k + i.+2)%N by rewrite /k; lia.
have K2 i : (k + 2 <= k + i.+2)%N by rewrite leq_add2l.
have K1 : (k + 2 <= k + 1)%N = false by rewrite leq_add2l.
have Hlt i : (i < n.*2)%N -> (i.+2 < n.+1.*2)%N by rewrite doubleS !ltnS.
rewrite X10 X0 //.
have [E|Hne] := altP (C 1%N 0%N =P 0).
  rewrite E eqxx /=; split=> // i j Hi Hj; rewrite !K !K2 /= EX ?Hlt // X0 ?Hlt //.
  have -> : C 0%N 1%N = 0 by apply/eqP; rewrite -oppr_eq0 -EC E.
  by rewrite /= eqxx.
have Hp : C 0%N 1%N != 0 by rewrite -oppr_eq0 -EC.
have -> : Some (C 1%N 0%N) != Some 0 by [].
split=> [i j Hi Hj /=|]; last by rewrite /= /sgn; case: ifP => _ /=; rewrite ?mulN1r ?mul1r.
rewrite !K !K2 K1 andbF /= !EX ?Hlt // !X0 ?Hlt //= (negbTE Hp) /=; by [].
Qed.

Lemma step_none n count v M : trail (count * 2) n.+1.*2 M (fun _ _ => None) ->
  let st := pfaff_step absv (count * 2 + n.+1.*2) (v, M) count in
  trail (count.+1 * 2) n.*2 st.2 (fun _ _ => None) /\ st.1 = None.
Proof.
move=> HM st; rewrite /st /pfaff_step; set k := (count * 2)%N in HM *.
set b := argmax_abs _ _.
have Hb : (b.+1 < n.+1.*2)%N.
  rewrite /b; set l := map _ _.
  have El : size l = n.*2.+1 by rewrite size_map size_iota doubleS; lia.
  by rewrite doubleS ltnS; apply: leq_trans (argmax_lt _) _; rewrite El.
have EX i j : (i < n.+1.*2)%N -> (j < n.+1.*2)%N -> exchange M k b (k + i)%N (k + j)%N = None.
  by move=> Hi Hj; rewrite exchange_at HM //; apply: sw_lt.
have X10 : exchange M k b (k + 1)%N k = None by rewrite -[X in exchange _ _ _ _ X]addn0 EX.
have X0 j : (j < n.+1.*2)%N -> exchange M k b k (k + j)%N = None.
  by move=> Hj; rewrite -[X in exchange _ _ _ X _]addn0 EX.
rewrite X10 X0 // {st} /=; split=> [i j Hi Hj|]; last by case: (if _ then _ else _).
have K l : (count.+1 * 2 + l = k + l.+2)%N by rewrite /k; lia.
have K2 l : (k + 2 <= k + l.+2)%N by rewrite leq_add2l.
by rewrite !K !K2 /= EX // doubleS !ltnS.
Qed.

Lemma foldl_iota (T : Type) (f : T -> nat -> T) z k n : foldl f z (iota k n.+1) = foldl f (f z k) (iota k.+1 n).
Proof. by []. Qed.

Lemma steps_none n k v M : trail (k * 2) n.*2 M (fun _ _ => None) -> (0 < n)%N || (v == None) ->
  (foldl (pfaff_step absv (k * 2 + n.*2)) (v, M) (iota k n)).1 = None.
Proof.
elim: n k v M => [|n IH] k v M HM Hv; first by move/eqP: Hv.
rewrite foldl_iota.
have := step_none v HM; case E: (pfaff_step _ _ _ _) => [v' M'] [/= H1 H2].
have -> : (k * 2 + n.+1.*2 = k.+1 * 2 + n.*2)%N by rewrite doubleS; lia.
by apply: IH => //; rewrite H2 eqxx orbT.
Qed.

Lemma steps_lp n k v M B : skew n.*2 B -> trail (k * 2) n.*2 M (fun i j => Some (B i j)) ->
  (foldl (pfaff_step absv (k * 2 + n.*2)) (Some v, M) (iota k n)).1 = lp n B v.
Proof.
elim: n k v M B => [|n IH] k v M B HB HM //.
rewrite foldl_iota [lp _ _ _]/=.
have := step_ok v HB HM; set b := pivot _ _; set C := swapped b B.
have Hb : (b < n.*2.+1)%N by apply: pivot_lt.
have -> : (k * 2 + n.+1.*2 = k.+1 * 2 + n.*2)%N by rewrite doubleS; lia.
case E: (pfaff_step _ _ _ _) => [v' M'] /=; case: ifP => _ [H1 H2].
  case: n IH HB HM b C Hb E H1 => [|n] IH HB HM b C Hb E H1; first by rewrite H2.
  by apply: steps_none.
rewrite H2; apply: IH => //; apply: reduced_skew; rewrite -doubleS; exact: swapped_skew.
Qed.

Lemma log_pfaffian_lp n A (M : mat F) : skew n.*2 A ->
  (forall i j, (i < n.*2)%N -> (j < n.*2)%N -> M i j = Some (A i j)) ->
  log_pfaffian absv n.*2 M = lp n A 1.
Proof.
move=> HA HM; rewrite /log_pfaffian.
have -> : (n.*2 %/ 2 = n)%N by rewrite -muln2 mulnK.
by apply: (@steps_lp n 0).
Qed.
End Proofs.
