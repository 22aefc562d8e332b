From Verif Require Import Base Occ_Model Sparse_Model AbInitio_Row.
Local Open Scope ring_scope.

Definition slice (T : Type) (l : seq T) (lo hi : nat) : seq T := take (hi - lo) (drop lo l).

Lemma slice_mid (T : Type) (a b c : seq T) : slice (a ++ b ++ c) (size a) (size a + size b) = b.
Proof. by rewrite /slice addKn drop_size_cat // take_size_cat. Qed.

Lemma flat_split (T : Type) (g : nat -> seq T) n i : (i < n)%N ->
  flatten (map g (iota 0 n)) = flatten (map g (iota 0 i)) ++ g i ++ flatten (map g (iota i.+1 (n - i.+1))).
Proof.
move=> Hi; have {1}-> : n = (i + (n - i.+1).+1)%N by lia.
by rewrite iotaD map_cat flatten_cat add0n.
Qed.

Lemma flat_rcons (T : Type) (g : nat -> seq T) k :
  flatten (map g (iota 0 k.+1)) = flatten (map g (iota 0 k)) ++ g k.
Proof. by rewrite -addn1 iotaD map_cat flatten_cat /= add0n cats0. Qed.

Lemma foldl_rcons_iota (S : Type) (f : S -> nat -> S) s k :
  foldl f s (iota 0 k.+1) = f (foldl f s (iota 0 k)) k.
Proof. by rewrite -addn1 iotaD foldl_cat. Qed.

Section Csr.
Variable R : comRingType.
Variables (n : nat) (h : nat -> nat -> R) (eri : nat -> nat -> nat -> nat -> R).

Definition row1 i := [seq k <- iota 0 n | h i k != 0].
Definition off1 i := size (flatten (map row1 (iota 0 i))).

Lemma h1_inv k : (k <= n)%N ->
  let st := foldl (h1_step n h) (nseq n.+1 0%N, [::], [::]) (iota 0 k) in
  [/\ size st.1.1 = n.+1, forall i, (i <= k)%N -> nth 0%N st.1.1 i = off1 i,
      st.1.2 = flatten (map row1 (iota 0 k)) &
      st.2 = flatten [seq [seq h i a | a <- row1 i] | i <- iota 0 k]].
Proof.
elim: k => [|k IH] Hk; first by split=> //=; rewrite ?size_nseq // => -[].
have [] := IH (ltnW Hk); rewrite foldl_rcons_iota (flat_rcons row1).
rewrite (flat_rcons (fun i => [seq h i a | a <- row1 i])).
case: (foldl _ _ _) => -[rng ids] vals /= S1 N1 E1 E2.
split.
- by rewrite size_set_nth S1; apply/maxn_idPr; rewrite ltnS.
- move=> i Hi; rewrite nth_set_nth /=; case: eqP => [->|Hne].
    by rewrite N1 // /off1 flat_rcons size_cat.
  by apply: N1; move: Hi; rewrite leq_eqVlt => /orP [/eqP E|]; first by case: Hne.
- by rewrite E1.
- by rewrite E2.
Qed.

Lemma off1S i : off1 i.+1 = (off1 i + size (row1 i))%N.
Proof. by rewrite /off1 flat_rcons size_cat. Qed.

Lemma h1_csrE :
  let: (rng, ids, vals) := h1_csr n h in
  [/\ size rng = n.+1, nth 0%N rng 0 = 0%N, nth 0%N rng n = size ids, size vals = size ids &
  forall i, (i < n)%N -> [/\ nth 0%N rng i.+1 = (nth 0%N rng i + size (row1 i))%N,
     slice ids (nth 0%N rng i) (nth 0%N rng i.+1) = row1 i &
     slice vals (nth 0%N rng i) (nth 0%N rng i.+1) = [seq h i a | a <- row1 i]]].
Proof.
have [] := h1_inv (leqnn n); rewrite /h1_csr; case: (foldl _ _ _) => -[rng ids] vals /= S1 N1 E1 E2.
have Sz k : size (flatten [seq [seq h i a | a <- row1 i] | i <- iota 0 k]) = off1 k.
  by rewrite /off1 !size_flatten /shape -!map_comp; congr sumn; apply: eq_map => i /=; rewrite size_map.
split=> //; first by rewrite N1.
- by rewrite N1 // E1.
- by rewrite E2 Sz E1.
move=> i Hi; rewrite !N1 ?(ltnW Hi) //; split; first by rewrite off1S.
- by rewrite E1 (flat_split _ Hi) off1S slice_mid.
- rewrite E2 (flat_split (fun i => [seq h i a | a <- row1 i]) Hi) off1S -{1 2}Sz.
  by rewrite -[size (row1 i)](size_map (h i)) slice_mid.
Qed.

Definition row2 i j := nonzero_pairs n eri i j.
Definition rows2 i k := flatten (map (row2 i) (iota 0 k)).
Definition rows2v i k := flatten [seq [seq eri i p.1 j p.2 | p <- row2 i j] | j <- iota 0 k].
Definition off2 i j := (size (flatten [seq rows2 i' n | i' <- iota 0 i]) + size (rows2 i j))%N.

Lemma off2_next i : off2 i n = off2 i.+1 0.
Proof. by rewrite /off2 flat_rcons size_cat addn0. Qed.
Lemma off2S i j : off2 i j.+1 = (off2 i j + size (row2 i j))%N.
Proof. by rewrite /off2 /rows2 flat_rcons size_cat addnA. Qed.

Lemma get_set2 rng i j v i' j' : get2 (set2 rng i j v) i' j' = if (i' == i) && (j' == j) then v else get2 rng i' j'.
Proof.
rewrite /get2 /set2 nth_set_nth /=; case: eqP => [->|] //=.
by rewrite nth_set_nth /=; case: eqP.
Qed.

Definition shape2 (rng : seq (seq nat)) := (size rng == n) && all (fun r => size r == n.+1) rng.
Lemma shape_set2 rng i j v : shape2 rng -> (i < n)%N -> (j <= n)%N -> shape2 (set2 rng i j v).
Proof.
move=> /andP [/eqP Hs Ha] Hi Hj; apply/andP; split.
  by rewrite size_set_nth Hs; apply/eqP/maxn_idPr.
apply/(all_nthP [::]) => k; rewrite size_set_nth Hs nth_set_nth /= => Hk.
have Hk' i' : (i' < n)%N -> size (nth [::] rng i') = n.+1.
  by move=> H; apply/eqP; apply: (allP Ha); rewrite mem_nth ?Hs.
case: (altP (k =P i)) => [E|Hne]; rewrite ?size_set_nth ?Hk' //.
  by apply/eqP/maxn_idPr; rewrite ltnS.
by move: Hk; rewrite (maxn_idPr Hi).
Qed.

Definition inv2 i j (st : csr2 R) :=
  [/\ shape2 st.1.1,
      forall i' j', (i' < i)%N -> (j' <= n)%N -> get2 st.1.1 i' j' = off2 i' j',
      (i < n)%N -> forall j', (j' <= j)%N -> get2 st.1.1 i j' = off2 i j',
      st.1.2 = flatten [seq rows2 i' n | i' <- iota 0 i] ++ rows2 i j &
      st.2 = flatten [seq rows2v i' n | i' <- iota 0 i] ++ rows2v i j].

Lemma h2_col i st k : (i < n)%N -> (k <= n)%N -> inv2 i 0 st ->
  inv2 i k (foldl (h2_step n eri i) st (iota 0 k)) /\
  (k = n -> (i.+1 < n)%N -> get2 (foldl (h2_step n eri i) st (iota 0 k)).1.1 i.+1 0 = off2 i.+1 0).
Proof.
move=> Hi; elim: k => [|k IH] Hk H0; first by split=> // E; move: Hi; rewrite -E.
have [{IH} I _] := IH (ltnW Hk) H0; rewrite foldl_rcons_iota.
case: (foldl _ _ _) I => -[rng ids] vals [/= S A B C D].
set r1 := set2 rng i k.+1 _; set r2 := if _ then _ else _.
have S1 : shape2 r1 by apply: shape_set2.
have S2 : shape2 r2.
  by rewrite /r2; case: ifP => // /andP [_ H]; apply: shape_set2 => //; lia.
have G : get2 rng i k = off2 i k by apply: B.
have Q1 i' j' : (i' <= i)%N -> get2 r2 i' j' = get2 r1 i' j'.
  move=> Hi'; rewrite /r2; case: ifP => // _; rewrite get_set2.
  by case: eqP => // E; move: Hi'; rewrite E ltnn.
split.
  split=> //; cbv [fst snd].
  - move=> i' j' Hi' Hj'; rewrite Q1 ?(ltnW Hi') // get_set2.
    by case: eqP => [E|_]; [rewrite E ltnn in Hi'|apply: A].
  - move=> _ j' Hj'; rewrite Q1 // get_set2 eqxx /=; case: eqP => [->|Hne].
      by rewrite G off2S.
    by apply: B => //; move: Hj'; rewrite leq_eqVlt => /orP [/eqP|].
  - by rewrite C /rows2 flat_rcons catA.
  - by rewrite D /rows2v (flat_rcons (fun j => [seq eri i p.1 j p.2 | p <- row2 i j])) catA.
move=> E Hi1; rewrite /= /r2 E eqxx /= ifT; last by lia.
rewrite get_set2 eqxx /= -off2_next -[X in off2 i X]E off2S /r1 get_set2 eqxx /=.
by rewrite ifF ?G //; apply/eqP => Ek; lia.
Qed.

Lemma h2_inv k : (k <= n)%N ->
  inv2 k 0 (foldl (fun st i => foldl (h2_step n eri i) st (iota 0 n)) (nseq n (nseq n.+1 0%N), [::], [::]) (iota 0 k)).
Proof.
elim: k => [|k IH] Hk.
  have S0 : shape2 (nseq n (nseq n.+1 0%N)) by rewrite /shape2 size_nseq eqxx all_nseq size_nseq eqxx orbT.
  split=> //.
  by move=> Hn [|j] // _; rewrite /get2 !nth_nseq Hn.
have [I1 I2] := h2_col Hk (leqnn n) (IH (ltnW Hk)); rewrite foldl_rcons_iota.
case: (foldl _ _ _) I1 I2 => -[rng ids] vals [/= S A B C D] I2.
split=> //; cbv [fst snd].
- move=> i' j'; rewrite ltnS leq_eqVlt => /orP [/eqP ->|Hi'] Hj'; [exact: B|exact: A].
- by move=> Hk1 [|j'] // _; apply: I2.
- by rewrite C flat_rcons cats0.
- by rewrite D flat_rcons cats0.
Qed.

Lemma sz2v i k : size (rows2v i k) = size (rows2 i k).
Proof.
by rewrite /rows2v /rows2 !size_flatten /shape -!map_comp; congr sumn; apply: eq_map => j /=; rewrite size_map.
Qed.

Lemma h2_csrE :
  let: (rng, ids, vals) := h2_csr n eri in
  [/\ shape2 rng, (0 < n)%N -> get2 rng 0 0 = 0%N /\ get2 rng n.-1 n = size ids,
      size vals = size ids,
      forall i, (i.+1 < n)%N -> get2 rng i.+1 0 = get2 rng i n &
  forall i j, (i < n)%N -> (j < n)%N -> [/\ get2 rng i j.+1 = (get2 rng i j + size (row2 i j))%N,
     slice ids (get2 rng i j) (get2 rng i j.+1) = row2 i j &
     slice vals (get2 rng i j) (get2 rng i j.+1) = [seq eri i p.1 j p.2 | p <- row2 i j]]].
Proof.
have [] := h2_inv (leqnn n); rewrite /h2_csr; case: (foldl _ _ _) => -[rng ids] vals /= S A _ C D.
have Sv k : size (flatten [seq rows2v i n | i <- iota 0 k]) = size (flatten [seq rows2 i n | i <- iota 0 k]).
  by rewrite !size_flatten /shape -!map_comp; congr sumn; apply: eq_map => i /=; rewrite sz2v.
split=> //.
- move=> Hn; rewrite !A //; last by lia.
  rewrite C cats0; split; first by rewrite /off2.
  by rewrite off2_next prednK // /off2 addn0.
- by rewrite C D !cats0 Sv.
- by move=> i Hi; rewrite !A ?(ltnW Hi) // off2_next.
move=> i j Hi Hj; rewrite !A ?(ltnW Hj) // off2S; split=> //.
- rewrite C cats0 (flat_split (fun i => rows2 i n) Hi) {2}/rows2 (flat_split _ Hj) -/(rows2 i j).
  by rewrite -!catA catA /off2 -size_cat slice_mid.
- rewrite D cats0 (flat_split (fun i => rows2v i n) Hi) {2}/rows2v.
  rewrite (flat_split (fun j => [seq eri i p.1 j p.2 | p <- row2 i j]) Hj) -/(rows2v i j).
  rewrite -!catA catA /off2 -Sv -sz2v -size_cat.
  by rewrite -[size (row2 i j)](size_map (fun p => eri i p.1 j p.2)) slice_mid.
Qed.

End Csr.

(* the fori_loop over a slice *)
Section Loop.
Variable F : fieldType.
Lemma fori_sumE lo hi (f : nat -> F) : fori_sum lo hi f = \sum_(lo <= k < hi) f k.
Proof.
have H l z : foldl (fun val k => val + f k) z l = z + \sum_(k <- l) f k.
  elim: l z => [|k l IH] z /=; first by rewrite big_nil addr0.
  by rewrite IH big_cons addrA.
by rewrite /fori_sum H add0r.
Qed.
Lemma fori_slice (T : Type) (d : T) (ids : seq T) (vals : seq F) lo hi (g : T -> F -> F) :
  size (slice ids lo hi) = (hi - lo)%N ->
  fori_sum lo hi (fun k => g (nth d ids k) (nth 0 vals k))
  = \sum_(0 <= k < hi - lo) g (nth d (slice ids lo hi) k) (nth 0 (slice vals lo hi) k).
Proof.
move=> Hs; rewrite fori_sumE -{1}[lo]add0n big_addn !big_mkord; apply: eq_bigr => k _.
by rewrite /slice !nth_take // !nth_drop [(lo + _)%N]addnC.
Qed.
End Loop.
