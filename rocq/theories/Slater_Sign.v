(* Replacing electrons one at a time, and the parity of the resulting order. *)
From Verif Require Import Base Fock_Spec Occ_Model Occ_Spec AbInitioOtf_Model Elec_Model Elec_Props Update_Proto Slater_Model Slater_Det Slater_Pos.
Local Open Scope ring_scope.

Section Moves.
Variables (X A R : seq nat).
Hypotheses (uX : uniq X) (uA : uniq A) (uR : uniq R) (sAR : size A = size R).
Hypotheses (RX : {subset R <= X}) (AX : forall p, p \in A -> p \notin X).
Notation n := (size R).

(* the electron order after the first k moves *)
Definition subst (k p : nat) : nat := if (index p R < k)%N then nth 0%N A (index p R) else p.
Definition word (k : nat) : seq nat := map (subst k) X.

Lemma word0 : word 0 = X. Proof. by rewrite /word map_id. Qed.
Lemma size_word k : size (word k) = size X. Proof. exact: size_map. Qed.
Lemma subst_inj k : (k <= n)%N -> {in X &, injective (subst k)}.
Proof.
move=> Hk p q Hp Hq; rewrite /subst.
have Hin i : (index i R < k)%N -> i \in R by move=> H; rewrite -index_mem (leq_trans H).
have HA i : (index i R < k)%N -> nth 0%N A (index i R) \in A by move=> H; rewrite mem_nth // sAR (leq_trans H).
case: ltnP => Hip; case: ltnP => Hiq E.
- have Ei : index p R = index q R by apply/eqP; rewrite -(nth_uniq 0%N _ _ uA) ?E ?eqxx // sAR ?(leq_trans Hip) ?(leq_trans Hiq).
  by rewrite -(nth_index 0%N (Hin _ Hip)) Ei nth_index // Hin.
- by have := AX (HA _ Hip); rewrite E Hq.
- by have := AX (HA _ Hiq); rewrite -E Hp.
- by [].
Qed.
Lemma word_uniq k : (k <= n)%N -> uniq (word k).
Proof. by move=> Hk; rewrite map_inj_in_uniq //; apply: subst_inj. Qed.

Lemma word_split k : (k < n)%N -> exists w1 w2,
  [/\ word k = w1 ++ nth 0%N R k :: w2, word k.+1 = w1 ++ nth 0%N A k :: w2 & size w1 = index (nth 0%N R k) X].
Proof.
move=> Hk; set r := nth 0%N R k; have HrR : r \in R by apply: mem_nth.
have HrX := RX HrR; have Hi : (index r X < size X)%N by rewrite index_mem.
have EX : X = take (index r X) X ++ r :: drop (index r X).+1 X.
  by rewrite -[r in r :: _](nth_index 0%N HrX) -drop_nth // cat_take_drop.
have HrE : index r R = k by rewrite index_uniq.
have E s : r \notin s -> map (subst k.+1) s = map (subst k) s.
  move=> Hs; apply/eq_in_map => p Hp; rewrite /subst ltnS leq_eqVlt.
  case: (altP (index p R =P k)) => //= Ek.
  have HpR : p \in R by rewrite -index_mem Ek.
  by move: Hs; rewrite /r -Ek nth_index // Hp.
have : uniq (take (index r X) X ++ r :: drop (index r X).+1 X) by rewrite -EX.
rewrite cat_uniq /= => /and3P[_ /norP[Hn1 _] /andP[Hn2 _]].
exists (map (subst k) (take (index r X) X)), (map (subst k) (drop (index r X).+1 X)); split.
- by rewrite /word {1}EX map_cat /= {2}/subst HrE ltnn.
- by rewrite /word {1}EX map_cat /= (E _ Hn1) (E _ Hn2) {2}/subst HrE ltnSn.
- by rewrite size_map size_takel // ltnW.
Qed.
Lemma set_nth_cat (w1 w2 : seq nat) r a : set_nth 0%N (w1 ++ r :: w2) (size w1) a = w1 ++ a :: w2.
Proof. by elim: w1 => [//|b w1 IH] /=; rewrite IH. Qed.
Lemma wordS k : (k < n)%N -> word k.+1 = set_nth 0%N (word k) (index (nth 0%N R k) X) (nth 0%N A k).
Proof. by move=> Hk; have [w1 [w2 [-> -> <-]]] := word_split Hk; rewrite set_nth_cat. Qed.

Lemma word_final Y : uniq Y -> size Y = size X -> (forall p, (p \in A) = (p \in Y) && (p \notin X)) ->
  (forall p, (p \in R) = (p \in X) && (p \notin Y)) -> perm_eq (word n) Y.
Proof.
move=> uY sY HA HR.
have Hsub : {subset word n <= Y}.
  move=> p /mapP[q Hq ->]; rewrite /subst index_mem; case: ifP => HqR.
    have : nth 0%N A (index q R) \in A by rewrite mem_nth // sAR index_mem.
    by rewrite HA => /andP[].
  by move: HqR; rewrite HR Hq /= => /negbFE.
have Hsz : (size Y <= size (word n))%N by rewrite size_word sY.
have [_ E] := uniq_min_size (word_uniq (leqnn n)) Hsub Hsz.
exact: (uniq_perm (word_uniq (leqnn n)) uY E).
Qed.

(* number of electrons up to a position *)
Definition upto (w : seq nat) (p : nat) : nat := count (fun q => (q <= p)%N) w.

Lemma upto_split w1 w2 r p : upto (w1 ++ r :: w2) p = (upto (w1 ++ w2) p + (r <= p))%N.
Proof. by rewrite /upto !count_cat /=; lia. Qed.
Lemma between_upto (w : seq nat) a b : (a < b)%N -> b \notin w ->
  (count (fun p => (a < p < b)%N) w + upto w a)%N = upto w b.
Proof.
move=> Hab; elim: w => [//|c w IH]; rewrite inE negb_or /upto /= => /andP[Hc /IH]; rewrite /upto.
by lia.
Qed.

(* parity of one move *)
Lemma odd_move w1 w2 r a : a != r -> a \notin w1 ++ w2 -> r \notin w1 ++ w2 ->
  odd (inv (w1 ++ a :: w2)) = odd (inv (w1 ++ r :: w2)) (+) (odd (upto (w1 ++ r :: w2) r) (+) odd (upto (w1 ++ r :: w2) a) (+) (a < r)%N).
Proof.
move=> Hne Ha Hr; rewrite (odd_inv_set Ha Hr); congr (_ (+) _); rewrite !upto_split leqnn !oddD !oddb.
case: (ltngtP a r) Hne => // Har _; rewrite /minn /maxn.
  by rewrite -(between_upto Har Hr) oddD; do 2!case: (odd _).
by rewrite -(between_upto Har Ha) oddD; do 2!case: (odd _).
Qed.

(* the loop over moves *)
Section Sign.
Variables (F : fieldType) (m : nat) (cum : seq nat).
Hypothesis cumA : forall p, p \in A -> nth 0%N cum p = upto X p.
Hypothesis cumR : forall p, p \in R -> nth 0%N cum p = upto X p.
Let adds := [seq Some p | p <- A] ++ nseq m None.
Let rems := [seq Some p | p <- R] ++ nseq m None.

Let nth_adds j : nth None adds j = if (j < n)%N then Some (nth 0%N A j) else None.
Proof.
rewrite /adds nth_cat size_map sAR; case: ltnP => Hj; first by rewrite (nth_map 0%N) // sAR.
by rewrite nth_nseq if_same.
Qed.
Let nth_rems j : nth None rems j = if (j < n)%N then Some (nth 0%N R j) else None.
Proof.
rewrite /rems nth_cat size_map; case: ltnP => Hj; first by rewrite (nth_map 0%N).
by rewrite nth_nseq if_same.
Qed.
Let szA : size adds = (n + m)%N. Proof. by rewrite size_cat size_map size_nseq sAR. Qed.
Let szR : size rems = (n + m)%N. Proof. by rewrite size_cat size_map size_nseq. Qed.

Lemma nth_shift a r sites cs j : size sites = size cs -> (j < size cs)%N ->
  nth 0 (shift_counts a r sites cs) j =
  (let c1 := if geo (nth None sites j) a then nth 0 cs j else nth 0 cs j + 1 in
   if geo (nth None sites j) r then c1 else c1 - 1).
Proof.
move=> Hs Hj; rewrite /shift_counts (nth_map (None, 0)) ?size_zip ?Hs ?minnn //.
by rewrite nth_zip.
Qed.
Lemma size_shift a r sites cs : size sites = size cs -> size (shift_counts a r sites cs) = size cs.
Proof. by move=> Hs; rewrite /shift_counts size_map size_zip Hs minnn. Qed.

Definition sinv (k : nat) (st : F * seq int * seq int) : Prop :=
  let: (s, ca, cr) := st in
  [/\ s = (-1) ^+ odd (inv (word (minn k n)) + inv X), size ca = (n + m)%N /\ size cr = (n + m)%N,
      (k < n)%N -> forall j, (j < n)%N -> odd (absz (nth 0 ca j)) = odd (upto (word k) (nth 0%N A j)),
      (k < n)%N -> forall j, (j < n)%N -> odd (absz (nth 0 cr j)) = odd (upto (word k) (nth 0%N R j)) &
      forall j, (n <= j < n + m)%N -> nth 0 ca j = nth 0 cr j].

Lemma odd_absz_add1 (c : int) : odd (absz (c + 1)) = ~~ odd (absz c).
Proof. lia. Qed.
Lemma odd_absz_sub1 (c : int) : odd (absz (c - 1)) = ~~ odd (absz c).
Proof. lia. Qed.
Lemma odd_absz_sub (c d : int) : odd (absz (c - d)) = odd (absz c) (+) odd (absz d).
Proof. lia. Qed.

Lemma shift_odd a r p c : odd (absz (let c1 := if geo (Some p) (Some a) then c else c + 1 in
    if geo (Some p) (Some r) then c1 else c1 - 1)) = odd (absz c) (+) (a <= p)%N (+) (r <= p)%N.
Proof.
by rewrite /=; case: (a <= p)%N; case: (r <= p)%N; rewrite ?odd_absz_sub1 ?odd_absz_add1 ?negbK ?addbT ?addbF ?negbK.
Qed.

Lemma sign_update_word : sign_update F cum adds rems = (-1) ^+ odd (inv (word n) + inv X).
Proof.
rewrite /sign_update szA.
have : sinv (0 + (n + m)) (foldl (sign_step adds rems) (1 : F, map (cum_at cum) adds, map (cum_at cum) rems) (iota 0 (n + m))).
  apply: foldl_iota_ind => [|k [[s ca] cr] /= Hk [Hs [Hca Hcr] Ha Hr Hpad]].
    rewrite /sinv min0n word0 addnn odd_double expr0 !size_map szA szR; split=> // [Hn j Hj|Hn j Hj|j /andP[Hj1 Hj2]].
    - rewrite (nth_map None) ?szA ?nth_adds ?Hj /= ?cumA ?mem_nth ?sAR //; lia.
    - rewrite (nth_map None) ?szR ?nth_rems ?Hj /= ?cumR ?mem_nth //; lia.
    by rewrite !(nth_map None) ?szA ?szR // nth_adds nth_rems ltnNge Hj1.
  have Hca' : size adds = size ca by rewrite szA.
  have Hcr' : size rems = size cr by rewrite szR.
  rewrite /sinv !size_shift //; case: (ltnP k n) => Hkn; last first.
    (* padding *)
    have -> : minn k.+1 n = minn k n by rewrite !(minn_idPr _) //; lia.
    split=> //; first 1 last.
    - by rewrite ltnNge (leqW Hkn).
    - by rewrite ltnNge (leqW Hkn).
    - move=> j Hj; rewrite !nth_shift ?Hca ?Hcr //; try lia; rewrite !nth_adds !nth_rems.
      have [-> ->] : (j < n)%N = false /\ (k < n)%N = false by split; lia.
      by rewrite /= Hpad.
    - rewrite Hpad ?subrr; last lia.
      by rewrite nth_adds nth_rems ltnNge Hkn /= expr0 mulr1.
  have [Ek1 Ek2] : minn k.+1 n = k.+1 /\ minn k n = k by lia.
  move: Hs; rewrite Ek1 Ek2 => Hs; have [w1 [w2 [E1 E2 Ei]]] := word_split Hkn.
  have HaX : nth 0%N A k \notin X by apply: AX; rewrite mem_nth // sAR.
  have HrX : nth 0%N R k \in X by apply: RX; rewrite mem_nth.
  have Hne : nth 0%N A k != nth 0%N R k by apply: contraNneq HaX => ->.
  have := word_uniq (ltnW Hkn); rewrite {1}E1 cat_uniq /= => /and3P[_ /norP[Hr1 _] /andP[Hr2 _]].
  have := word_uniq Hkn; rewrite {1}E2 cat_uniq /= => /and3P[_ /norP[Ha1 _] /andP[Ha2 _]].
  have Ha' : nth 0%N A k \notin w1 ++ w2 by rewrite mem_cat negb_or Ha1 Ha2.
  have Hr' : nth 0%N R k \notin w1 ++ w2 by rewrite mem_cat negb_or Hr1 Hr2.
  have Hup q : odd (upto (word k.+1) q) = odd (upto (word k) q) (+) (nth 0%N A k <= q)%N (+) (nth 0%N R k <= q)%N.
    rewrite E1 E2 !upto_split !oddD !oddb; by case: (odd _); case: (nth 0%N A k <= q)%N; case: (nth 0%N R k <= q)%N.
  split=> //.
  - rewrite Hs -signr_addb; congr (_ ^+ nat_of_bool _).
    rewrite nth_adds nth_rems Hkn /= -ltnNge !oddD E2 (odd_move Hne Ha' Hr') -E1 -Hr // -Ha //.
    rewrite -odd_absz_sub; set c := _ - _; case: (nth 0%N A k < nth 0%N R k)%N.
      by rewrite odd_absz_sub1 absz_nat addbT addbAC.
    by rewrite absz_nat addbF addbAC.
  - move=> Hk1 j Hj; rewrite nth_shift ?Hca //; last lia.
    by rewrite !nth_adds !nth_rems Hj Hkn shift_odd Ha // Hup.
  - move=> Hk1 j Hj; rewrite nth_shift ?Hcr //; last lia.
    by rewrite !nth_adds !nth_rems Hj Hkn shift_odd Hr // Hup.
  - move=> j Hj; rewrite !nth_shift ?Hca ?Hcr //; try lia; rewrite !nth_adds !nth_rems Hkn.
    by rewrite Hpad //; have -> : (j < n)%N = false by lia.
by case: (foldl _ _ _) => [[s ca] cr] /= -[-> _ _ _ _]; rewrite (minn_idPr _) // leq_addr.
Qed.
End Sign.
End Moves.
