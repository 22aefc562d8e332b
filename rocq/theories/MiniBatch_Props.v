(* C125: the mini-batch loss of ARStateFitting as an estimate of the loss weighted with |y|^2. *)
From Verif Require Import Base Split_Model MiniBatch_Model.
Import Order.Theory Num.Theory GRing.Theory.
Local Open Scope ring_scope.

Section Draws.
Variables (F : realFieldType) (n : nat) (p : 'I_n -> F).
Hypothesis Hp : forall i, 0 < p i.
Implicit Types (A B : {set 'I_n}) (G H : seq 'I_n -> F) (i j m : 'I_n).
Notation E := (draw_ex p).
Notation W A := (\sum_(j in A) p j).

Lemma W_gt0 A i : i \in A -> 0 < W A.
Proof.
by move=> Hi; rewrite (bigD1 i) //= ltr_paddr // sumr_ge0 // => j _; exact/ltW.
Qed.
Lemma frac_ge0 A i : 0 <= p i / W A.
Proof. by rewrite divr_ge0 ?(ltW (Hp i)) // sumr_ge0 // => j _; exact/ltW. Qed.
Lemma frac_sum A : A != set0 -> \sum_(i in A) p i / W A = 1.
Proof. by case/set0Pn => i Hi; rewrite -mulr_suml divff // gt_eqF // (W_gt0 Hi). Qed.

Lemma E_eq k A G H : (forall s, uniq s -> {subset s <= A} -> size s = k -> G s = H s) -> E k A G = E k A H.
Proof.
elim: k A G H => [|k IH] A G H HGH /=; first exact: HGH.
apply: eq_bigr => i Hi; congr (_ * _); apply: IH => s Us Ss Zs; apply: HGH => /=.
- by rewrite Us andbT; apply/negP => /Ss; rewrite in_setD1 eqxx.
- by move=> j; rewrite inE => /orP[/eqP->//|/Ss]; rewrite in_setD1 => /andP[].
- by rewrite Zs.
Qed.
Lemma E_sum (I : finType) k A (G : I -> seq 'I_n -> F) : E k A (fun s => \sum_c G c s) = \sum_c E k A (G c).
Proof.
elim: k A G => [//|k IH] A G /=; rewrite exchange_big; apply: eq_bigr => i _.
by rewrite IH mulr_sumr.
Qed.
Lemma E_scale k A c G : E k A (fun s => G s * c) = E k A G * c.
Proof.
elim: k A G => [//|k IH] A G /=; rewrite mulr_suml; apply: eq_bigr => i _.
by rewrite IH mulrA.
Qed.
Lemma E_const k A c : (k <= #|A|)%N -> E k A (fun=> c) = c.
Proof.
elim: k A => [//|k IH] A Hk /=; rewrite -[RHS]mul1r -(@frac_sum A) -?card_gt0 ?(leq_ltn_trans _ Hk) //.
rewrite mulr_suml; apply: eq_bigr => i Hi; rewrite IH //.
by move: Hk; rewrite (cardsD1 i) Hi.
Qed.
Lemma E_ge0 k A G : (forall s, 0 <= G s) -> 0 <= E k A G.
Proof.
elim: k A G => [|k IH] A G HG /=; [exact: HG | apply: sumr_ge0 => i _].
by apply: mulr_ge0; [exact: frac_ge0 | exact: IH].
Qed.
Lemma E_sub k A G H : E k A (fun s => G s - H s) = E k A G - E k A H.
Proof.
elim: k A G H => [//|k IH] A G H /=; rewrite -sumrB; apply: eq_bigr => i _.
by rewrite IH mulrBr.
Qed.

(* probability that i is not in the batch *)
Definition miss k A i : F := E k A (fun s => (i \notin s)%:R).
Lemma miss_ge0 k A i : 0 <= miss k A i.
Proof. by apply: E_ge0 => s; exact: ler0n. Qed.
Lemma missS k A i : i \in A ->
  miss k.+1 A i = (\sum_(m in A :\ i) p m * miss k (A :\ m) i) / W A.
Proof.
move=> Hi; rewrite /miss /= (bigD1 i) //= (_ : E k _ _ = 0) ?mulr0 ?add0r; last first.
  have E0 : E k (A :\ i) (fun=> 0 * 0) = 0 by rewrite E_scale mulr0.
  by rewrite -[RHS]E0; apply: E_eq => s _ _ _; rewrite inE eqxx mul0r.
rewrite mulr_suml; apply: eq_big => [m|m /andP[_ Hm]]; first by rewrite in_setD1 andbC.
rewrite mulrAC; congr (_ * _ * _); apply: E_eq => s _ _ _.
by rewrite inE eq_sym (negbTE Hm).
Qed.

(* the heavier of two ids is missed less often, first for different sets *)
Lemma WU A i : i \notin A -> W (i |: A) = p i + W A.
Proof. by move=> Hi; rewrite big_setU1. Qed.
Lemma miss_weight k A i j : i \notin A -> j \notin A -> p i <= p j -> miss k (j |: A) j <= miss k (i |: A) i.
Proof.
elim: k A => [//|k IH] A Hi Hj Hij; rewrite !missS ?setU11 // !WU // !setU1K //.
have HA : 0 <= W A by apply: sumr_ge0 => m _; exact/ltW.
apply: ler_pmul.
- by apply: sumr_ge0 => m _; rewrite mulr_ge0 ?miss_ge0 // ltW.
- by rewrite invr_ge0 addr_ge0 // ltW.
- apply: ler_sum => m Hm; rewrite ler_pmul2l //.
  have Hmi : m != i by apply: contraNneq Hi => <-.
  have Hmj : m != j by apply: contraNneq Hj => <-.
  have Hset (c : 'I_n) : m != c -> (c |: A) :\ m = c |: (A :\ m).
    move=> Hc; apply/setP => z; rewrite !inE; case: (eqVneq z m) => [->|] //=.
    by rewrite (negbTE Hc).
  by rewrite !Hset //; apply: IH => //; rewrite in_setD1 ?(negbTE Hi) ?(negbTE Hj) andbF.
- by rewrite lef_pinv ?posrE ?ltr_paddr // ler_add2r.
Qed.
Lemma miss_mono k A i j : i \in A -> j \in A -> p i <= p j -> miss k A j <= miss k A i.
Proof.
elim: k A => [//|k IH] A Hi Hj Hij; case: (eqVneq i j) => [->//|Hne].
rewrite !missS // ler_pmul2r ?invr_gt0 ?(W_gt0 Hi) //.
rewrite (bigD1 i) ?in_setD1 ?Hne //= [X in _ <= X](bigD1 j) ?in_setD1 1?eq_sym ?Hne //=.
apply: ler_add.
  apply: ler_pmul; rewrite ?miss_ge0 // ?(ltW (Hp i)) //.
  have -> : A :\ i = j |: (A :\ i :\ j) by rewrite setD1K // in_setD1 eq_sym Hne.
  have -> : A :\ j = i |: (A :\ i :\ j).
    by apply/setP => z; rewrite !inE; case: (eqVneq z i) => [->|] //=; rewrite Hne Hi.
  by apply: miss_weight => //; rewrite !in_setD1 eqxx ?andbF.
rewrite (eq_bigl (fun m => (m \in A :\ i) && (m != j))) => [|m]; last first.
  by rewrite !in_setD1; case: (m == i); case: (m == j); case: (m \in A).
apply: ler_sum => m; rewrite in_setD1 => /andP[/andP[Hmi Hm] Hmj].
by rewrite ler_pmul2l //; apply: IH => //; rewrite in_setD1 eq_sym ?Hmi ?Hmj.
Qed.

(* probability that i is in the batch *)
Definition hit k A i : F := E k A (fun s => (i \in s)%:R).
Lemma hit_miss k A i : (k <= #|A|)%N -> hit k A i = 1 - miss k A i.
Proof.
move=> Hk; rewrite -(E_const 1 Hk) -E_sub; apply: E_eq => s _ _ _.
by case: (i \in s); rewrite /= ?subr0 ?subrr.
Qed.
Lemma hit_ge0 k A i : 0 <= hit k A i.
Proof. by apply: E_ge0 => s; exact: ler0n. Qed.
Lemma hitS k A i : i \in A ->
  hit k.+1 A i = p i / W A * E k (A :\ i) (fun=> 1) + \sum_(m in A :\ i) p m / W A * hit k (A :\ m) i.
Proof.
move=> Hi; rewrite /hit /= (bigD1 i) //=; congr (_ + _).
  by congr (_ * _); apply: E_eq => s _ _ _; rewrite inE eqxx.
apply: eq_big => [m|m /andP[_ Hm]]; first by rewrite in_setD1 andbC.
by congr (_ * _); apply: E_eq => s _ _ _; rewrite inE eq_sym (negbTE Hm).
Qed.
Lemma W_D1 A i : i \in A -> W A = p i + W (A :\ i).
Proof. by move=> Hi; rewrite -{1}(setD1K Hi) WU // setD11. Qed.

(* the most probable id *)
Lemma others_le A i : i \in A -> (forall m, m \in A -> p m <= p i) -> (1 < #|A|)%N ->
  \sum_(m in A :\ i) p m / W (A :\ m) <= 1 /\
  ((exists2 m, m \in A & p m < p i) -> \sum_(m in A :\ i) p m / W (A :\ m) < 1).
Proof.
move=> Hi Hmax HA.
have Hpos m : m \in A -> 0 < W (A :\ m).
  move=> Hm; have : (0 < #|A :\ m|)%N by move: HA; rewrite (cardsD1 m) Hm.
  by rewrite card_gt0 => /set0Pn[z]; exact: W_gt0.
have H1 : \sum_(m in A :\ i) p m / W (A :\ i) = 1.
  by rewrite -mulr_suml divff // gt_eqF // Hpos.
have Hterm m : m \in A -> p m / W (A :\ m) <= p m / W (A :\ i).
  move=> Hm; rewrite ler_pmul2l // lef_pinv ?posrE ?Hpos // -(ler_add2l (p m)) -W_D1 //.
  by rewrite (W_D1 Hi) ler_add2r Hmax.
split; first by rewrite -H1; apply: ler_sum => m; rewrite in_setD1 => /andP[_]; exact: Hterm.
case=> m Hm Hlt; have Hmi : m \in A :\ i by rewrite in_setD1 Hm andbT; apply: contraTneq Hlt => ->; rewrite ltxx.
rewrite -H1 (bigD1 m) // [X in _ < X](bigD1 m) //=; apply: ltr_le_add; last first.
  by apply: ler_sum => z /andP[]; rewrite in_setD1 => /andP[_ Hz] _; exact: Hterm.
rewrite ltr_pmul2l // ltf_pinv ?posrE ?Hpos // -(ltr_add2l (p m)) -W_D1 //.
by rewrite (W_D1 Hi) ltr_add2r.
Qed.
Lemma hit_max k A i : i \in A -> (forall m, m \in A -> p m <= p i) -> (k <= #|A|)%N ->
  hit k A i <= k%:R * (p i / W A).
Proof.
elim: k A => [|k IH] A Hi Hmax Hk; first by rewrite mul0r.
rewrite hitS // E_const; last by move: Hk; rewrite (cardsD1 i) Hi.
rewrite mulr1 -add1n natrD mulrDl mul1r ler_add2l.
case: (posnP k) => [->|Hk0]; first by rewrite mul0r big1 // => m _; rewrite /hit /= mulr0.
have HA : (1 < #|A|)%N by apply: leq_trans Hk.
have [Hle _] := others_le Hi Hmax HA.
apply: (@le_trans _ _ (\sum_(m in A :\ i) p m / W A * (k%:R * (p i / W (A :\ m))))).
  apply: ler_sum => m; rewrite in_setD1 => /andP[Hm1 Hm2]; apply: ler_wpmul2l; first exact: frac_ge0.
  apply: IH; first by rewrite in_setD1 eq_sym Hm1.
    by move=> z; rewrite in_setD1 => /andP[_]; exact: Hmax.
  by move: Hk; rewrite (cardsD1 m) Hm2.
rewrite (eq_bigr (fun m => (k%:R * (p i / W A)) * (p m / W (A :\ m)))) => [|m _].
  by rewrite -mulr_sumr; apply: ler_pimulr => //; rewrite mulr_ge0 ?ler0n ?frac_ge0.
by rewrite mulrCA -mulrA; congr (_ * _); rewrite mulrACA [p m * p i]mulrC -mulrACA.
Qed.
Lemma hit_max_lt k A i : i \in A -> (forall m, m \in A -> p m <= p i) -> (k <= #|A|)%N -> (1 < k)%N ->
  (exists2 m, m \in A & p m < p i) -> hit k A i < k%:R * (p i / W A).
Proof.
case: k => [|k] // Hi Hmax Hk Hk0 Hex; rewrite ltnS in Hk0.
rewrite hitS // E_const; last by move: Hk; rewrite (cardsD1 i) Hi.
rewrite mulr1 -add1n natrD mulrDl mul1r ltr_add2l.
have HA : (1 < #|A|)%N by apply: leq_trans Hk.
have [_ /(_ Hex) Hlt] := others_le Hi Hmax HA.
apply: (@le_lt_trans _ _ (\sum_(m in A :\ i) p m / W A * (k%:R * (p i / W (A :\ m))))).
  apply: ler_sum => m; rewrite in_setD1 => /andP[Hm1 Hm2]; apply: ler_wpmul2l; first exact: frac_ge0.
  apply: hit_max; first by rewrite in_setD1 eq_sym Hm1.
    by move=> z; rewrite in_setD1 => /andP[_]; exact: Hmax.
  by move: Hk; rewrite (cardsD1 m) Hm2.
rewrite (eq_bigr (fun m => (k%:R * (p i / W A)) * (p m / W (A :\ m)))) => [|m _].
  by rewrite -mulr_sumr gtr_pmulr // mulr_gt0 ?ltr0n // divr_gt0 ?(W_gt0 Hi).
by rewrite mulrCA -mulrA; congr (_ * _); rewrite mulrACA [p m * p i]mulrC -mulrACA.
Qed.
End Draws.

Section Theorems.
Variables (F : realFieldType) (n : nat) (p : 'I_n -> F) (k : nat).
Hypotheses (Hp : forall i, 0 < p i) (Hk : (0 < k <= n)%N).
(* probability that id i is in the mini-batch *)
Notation pi i := (draw_ex p k setT (fun ids => (i \in ids)%:R)).
Let Hc : (k <= #|[set: 'I_n]|)%N. Proof. by rewrite cardsT card_ord; case/andP: Hk. Qed.
Let K0 : k%:R != 0 :> F. Proof. by rewrite pnatr_eq0 -lt0n; case/andP: Hk. Qed.

(* a mini-batch consists of k different items *)
Theorem C125_distinct : draw_ex p k setT (fun ids => (uniq ids && (size ids == k))%:R) = 1.
Proof. by rewrite -[RHS](E_const Hp 1 Hc); apply: E_eq => s -> _ ->; rewrite eqxx. Qed.

(* the expected loss is a weighted mean of the errors, the weights grow with |y|^2 and none
   exceeds 1/k *)
Theorem C125_inclusion :
  [/\ forall err, batch_loss p k err = (\sum_i pi i * err i) / k%:R, forall i, 0 <= pi i <= 1,
      \sum_i pi i = k%:R & forall i j, p i <= p j -> pi i <= pi j].
Proof.
have Hh i : pi i = 1 - miss p k setT i by exact: hit_miss.
split.
- move=> err; rewrite /batch_loss -[RHS]/(_ * _); under eq_bigr do rewrite -E_scale.
  rewrite -E_sum -E_scale; apply: E_eq => s Us _ Zs; rewrite /mean Zs; congr (_ / _).
  rewrite [RHS](eq_bigr (fun i => if i \in s then err i else 0)) => [|i _]; last by case: (i \in s); rewrite ?mul1r ?mul0r.
  by rewrite -big_mkcond big_uniq.
- by move=> i; rewrite hit_ge0 // Hh ler_subl_addr ler_addl miss_ge0.
- rewrite -E_sum -[RHS](E_const Hp k%:R Hc); apply: E_eq => s Us _ Zs.
  rewrite -natr_sum; congr (_%:R); rewrite -Zs -(card_uniqP Us) -sum1_card [RHS]big_mkcond.
  by apply: eq_bigr => i _; case: (i \in s).
- by move=> i j Hij; rewrite !Hh ler_add2l ler_opp2 miss_mono ?inE.
Qed.

(* one item per step, or data of equal modulus: the expected loss is the weighted one *)
Theorem C125_weighted_partial err : k = 1%N \/ (forall i j, p i = p j) ->
  batch_loss p k err = (\sum_i p i * err i) / \sum_i p i.
Proof.
case=> [->|Heq].
  rewrite /batch_loss /= mulr_suml; apply: eq_big => [i|i _]; first by rewrite inE.
  by rewrite /mean big_cons big_nil addr0 divr1 (eq_bigl predT) 1?mulrAC // => j; rewrite inE.
have [-> _ Hs Hm] := C125_inclusion.
have Hn : (0 < n)%N by case/andP: Hk => H1 H2; exact: leq_trans H2.
pose i0 := Ordinal Hn; have N0 : n%:R != 0 :> F by rewrite pnatr_eq0 -lt0n.
have Hpi i : pi i = pi i0.
  by apply/eqP; rewrite eq_le; apply/andP; split; apply: Hm; rewrite (Heq i i0) lexx.
have Hkn : pi i0 = k%:R / n%:R.
  move: Hs; rewrite (eq_bigr (fun=> pi i0)) // sumr_const card_ord -(mulr_natr (pi i0)) => Hs.
  by apply: (mulIf N0); rewrite Hs divfK.
rewrite [X in _ = _ / X](eq_bigr (fun=> p i0)) // sumr_const card_ord -[p i0 *+ n]mulr_natr.
rewrite (eq_bigr (fun i => k%:R / n%:R * err i)) => [|i _]; last by rewrite Hpi Hkn.
rewrite [X in _ = X / _](eq_bigr (fun i => p i0 * err i)) => [|i _]; last by rewrite (Heq i i0).
rewrite -!mulr_sumr invfM mulrACA divff ?gt_eqF // mul1r.
by apply: (mulIf K0); rewrite divfK // [LHS]mulrC -mulrA; congr (_ * _); exact: mulrC.
Qed.

(* the whole data set as one batch: the plain mean, whatever the weights *)
Theorem C125_full err : k = n -> batch_loss p k err = (\sum_i err i) / n%:R.
Proof.
move=> E; have [-> H01 Hs _] := C125_inclusion; rewrite [in X in _ / X = _]E; congr (_ / _); apply: eq_bigr => i _.
have H0 : \sum_i (1 - pi i) = 0.
  by rewrite sumrB Hs sumr_const card_ord E subrr.
have Hge j : true -> 0 <= 1 - pi j by move=> _; rewrite subr_ge0; case/andP: (H01 j).
by have /(_ i isT)/eqP := psumr_eq0P Hge H0; rewrite subr_eq0 => /eqP<-; rewrite mul1r.
Qed.

(* in every other case the most probable item counts too little: the expected loss differs from the
   weighted one *)
Theorem C125_biased : (1 < k)%N -> (exists i j, p i != p j) ->
  exists i, (forall j, p j <= p i) /\
    batch_loss p k (fun j => (j == i)%:R) < (\sum_j p j * (j == i)%:R) / \sum_j p j.
Proof.
move=> Hk1 [i [j Hij]].
have [m _ Hm] := @Order.TotalTheory.arg_maxP _ _ _ i predT p isT.
have Hmax z : p z <= p m by exact: Hm.
exists m; split=> //; have [-> _ _ _] := C125_inclusion.
have Hd (q : 'I_n -> F) : \sum_z q z * (z == m)%:R = q m.
  by rewrite (bigD1 m) //= eqxx mulr1 big1 ?addr0 // => z /negbTE->; rewrite mulr0.
rewrite !Hd ltr_pdivr_mulr ?ltr0n; last by case/andP: Hk.
rewrite mulrC (eq_bigl (mem [set: 'I_n])) => [|z]; last by rewrite /= inE.
apply: hit_max_lt => //.
have [Hlt|] := boolP (p i < p m); first by exists i; rewrite ?inE.
rewrite -leNgt => H1; have [Hlt|] := boolP (p j < p m); first by exists j; rewrite ?inE.
rewrite -leNgt => H2; case/negP: Hij; by rewrite eq_le (le_trans (Hmax i) H2) (le_trans (Hmax j) H1).
Qed.
End Theorems.

(* two data of weights 1 and 3 in one mini-batch of two (of mini_batch_size = 2): the expected loss is
   the plain mean, the weighted one differs *)
Theorem C125_weighted_refuted : exists (n k : nat) (p err : 'I_n -> rat),
  [/\ (0 < k <= n)%N, forall i, 0 < p i & batch_loss p k err <> (\sum_i p i * err i) / \sum_i p i].
Proof.
pose p (i : 'I_2) : rat := (if i == ord0 then 1 else 3)%N%:R.
have Hp i : 0 < p i by rewrite /p ltr0n; case: ifP.
have [|i [_ Hi]] := @C125_biased _ 2 p 2 Hp isT isT; first by exists ord0, ord_max; vm_compute.
exists 2%N, 2%N, p, (fun j => (j == i)%:R); split=> // E.
by move: Hi; rewrite E ltxx.
Qed.

(* three data of weights 1, 1, 2 in mini-batches of two: the last is drawn with probability 5/6, not
   the 1 = 2 * 2/4 an unbiased estimate needs *)
Example C125_example :
  let p (i : 'I_3) : rat := (if i == ord_max then 2 else 1)%N%:R in
  draw_ex p 2 setT (fun ids => (ord_max \in ids)%:R) = 5%:R / 6%:R.
Proof.
move=> p; have [Hp0 Hp1 Hp2] : [/\ p ord0 = 1, p (lift ord0 ord0) = 1 & p ord_max = 2%:R] by [].
have W3 (A : {set 'I_3}) : \sum_(j in A) p j = (ord0 \in A)%:R + ((lift ord0 ord0 \in A)%:R + (ord_max \in A)%:R * 2%:R).
  rewrite big_mkcond !big_ord_recl big_ord0 [GRing.add_comoid _ _ 0]addr0 Hp0 Hp1.
  have -> : lift ord0 (lift ord0 ord0) = ord_max :> 'I_3 by apply/val_inj.
  by rewrite Hp2; do 3!case: ifP => _; rewrite /= ?mul1r ?mul0r.
have Hp i : 0 < p i by rewrite /p ltr0n; case: ifP.
have H1 (A : {set 'I_3}) : ord_max \in A -> hit p 1 A ord_max = 2%:R / \sum_(j in A) p j.
  by move=> HA; rewrite hitS // mulr1 Hp2 -[RHS]addr0; congr (_ + _); apply: big1 => m _; exact: mulr0.
have HC : (1 <= #|[set: 'I_3] :\ ord_max|)%N by rewrite card_gt0; apply/set0Pn; exists ord0; rewrite !inE.
rewrite -[LHS]/(hit p 2 setT ord_max) hitS ?inE // E_const //.
rewrite [\sum_(j in setT) p j]W3 !in_setT Hp2.
rewrite (eq_bigr (fun m => p m / (1 + (1 + 1 * 2%:R)) * (2%:R / ((ord0 != m)%:R + ((lift ord0 ord0 != m)%:R + (ord_max != m)%:R * 2%:R))))).
  rewrite big_mkcond !big_ord_recl big_ord0 !inE [in LHS]Hp0 [in LHS]Hp1; by apply/eqP; vm_compute.
move=> m; rewrite in_setD1 => /andP[Hm _].
by rewrite H1 ?W3 ?in_setD1 ?in_setT ?andbT // eq_sym.
Qed.
