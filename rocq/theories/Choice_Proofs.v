(* Facts on cumulative sums and index selection. *)
From Verif Require Import Base Choice_Model.
Import Num.Theory Order.TTheory.
Local Open Scope ring_scope.

Section ChoiceProofs.
Variable F : realFieldType.
Add Ring RFch : (r_theory (Num.RealField.comRingType F)).
Implicit Types (p : seq F) (u c : F).

Definition nonneg p := all (fun x : F => 0 <= x) p.
Definition psum p k : F := \sum_(j <- take k p) j.

Lemma size_cumsum p : size (cumsum p) = size p.
Proof. exact: size_scanl. Qed.

Lemma foldl_add (c : F) p : foldl +%R c p = c + \sum_(j <- p) j.
Proof.
elim: p c => [|x p IH] c /=; first by rewrite big_nil addr0.
by rewrite IH big_cons addrA.
Qed.

Lemma nth_cumsum p k : (k < size p)%N -> nth 0 (cumsum p) k = psum p k.+1.
Proof. by move=> Hk; rewrite nth_scanl // foldl_add add0r. Qed.

Lemma psum0 p : psum p 0 = 0. Proof. by rewrite /psum take0 big_nil. Qed.
Lemma psumS p k : psum p k.+1 = psum p k + nth 0 p k.
Proof.
rewrite /psum; case: (ltnP k (size p)) => Hk.
  by rewrite (take_nth 0 Hk) -cats1 big_cat big_seq1.
by rewrite !take_oversize ?(leq_trans Hk) // nth_default ?addr0.
Qed.
Lemma psum_size p k : (size p <= k)%N -> psum p k = \sum_(j <- p) j.
Proof. by move=> H; rewrite /psum take_oversize. Qed.

Lemma last_cumsum p : last 0 (cumsum p) = \sum_(j <- p) j.
Proof.
case: p => [|x p]; first by rewrite big_nil.
by rewrite -nth_last size_cumsum /= nth_cumsum //= psum_size.
Qed.

Lemma nonneg_nth p k : nonneg p -> 0 <= nth 0 p k.
Proof.
move=> H; case: (ltnP k (size p)) => Hk; last by rewrite nth_default.
by move/allP: H; apply; apply: mem_nth.
Qed.

Lemma psum_mono p k m : nonneg p -> (k <= m)%N -> psum p k <= psum p m.
Proof.
move=> Hp; elim: m => [|m IH]; first by rewrite leqn0 => /eqP->.
rewrite leq_eqVlt => /orP[/eqP->//|]; rewrite ltnS => /IH H.
by rewrite psumS (le_trans H) // ler_addl nonneg_nth.
Qed.

(* number of cumulative sums below r *)
Lemma count_prefix p r : nonneg p -> forall k, (k <= size p)%N ->
  (count (fun c => c < r) (cumsum p) == k) =
  ((k == 0)%N || (psum p k < r)) && ((k == size p)%N || (r <= psum p k.+1)).
Proof.
move=> Hp k Hk; set f := fun c : F => c < r.
have HS : forall m, (m <= size p)%N ->
  count f (cumsum p) = (count f (take m (cumsum p)) + count f (drop m (cumsum p)))%N.
  by move=> m _; rewrite -count_cat cat_take_drop.
have Hlow : forall m, (m <= size p)%N -> ((m == 0)%N || (psum p m < r)) -> (m <= count f (cumsum p))%N.
  move=> m Hm Hr; rewrite (HS m Hm); have -> : count f (take m (cumsum p)) = m; last lia.
  rewrite -[RHS](_ : size (take m (cumsum p)) = m); last by rewrite size_take size_cumsum; case: ltngtP Hm.
  apply/eqP; rewrite -all_count; apply/(all_nthP 0) => i.
  rewrite size_take size_cumsum => Hi.
  have {}Hi : (i < m)%N by apply: leq_trans Hi _; case: ltnP.
  rewrite nth_take // /f nth_cumsum; last lia.
  case/orP: Hr => [/eqP Em|Hr]; first by rewrite Em in Hi.
  by apply: le_lt_trans Hr; apply: psum_mono.
have Hup : forall m, (m < size p)%N -> (r <= psum p m.+1) -> (count f (cumsum p) <= m)%N.
  move=> m Hm Hr; rewrite (HS m (ltnW Hm)).
  have -> : count f (drop m (cumsum p)) = 0%N.
    apply/eqP; rewrite -leqn0 leqNgt -has_count; apply/hasPn => c /(nthP 0) [i].
    rewrite size_drop size_cumsum nth_drop => Hi <-; rewrite nth_cumsum; last lia.
    by rewrite /f -leNgt (le_trans Hr) //; apply: psum_mono => //; lia.
  by rewrite addn0 (leq_trans (count_size _ _)) // size_take size_cumsum Hm.
have Hsz : (count f (cumsum p) <= size p)%N by rewrite -(size_cumsum p) count_size.
apply/idP/idP.
  move/eqP => E; apply/andP; split.
    case: (posnP k) => [-> //|Hk0] /=; rewrite ltNge; apply/negP => Hr.
    have := Hup k.-1; rewrite prednK // => /(_ _ Hr); lia.
  case: eqP => //= Hne; rewrite leNgt; apply/negP => Hr.
  have := Hlow k.+1; rewrite Hr /= => /(_ _ isT); lia.
case/andP => H1 H2; apply/eqP; apply/eqP; rewrite eqn_leq (Hlow _ Hk H1) andbT.
case/orP: H2 => [/eqP-> //|H2].
case: (ltnP k (size p)) => [Hlt|Hge]; first exact: Hup.
by apply: leq_trans Hge.
Qed.

Lemma sum_pos_size p : 0 < \sum_(j <- p) j -> (0 < size p)%N.
Proof. by case: p => [|x p] //; rewrite big_nil ltxx. Qed.

(* index selected for 0 < r <= total *)
Lemma count_index p r : nonneg p -> 0 < r -> r <= \sum_(j <- p) j ->
  let k := count (fun c => c < r) (cumsum p) in
  [/\ (k < size p)%N, psum p k < r & r <= psum p k.+1].
Proof.
move=> Hp Hr0 HrS k.
have Hk : (k <= size p)%N by rewrite -(size_cumsum p) count_size.
have := eqxx k; rewrite {1}/k (count_prefix r Hp Hk) => /andP[H1 H2].
have Hlt : psum p k < r by case/orP: H1 => // /eqP->; rewrite psum0.
have Hks : (k < size p)%N.
  rewrite ltn_neqAle Hk andbT; apply/negP => /eqP E.
  by move: Hlt; rewrite E psum_size // ltNge HrS.
by split=> //; move: H2; rewrite (ltn_eqF Hks).
Qed.

Lemma count_index_iff p r k : nonneg p -> 0 < r -> r <= \sum_(j <- p) j -> (k < size p)%N ->
  (count (fun c => c < r) (cumsum p) = k) <-> (psum p k < r /\ r <= psum p k.+1).
Proof.
move=> Hp Hr0 HrS Hk; split.
  by move=> E; have [] := count_index Hp Hr0 HrS; rewrite E.
case=> H1 H2; apply/eqP; rewrite (count_prefix r Hp (ltnW Hk)) H2 orbT andbT H1 orbT //.
Qed.

(* ---- jax.random.choice ---- *)
Lemma jax_choice_zero p u : \sum_(j <- p) j = 0 -> nonneg p -> jax_choice p u = 0%N.
Proof.
move=> H0 Hp; rewrite /jax_choice last_cumsum H0 mul0r.
apply/eqP; rewrite -leqn0 leqNgt -has_count; apply/hasPn => c /(nthP 0) [i].
rewrite size_cumsum => Hi <-; rewrite nth_cumsum // -leNgt.
by rewrite -(psum0 p); apply: psum_mono.
Qed.

(* the draws u in [0,1) selecting i form the half-open interval
   [1 - P(i+1)/S, 1 - P(i)/S), of length choice_prob p i *)
Lemma jax_choice_interval p u i : nonneg p -> 0 < \sum_(j <- p) j -> 0 <= u -> u < 1 -> (i < size p)%N ->
  (jax_choice p u = i) <->
  (1 - psum p i.+1 / (\sum_(j <- p) j) <= u /\ u < 1 - psum p i / (\sum_(j <- p) j)).
Proof.
move=> Hp HS Hu0 Hu1 Hi; rewrite /jax_choice last_cumsum.
have H1 : 0 < (\sum_(j <- p) j) * (1 - u) by rewrite mulr_gt0 // subr_gt0.
have H2 : (\sum_(j <- p) j) * (1 - u) <= \sum_(j <- p) j.
  by apply: ler_pimulr; [exact: ltW | rewrite ler_subl_addl ler_addr].
rewrite (count_index_iff Hp H1 H2 Hi).
rewrite -ltr_pdivr_mull // -ler_pdivl_mull // ltr_subr_addl -ltr_subr_addr ler_subl_addl -ler_subl_addr.
by rewrite ![_^-1 * _]mulrC; split; case.
Qed.

Lemma choice_prob_length p i : 0 < \sum_(j <- p) j ->
  choice_prob p i = (1 - psum p i / (\sum_(j <- p) j)) - (1 - psum p i.+1 / (\sum_(j <- p) j)).
Proof.
move=> HS; rewrite /choice_prob last_cumsum gt_eqF // psumS mulrDl.
by mring (Num.RealField.comRingType F).
Qed.
End ChoiceProofs.
