(* C113: the filters of the autoregressive filter models of the ARGPS scripts *)
From mathcomp Require Import zify.
From Verif Require Import Base QGPS_Model AR_Model Argps_Model Argps_Props.
Import Num.Theory Order.TTheory.
Local Open Scope ring_scope.

Section Filter.
Variables (V : comRingType) (D M L : nat) (eps : nat -> nat -> nat -> V).
(* the argument of out_transformation: support index m and local state d at site i *)
Definition conditional_input (g : option graph) (x : seq nat) (i d m : nat) : V :=
  nth 0 (nth [::] (plaq_prods D M L (get_masks L g) (get_plaquettes L g) eps x i) d) m.
Lemma conditional_inputE g x i d m : (d < D)%N -> (m < M)%N ->
  conditional_input g x i d m = eps d m 0%N * \prod_(j < L)
    (if (get_plaquettes L g i j < i)%N then eps (nth 0%N x (get_plaquettes L g i j)) m j else 1).
Proof.
by move=> Hd Hm; rewrite /conditional_input /plaq_prods (nth_map 0%N) ?size_iota // (nth_map 0%N) ?size_iota // !nth_iota.
Qed.

(* a chain, and every system without a periodic two-dimensional lattice: parameter j of the filter belongs to the site
   j places before *)
Theorem C113_chain g x i d m : (if g is Some gr then ~~ g_torus gr else true) -> (i < L)%N -> (d < D)%N -> (m < M)%N ->
  conditional_input g x i d m = eps d m 0%N * \prod_(1 <= j < i.+1) eps (nth 0%N x (i - j)) m j.
Proof.
move=> Hg Hi Hd Hm; rewrite conditional_inputE //; congr (_ * _).
have E j : get_plaquettes L g i j = ((i + (L - j)) %% L)%N.
  by rewrite /get_plaquettes; case: g Hg => [gr /negbTE->|].
have F (j : nat) : (j < L)%N -> ((i + (L - j)) %% L)%N = if (j <= i)%N then (i - j)%N else (i + (L - j))%N.
  move=> Hj; case: leqP => H; last by rewrite modn_small //; lia.
  by rewrite (_ : i + (L - j) = i - j + L)%N ?modnDr ?modn_small //; lia.
rewrite -(big_mkord xpredT (fun j => if (get_plaquettes L g i j < i)%N then eps (nth 0%N x (get_plaquettes L g i j)) m j else 1)).
rewrite (@big_cat_nat _ _ _ i.+1) //= [X in _ * X]big_nat_cond [X in _ * X]big1 ?mulr1; last first.
  move=> j /andP[/andP[H1 H2] _]; rewrite E F //; have -> : (j <= i)%N = false by lia.
  by have -> : (i + (L - j) < i)%N = false by lia.
have H0 : (0 < L)%N by lia.
rewrite big_ltn // E F // leq0n subn0 ltnn mul1r !big_nat.
apply: eq_bigr => j /andP[H1 H2]; have Hj : (j < L)%N by lia.
rewrite E F //; have -> : (j <= i)%N = true by lia.
by have -> : (i - j < i)%N = true by lia.
Qed.

(* a periodic two-dimensional lattice: its translations form a group with exactly one translation of site 0 to any site *)
Definition lattice (trans : seq (seq nat)) : Prop :=
  perm_group L trans /\ perm_eq [seq head 0%N p | p <- trans] (iota 0 L).

Section Lattice.
Variables (gr : graph).
Hypothesis Ht : g_torus gr.
Hypothesis Hl : lattice (g_trans gr).
Notation rows := (sort (fun p q => (head 0%N p <= head 0%N q)%N) (g_trans gr)).
Lemma heads : [seq head 0%N p | p <- rows] = iota 0 L.
Proof.
have [_ Hh] := Hl; transitivity (sort leq [seq head 0%N p | p <- g_trans gr]); first by rewrite sort_map.
apply: (@sorted_eq _ leq leq_trans anti_leq); [exact: sort_sorted leq_total _|exact: iota_sorted|].
by rewrite perm_sort.
Qed.
Definition row (i : nat) : seq nat := nth [::] rows i.
Lemma size_rows : size rows = L. Proof. by rewrite -(size_map (head 0%N)) heads size_iota. Qed.
Lemma row_in i : (i < L)%N -> row i \in g_trans gr.
Proof. by move=> Hi; rewrite -(mem_sort (fun p q => (head 0%N p <= head 0%N q)%N)) mem_nth ?size_rows. Qed.
Lemma row_perm i : (i < L)%N -> perm_eq (row i) (iota 0 L).
Proof. by move=> Hi; have [[_ H _] _] := Hl; apply/H/row_in. Qed.
Lemma row_head i : (i < L)%N -> nth 0%N (row i) 0 = i.
Proof. by move=> Hi; rewrite nth0 /row -(nth_map _ 0%N) ?size_rows // heads nth_iota. Qed.
Lemma row_unique p : p \in g_trans gr -> p = row (nth 0%N p 0).
Proof.
move=> Hp; have Hp' : p \in rows by rewrite mem_sort.
have Hj : (index p rows < size rows)%N by rewrite index_mem.
rewrite -{1}(nth_index [::] Hp') /row; congr nth.
have := congr1 (fun l => nth 0%N l (index p rows)) heads; rewrite (nth_map [::]) // nth_iota -?size_rows // add0n nth_index //.
Qed.
Lemma plaqE i j : get_plaquettes L (Some gr) i j = nth 0%N (row i) j.
Proof. by rewrite /get_plaquettes Ht. Qed.

Theorem C113_lattice : exists offset : nat -> nat -> nat,
  [/\ (forall i l, (i < L)%N -> (l < L)%N -> (offset i l < L)%N /\ (offset i l = 0%N <-> l = i)),
      (forall i, (i < L)%N -> {in gtn L &, injective (offset i)}),
      (forall p i l, p \in g_trans gr -> (i < L)%N -> (l < L)%N -> offset (nth 0%N p i) (nth 0%N p l) = offset i l) &
      forall x i d m, (i < L)%N -> (d < D)%N -> (m < M)%N ->
        conditional_input (Some gr) x i d m = eps d m 0%N * \prod_(l < i) eps (nth 0%N x l) m (offset i l)].
Proof.
exists (fun i l => index l (row i)).
have Hin i l : (i < L)%N -> (l < L)%N -> l \in row i by move=> Hi Hll; rewrite (perm_mem (row_perm Hi)) mem_iota.
have Hsz i : (i < L)%N -> size (row i) = L by move=> Hi; rewrite (seq.perm_size (row_perm Hi)) size_iota.
have Hu i : (i < L)%N -> uniq (row i) by move=> Hi; rewrite (perm_uniq (row_perm Hi)) iota_uniq.
split.
- move=> i l Hi Hll; have H1 : (index l (row i) < L)%N by rewrite -[X in (_ < X)%N](Hsz i Hi) index_mem Hin.
  split=> //; split=> [H0|->].
    by rewrite -(nth_index 0%N (Hin i l Hi Hll)) H0 row_head.
  by rewrite -{1}(row_head Hi) index_uniq ?Hu // Hsz //; case: (L) Hi.
- move=> i Hi a b; rewrite !inE => Ha Hb E.
  by rewrite -(nth_index 0%N (Hin i a Hi Ha)) E nth_index ?Hin.
- move=> p i l Hp Hi Hll; have [[_ Hpp Hc] _] := Hl.
  have Hpi : (nth 0%N p i < L)%N.
    have : nth 0%N p i \in p by rewrite mem_nth // (seq.perm_size (Hpp p Hp)) size_iota.
    by rewrite (perm_mem (Hpp p Hp)) mem_iota.
  (* the translation of site 0 to the image of i is p after that of 0 to i *)
  have E : row (nth 0%N p i) = [seq nth 0%N p j | j <- row i].
    have := row_unique (Hc p (row i) Hp (row_in Hi)).
    rewrite (nth_map 0%N) ?row_head // ?Hsz //; by case: (L) Hi.
  set j := index l (row i); have Hj : (j < size (row i))%N by rewrite index_mem Hin.
  rewrite E -{1}(nth_index 0%N (Hin i l Hi Hll)) -/j -(nth_map 0%N 0%N (fun j => nth 0%N p j) Hj).
  by rewrite index_uniq ?size_map // -E Hu.
move=> x i d m Hi Hd Hm; rewrite conditional_inputE //; congr (_ * _).
pose F l := if (l < i)%N then eps (nth 0%N x l) m (index l (row i)) else 1.
transitivity (\prod_(l <- row i) F l).
  rewrite (big_nth 0%N) Hsz // big_mkord; apply: eq_bigr => j _; rewrite plaqE /F index_uniq ?Hu ?Hsz //.
rewrite (perm_big _ (row_perm Hi)) /F -{1}(subnK (ltnW Hi)) addnC iotaD big_cat /= [X in _ * X]big_seq [X in _ * X]big1 ?mulr1; last first.
  by move=> l; rewrite mem_iota => /andP[H _]; rewrite ltnNge -[i]add0n H.
rewrite -{1}(subn0 i) -/(index_iota 0 i) big_mkord; apply: eq_bigr => l _; by rewrite ltn_ord.
Qed.
End Lattice.
End Filter.

(* the torus with two rows of two sites: the last site *)
Definition torus22 : seq (seq nat) := [:: [:: 0; 1; 2; 3]; [:: 2; 3; 0; 1]; [:: 1; 0; 3; 2]; [:: 3; 2; 1; 0]]%N.
Lemma torus22_lattice : lattice 4 torus22.
Proof.
split=> //; split=> //; first by apply/allP.
move=> p q Hp Hq; have /allP/(_ p Hp)/allP : all (fun p => all (fun q => [seq nth 0%N p j | j <- q] \in torus22) torus22) torus22 by [].
exact.
Qed.
Example C113_example (V : comRingType) (eps : nat -> nat -> nat -> V) x :
  conditional_input 2 1 4 eps (Some (Graph torus22 torus22 torus22 true)) x 3 1 0
  = eps 1%N 0%N 0%N * (eps (nth 0%N x 0) 0%N 3%N * (eps (nth 0%N x 1) 0%N 2%N * eps (nth 0%N x 2) 0%N 1%N)).
Proof.
rewrite conditional_inputE // !big_ord_recl big_ord0 /get_plaquettes /= /nth /= mul1r mulr1; congr (_ * _).
by rewrite mulrC -mulrA mulrCA.
Qed.
