From Verif Require Import Base Fock_Spec Fock_Proofs Occ_Model Occ_Spec Hopping_Model Hopping_Proofs.
From Verif Require Import Buffer_Proofs Hubbard_Proofs Mol_Fock Mol_Row AbInitio_Model AbInitio_Proofs.
Local Open Scope ring_scope.

Lemma num_take_set (l : seq bool) i k b : (i < size l)%N ->
  (num (take k.+1 (set_nth false l i b)) + (i <= k) * nth false l i = num (take k.+1 l) + (i <= k) * b)%N.
Proof.
elim: l i k => [|a l IH] [|i] [|k] //= Hi; rewrite ?take0 /num /=; try lia.
by have := IH i k Hi; rewrite /num !ltnS; lia.
Qed.

Section Two.
Variable x : cfg.
Hypothesis Hv : valid x.
Notation cum s y := (cumcount (spin_int s) y).
Variables (s : spin) (i a : nat).
Hypotheses (Hi : (i < size x)%N) (Ha : (a < size x)%N).
Hypotheses (Oi : occ s i (fock_of x)) (Va : ~~ occ s a (fock_of x)).
Let r1 := apply_hopping i a x (spin_int s) (Some (cum s x)).

Lemma ia : i != a.
Proof. by apply/eqP => E; move: Va; rewrite -E Oi. Qed.

Lemma hop1_res : [/\ fock_of r1.2 = setocc s a true (setocc s i false (fock_of x)),
  valid r1.2 & size r1.2 = size x].
Proof.
case: (apply_hopping_cases s Hv Hi Ha) => -[].
- by case=> [|[_]]; rewrite ?Oi // (negbTE Va).
- by move=> _ E; move: ia; rewrite E eqxx.
- by move=> _ _ _ _ [E [V S]].
Qed.

Lemma occ_hop1 s' k : occ s' k (fock_of r1.2)
  = if s' == s then (if k == a then true else if k == i then false else occ s k (fock_of x))
    else occ s' k (fock_of x).
Proof.
have [-> _ _] := hop1_res; rewrite !occ_setocc.
by case: eqP => [->|] //=; do 2! case: eqP.
Qed.

Lemma cum_hop1 k : (k < size x)%N ->
  (nth 0 (cum s r1.2) k + (i <= k) = nth 0 (cum s x) k + (a <= k))%N.
Proof.
move=> Hk; have [F V S] := hop1_res.
rewrite !nth_cumcount ?S // F.
have [S1 S2] := on_sites_fock x.
have Hsz : size (species s (fock_of x)) = size x by case: (s).
have E1 := @num_take_set (species s (fock_of x)) i k false.
have E2 := @num_take_set (set_nth false (species s (fock_of x)) i false) a k true.
rewrite size_set_nth Hsz nth_set_nth /= eq_sym (negbTE ia) in E1 E2.
move: E1 E2; rewrite !occ_nth_species Oi (negbTE Va).
have -> : species s (setocc s a true (setocc s i false (fock_of x)))
  = set_nth false (set_nth false (species s (fock_of x)) i false) a true by case: (s).
move=> /(_ Hi) E1 E2; have {}E2 := E2 _; move: E2; rewrite (maxn_idPr _) // => /(_ Ha).
lia.
Qed.

Lemma cum_hop1_other s' : s' != s -> cum s' r1.2 = cum s' x.
Proof.
move=> Hs; have [F V S] := hop1_res; rewrite /cumcount; congr scanl.
apply: (@eq_from_nth _ 0%N); rewrite !size_map S // => k Hk.
rewrite !(nth_map 0%N) ?S // !has_has_spin ?valid_nth // -!occ_fock F !occ_setocc.
by rewrite (negbTE Hs).
Qed.

Section Same.
Variables (j b : nat).
Hypotheses (Hj : (j < size x)%N) (Hb : (b < size x)%N).
Hypotheses (Oj : occ s j (fock_of x)) (Vb : ~~ occ s b (fock_of x)).
Hypotheses (Hij : i != j) (Hab : a != b).
Let r2 := apply_hopping j b r1.2 (spin_int s) (Some (cum s x)).
Let r2' := apply_hopping j b r1.2 (spin_int s) (Some (cum s r1.2)).

Lemma hop2_same_cum : r2.2 = r2'.2 /\ ab_two_mult i a j b r1.1 r2.1 = r1.1 * r2'.1.
Proof.
have [F V S] := hop1_res.
have jb : j != b by apply/eqP => E; move: Vb; rewrite -E Oj.
have Oj1 : has_spin s (nth 0%N r1.2 j).
  rewrite -occ_fock occ_hop1 eqxx [j == i]eq_sym (negbTE Hij) Oj.
  by case: eqP.
have Vb1 : has_spin s (nth 0%N r1.2 b) = false.
  rewrite -occ_fock occ_hop1 eqxx [b == a]eq_sym (negbTE Hab).
  by case: eqP => // _; apply/negbTE.
rewrite /r2 /r2' /apply_hopping !has_has_spin ?valid_nth // Oj1 Vb1 /= [b == j]eq_sym (negbTE jb).
have E1 := @cum_hop1 (maxn j b).-1; have E2 := @cum_hop1 (minn j b).
set c1 := nth 0%N (cum s x) _; set c2 := nth 0%N (cum s x) _.
set d1 := nth 0%N (cum s r1.2) _; set d2 := nth 0%N (cum s r1.2) _.
rewrite -/c1 -/c2 -/d1 -/d2 in E1 E2.
have {}E1 : (d1 + (i <= (maxn j b).-1) = c1 + (a <= (maxn j b).-1))%N by apply: E1; lia.
have {}E2 : (d2 + (i <= minn j b) = c2 + (a <= minn j b))%N by apply: E2; lia.
have Hlr : (minn j b <= (maxn j b).-1)%N by lia.
have P : odd `|c1%:Z - c2%:Z| = odd `|d1%:Z - d2%:Z| (+)
   ((i <= (maxn j b).-1)%N && (minn j b < i)%N) (+) ((a <= (maxn j b).-1)%N && (minn j b < a)%N).
  move: Hlr E1 E2; move: (minn j b) (maxn j b).-1 => l r Hlr E1 E2.
  case: (leqP i r) E1 => H1; case: (leqP i l) E2 => H2; case: (leqP a r) => H3; case: (leqP a l) => H4 E2 E1 /=; lia.
rewrite P /ab_two_mult.
by case: (odd _); case: (_ && _); case: (_ && _) => /=; split=> //; rewrite ?mulrN ?mulr1 ?opprK.
Qed.

Lemma hop2_same (R : comRingType) (psi : fock -> R) :
  (ab_two_mult i a j b r1.1 r2.1)%:~R * psi (fock_of r2.2) = hop s i a (hop s j b psi) (fock_of x).
Proof.
have [F V S] := hop1_res; have [-> ->] := hop2_same_cum.
rewrite -(apply_hopping_correct s (hop s j b psi) Hv Hi Ha) -/r1 /r2'.
by rewrite -(apply_hopping_correct s psi V) ?S // intrM mulrA.
Qed.
Lemma hop2_same_wf : [/\ valid r2.2, size r2.2 = size x & forall u, n_spin u r2.2 = n_spin u x].
Proof.
have [F V S] := hop1_res; have [-> _] := hop2_same_cum.
have Hj1 : (j < size r1.2)%N by rewrite S.
have Hb1 : (b < size r1.2)%N by rewrite S.
have [V1 S1 N1 _] := apply_hopping_wf s V Hj1 Hb1.
have [_ _ N _] := apply_hopping_wf s Hv Hi Ha.
by split=> // [|u]; rewrite ?S1 // N1 N.
Qed.
End Same.

Section Diff.
Variables (s' : spin) (j b : nat).
Hypothesis Hs : s' != s.
Hypotheses (Hj : (j < size x)%N) (Hb : (b < size x)%N).
Let r2 := apply_hopping j b r1.2 (spin_int s') (Some (cum s' x)).
Lemma hop2_diff (R : comRingType) (psi : fock -> R) :
  (r1.1 * r2.1)%:~R * psi (fock_of r2.2) = hop s i a (hop s' j b psi) (fock_of x).
Proof.
have [F V S] := hop1_res.
rewrite -(apply_hopping_correct s (hop s' j b psi) Hv Hi Ha) -/r1 /r2 -(cum_hop1_other Hs).
by rewrite -(apply_hopping_correct s' psi V) ?S // intrM mulrA.
Qed.
Lemma hop2_diff_wf : [/\ valid r2.2, size r2.2 = size x & forall u, n_spin u r2.2 = n_spin u x].
Proof.
have [F V S] := hop1_res; rewrite /r2 -(cum_hop1_other Hs).
have Hj1 : (j < size r1.2)%N by rewrite S.
have Hb1 : (b < size r1.2)%N by rewrite S.
have [V1 S1 N1 _] := apply_hopping_wf s' V Hj1 Hb1.
have [_ _ N _] := apply_hopping_wf s Hv Hi Ha.
by split=> // [|u]; rewrite ?S1 // N1 N.
Qed.
End Diff.
End Two.

Section Row.
Variables (R : comRingType) (half : R) (h : nat -> nat -> R) (eri : nat -> nat -> nat -> nat -> R).
Hypothesis half2 : half + half = 1.
Add Ring RR : (r_theory R).
Variable x : cfg.
Hypothesis Hv : valid x.
Let L := size x.
Let t := t_mat half L h eri.
Hypothesis eri_symm : forall p q r t, (p < L)%N -> (q < L)%N -> (r < L)%N -> (t < L)%N ->
  eri p q r t = eri r t p q.

Lemma t_matE p q : t p q = tmat L half h eri p q.
Proof. by rewrite /t /t_mat /tmat big_mkord. Qed.

Lemma big_flat (A : Type) (I : Type) (l : seq I) (g : I -> seq A) (f : A -> R) :
  \sum_(e <- flatten (map g l)) f e = \sum_(k <- l) \sum_(e <- g k) f e.
Proof. by rewrite big_flatten big_map. Qed.

Lemma diag_ok : ab_diag half t eri (oinds x Up) (uinds x Up) (oinds x Dn) (uinds x Dn)
  = m_diag L half h eri (fock_of x).
Proof.
rewrite /ab_diag !acc_add2E !acc_addE add0r /m_diag !big_cons !big_nil !addr0.
have S2 s (f : nat -> nat -> R) (l : seq nat) : \sum_(i <- oinds x s) \sum_(j <- l) half * f i j
  = half * (\sum_(i <- oinds x s) \sum_(j <- l) f i j).
  by rewrite mulr_sumr; apply: eq_bigr => i _; rewrite mulr_sumr.
have T s : \sum_(k <- oinds x s) t k k = \sum_(i < L | occ s i (fock_of x)) tmat L half h eri i i.
  by rewrite sum_oinds //; apply: eq_bigr => k _; rewrite t_matE.
have OO s s' (f : nat -> nat -> R) : \sum_(i <- oinds x s) \sum_(j <- oinds x s') f i j
  = \sum_(i < L | occ s i (fock_of x)) \sum_(j < L | occ s' j (fock_of x)) f i j.
  by rewrite sum_oinds //; apply: eq_bigr => k _; rewrite sum_oinds.
have OU s s' (f : nat -> nat -> R) : \sum_(i <- oinds x s) \sum_(j <- uinds x s') f i j
  = \sum_(i < L | occ s i (fock_of x)) \sum_(j < L | ~~ occ s' j (fock_of x)) f i j.
  by rewrite sum_oinds //; apply: eq_bigr => k _; rewrite sum_uinds.
by rewrite !S2 !T !OO !OU; mring R.
Qed.

Lemma value_ok s i a : ab_value half t eri (oinds x s) (uinds x s) (oinds x (other s)) i a
  = m_one L half h eri (fock_of x) s i a.
Proof.
rewrite /ab_value acc_subE !acc_addE /m_one t_matE !sum_oinds // sum_uinds // !mulr_sumr.
by [].
Qed.

Lemma ab_list_action (psi : fock -> R) :
  \sum_(e <- ab_list half t eri x) e.2 * psi (fock_of e.1) = molecular L half h eri psi (fock_of x).
Proof.
rewrite (molecular_row h half2 psi (on_sites_fock x) eri_symm).
rewrite /ab_list big_cons diag_ok -!addrA; congr (_ + _).
rewrite !big_cat /= !big_cons !big_nil !addr0.
have one s : \sum_(e <- l_one half t eri x s) e.2 * psi (fock_of e.1)
  = \sum_(i < L | occ s i (fock_of x)) \sum_(a < L | ~~ occ s a (fock_of x))
      m_one L half h eri (fock_of x) s i a * hop s i a psi (fock_of x).
  rewrite /l_one big_flat sum_oinds //; apply: eq_bigr => i Oi.
  rewrite big_flat sum_uinds //; apply: eq_bigr => a Va.
  rewrite big_seq1 /= -value_ok -(apply_hopping_correct s psi Hv (ltn_ord i) (ltn_ord a)).
  by rewrite [in LHS]mulrAC [LHS]mulrC.
have two s : \sum_(e <- l_two half eri x s) e.2 * psi (fock_of e.1)
  = half * (\sum_(i < L | occ s i (fock_of x)) \sum_(a < L | ~~ occ s a (fock_of x))
        \sum_(j < L | occ s j (fock_of x) && (j != i :> nat))
        \sum_(b < L | ~~ occ s b (fock_of x) && (b != a :> nat))
          eri i a j b * hop s i a (hop s j b psi) (fock_of x)).
  rewrite /l_two big_flat sum_oinds // mulr_sumr; apply: eq_bigr => i Oi.
  rewrite big_flat sum_uinds // mulr_sumr; apply: eq_bigr => a Va.
  rewrite big_flat sum_oinds // mulr_sumr big_mkcondr /=; apply: eq_bigr => j Oj.
  rewrite big_flat sum_uinds // [(j == i :> nat)]eq_sym.
  case: (altP (i =P j :> nat)) => [E|Hij] /=.
    by apply: big1 => b _; rewrite big_nil.
  rewrite mulr_sumr big_mkcondr /=; apply: eq_bigr => b Vb.
  rewrite [(b == a :> nat)]eq_sym /=; case: (altP (a =P b :> nat)) => [E|Hab] /=; first by rewrite big_nil.
  rewrite big_seq1 /= -(hop2_same Hv (ltn_ord i) (ltn_ord a) Oi Va (ltn_ord j) (ltn_ord b)) //.
  by mring R.
have ud : \sum_(e <- l_ud eri x) e.2 * psi (fock_of e.1)
  = \sum_(i < L | occ Up i (fock_of x)) \sum_(a < L | ~~ occ Up a (fock_of x))
      \sum_(j < L | occ Dn j (fock_of x)) \sum_(b < L | ~~ occ Dn b (fock_of x))
          eri i a j b * hop Up i a (hop Dn j b psi) (fock_of x).
  rewrite /l_ud big_flat sum_oinds //; apply: eq_bigr => i Oi.
  rewrite big_flat sum_uinds //; apply: eq_bigr => a Va.
  rewrite big_flat sum_oinds //; apply: eq_bigr => j Oj.
  rewrite big_flat sum_uinds //; apply: eq_bigr => b Vb.
  have := hop2_diff Hv (ltn_ord i) (ltn_ord a) Oi Va (s' := Dn) isT (ltn_ord j) (ltn_ord b) psi.
  by rewrite big_seq1 /= => <-; mring R.
by rewrite !one !two ud; mring R.
Qed.

Lemma ab_list_wf (t' : nat -> nat -> R) (eri' : nat -> nat -> nat -> nat -> R) e :
  e \in [seq p.1 | p <- ab_list half t' eri' x] ->
  [/\ valid e, size e = size x & forall s, n_spin s e = n_spin s x].
Proof.
rewrite /ab_list /= inE => /orP [/eqP -> //|]; rewrite !map_cat !mem_cat.
have one s : e \in [seq p.1 | p <- l_one half t' eri' x s] ->
  [/\ valid e, size e = size x & forall s, n_spin s e = n_spin s x].
  move=> /mapP [p /flattenP [l1 /mapP [i Hi ->]]] /flattenP [l2 /mapP [a Ha ->]].
  rewrite inE => /eqP -> ->; move: Hi Ha; rewrite mem_oinds // mem_uinds // => /andP [Hi _] /andP [Ha _].
  by have [] := apply_hopping_wf s Hv Hi Ha.
have two s : e \in [seq p.1 | p <- l_two half eri' x s] ->
  [/\ valid e, size e = size x & forall s, n_spin s e = n_spin s x].
  move=> /mapP [p /flattenP [l1 /mapP [i Hi ->]]] /flattenP [l2 /mapP [a Ha ->]].
  move=> /flattenP [l3 /mapP [j Hj ->]] /flattenP [l4 /mapP [b Hb ->]].
  case: (altP (i =P j)) => //= ij; case: (altP (a =P b)) => //= ab.
  rewrite inE => /eqP -> ->; move: Hi Ha Hj Hb; rewrite !mem_oinds // !mem_uinds //.
  move=> /andP [Hi Oi] /andP [Ha Va] /andP [Hj Oj] /andP [Hb Vb].
  exact: hop2_same_wf.
move=> /orP [|/orP [|/orP [|/orP []]]]; [exact: one|exact: one|exact: two|exact: two|].
move=> /mapP [p /flattenP [l1 /mapP [i Hi ->]]] /flattenP [l2 /mapP [a Ha ->]].
move=> /flattenP [l3 /mapP [j Hj ->]] /flattenP [l4 /mapP [b Hb ->]].
rewrite inE => /eqP -> ->; move: Hi Ha Hj Hb; rewrite !mem_oinds // !mem_uinds //.
move=> /andP [Hi Oi] /andP [Ha Va] /andP [Hj Oj] /andP [Hb Vb].
exact: (hop2_diff_wf Hv Hi Ha Oi Va (s' := Dn)).
Qed.
End Row.
