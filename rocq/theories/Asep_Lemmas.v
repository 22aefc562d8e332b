From Verif Require Import Base Occ_Model Occ_Spec Buffer_Proofs Batch_Proofs Asep_Model Asep_Spec Asep_Proofs.
From Verif Require Import Hubbard_Proofs Hopping_Proofs AbInitio_Row.
Local Open Scope ring_scope.

Lemma binary_set x i o : (i < size x)%N -> (o < 2)%N -> binary x -> binary (set_nth 0%N x i o).
Proof.
move=> Hi Ho Hb; apply/(all_nthP 0%N) => k _; rewrite nth_set_nth /=; case: eqP => // _.
by case: (binary_nth k Hb) => ->.
Qed.

Section Lemmas.
Variables (R : comRingType) (expf : R -> R).
Variables (lambd alpha beta gamma delta p q : R).
Add Ring RR : (r_theory R).
Let lst := asep_list expf lambd alpha beta gamma delta p q.
Let conn := asep_conn_flattened expf lambd alpha beta gamma delta p q.

Lemma asep_conn1 x s0 : (0 < size x)%N -> pmap id (ob_buf (conn (size x) [:: x] [:: s0]).1) = lst x.
Proof. by move=> Hx; rewrite /conn asep_single // /written /= cats0 pmap_some. Qed.

Lemma asep_wf x e : (0 < size x)%N -> binary x -> e \in lst x -> binary e.1 /\ size e.1 = size x.
Proof.
move=> Hx Hb; rewrite mem_cat.
have S i o : (i < size x)%N -> (o < 2)%N -> binary (set_nth 0%N x i o) /\ size (set_nth 0%N x i o) = size x.
  by move=> Hi Ho; split; [apply: binary_set|rewrite size_set_nth; apply/maxn_idPr].
have HL : ((size x).-1 < size x)%N by lia.
have C i : (i < size x)%N -> binary (apply_creation i x).2 /\ size (apply_creation i x).2 = size x.
  by move=> Hi; rewrite /apply_creation; case: ifP => // _; apply: S.
have A i : (i < size x)%N -> binary (apply_annihilation i x).2 /\ size (apply_annihilation i x).2 = size x.
  by move=> Hi; rewrite /apply_annihilation; case: ifP => // _; apply: S.
have H i j : (i < size x)%N -> (j < size x)%N -> binary (asep_hopping i j x).2 /\ size (asep_hopping i j x).2 = size x.
  move=> Hi Hj; rewrite /asep_hopping; case: ifP => // _ /=.
  have O k : (nth 0 x k < 2)%N by case: (binary_nth k Hb) => ->.
  have [B1 S1] := S i (nth 0%N x j) Hi (O j).
  by split; [apply: binary_set; rewrite ?S1|rewrite size_set_nth S1; apply/maxn_idPr].
case/orP.
  rewrite !inE; case/orP=> [/eqP -> | ]; first exact: C.
  case/orP=> [/eqP -> // | ]; case/orP=> [/eqP -> | ]; first exact: A.
  case/orP=> [/eqP -> // | ]; case/orP=> [/eqP -> | ]; first exact: C.
  case/orP=> [/eqP -> // | ]; case/orP=> [/eqP -> | /eqP -> //]; exact: A.
move=> /flattenP [l /mapP [i]]; rewrite mem_iota add0n /= => Hi ->.
have [H1 H2] : (i < size x)%N /\ (i.+1 < size x)%N by lia.
by rewrite !inE => /orP [/eqP ->|/orP [/eqP ->|/orP [/eqP ->|/eqP ->]]] //=; apply: H.
Qed.

Lemma asep_diag x k : odd k -> (k < size (lst x))%N -> (nth (x, 0) (lst x) k).1 = x.
Proof.
rewrite /lst /asep_list => Hk _; do 4! [case: k Hk => [|[|k]] // Hk; rewrite /= negbK in Hk *].
move: (iota _ _) => l; elim: l k Hk => [|i l IH] k Hk; first by rewrite nth_nil.
by do 2! [case: k Hk => [|[|k]] // Hk; rewrite /= negbK in Hk *]; apply: IH.
Qed.

Lemma asep_total x y (s0 : nat) : (0 < size x)%N -> binary x ->
  \sum_(e <- pmap id (ob_buf (conn (size x) [:: x] [:: s0]).1) | e.1 == y) e.2
  = asep_generator (expf lambd) (expf (- lambd)) alpha beta gamma delta p q (fun z => (z == y)%:R) x.
Proof.
move=> Hx Hb; rewrite asep_conn1 // -asep_list_action // big_mkcond /=.
by apply: eq_bigr => e _; case: eqP; rewrite ?mulr1 ?mulr0.
Qed.

Lemma asep_sum0 x s0 : expf 0 = 1 -> lambd = 0 -> (0 < size x)%N -> binary x ->
  \sum_(e <- pmap id (ob_buf (conn (size x) [:: x] [:: s0]).1)) e.2 = 0.
Proof.
move=> He Hl Hx Hb; rewrite asep_conn1 //.
transitivity (\sum_(e <- lst x) e.2 * (fun=> 1) e.1); first by apply: eq_bigr => e _; rewrite mulr1.
rewrite (asep_list_action _ _ _ _ _ _ _ _ (fun=> 1)) // Hl oppr0 He /asep_generator /event !mul1r subrr !mulr0 !if_same add0r.
by rewrite add0r big1 // => i _; rewrite !if_same.
Qed.

Lemma swap_eq x y i : (i.+1 < size x)%N -> size x = size y ->
  (swap_sites x i i.+1 == y) = (swap_sites y i i.+1 == x).
Proof.
move=> Hi Hs.
have aux (u v : seq nat) : (i.+1 < size u)%N -> size u = size v -> swap_sites u i i.+1 = v -> swap_sites v i i.+1 = u.
  move=> Hu Hv E; have nE k : nth 0%N v k = nth 0%N (swap_sites u i i.+1) k by rewrite E.
  have n1 : (i.+1 == i) = false by lia.
  have n2 : (i == i.+1) = false by lia.
  apply: (@eq_from_nth _ 0%N) => [|k _]; first by rewrite /swap_sites !size_set_nth; lia.
  rewrite -{}E {nE Hv v}; do 3! rewrite /swap_sites ?nth_set_nth /= ?eqxx ?n1 ?n2.
  case: (altP (k =P i.+1)) => [->|_] //.
  by case: (altP (k =P i)) => [->|ki] //; rewrite nth_set_nth /= (negbTE ki).
by apply/eqP/eqP; apply: aux; rewrite -?Hs.
Qed.

Lemma end_sym i x y (A C : R) : (i < size x)%N -> size x = size y -> binary x -> binary y -> A = C ->
  (if nth 0%N x i == 0%N then A * (set_nth 0%N x i 1%N == y)%:R else C * (set_nth 0%N x i 0%N == y)%:R)
  = (if nth 0%N y i == 0%N then A * (set_nth 0%N y i 1%N == x)%:R else C * (set_nth 0%N y i 0%N == x)%:R) :> R.
Proof.
move=> Hi Hs Hx Hy <-.
have N (u v : seq nat) o : (set_nth 0%N u i o == v) -> nth 0%N v i = o.
  by move=> /eqP <-; rewrite nth_set_nth /= eqxx.
have B (u v : seq nat) o o' : (i < size u)%N -> nth 0%N u i = o' -> set_nth 0%N u i o == v -> set_nth 0%N v i o' == u.
  move=> Hu Ho /eqP <-; rewrite set_set_nth eqxx; apply/eqP.
  by apply: set_nth_same.
have Hi' : (i < size y)%N by rewrite -Hs.
have [Ex|Ex] := binary_nth i Hx; have [Ey|Ey] := binary_nth i Hy; rewrite Ex Ey /=.
- have -> : (set_nth 0%N x i 1%N == y) = false by apply/negP => /N; rewrite Ey.
  by have -> : (set_nth 0%N y i 1%N == x) = false by apply/negP => /N; rewrite Ex.
- by congr (_ * _%:R); congr nat_of_bool; apply/idP/idP; apply: B.
- by congr (_ * _%:R); congr nat_of_bool; apply/idP/idP; apply: B.
- have -> : (set_nth 0%N x i 0%N == y) = false by apply/negP => /N; rewrite Ey.
  by have -> : (set_nth 0%N y i 0%N == x) = false by apply/negP => /N; rewrite Ex.
Qed.

Lemma asep_symm x y (s0 : nat) : (0 < size x)%N -> size x = size y -> binary x -> binary y ->
  alpha * expf lambd = gamma * expf (- lambd) -> beta * expf (- lambd) = delta * expf lambd ->
  p * expf lambd = q * expf (- lambd) ->
  \sum_(e <- pmap id (ob_buf (conn (size x) [:: x] [:: s0]).1) | e.1 == y) e.2
  = \sum_(e <- pmap id (ob_buf (conn (size y) [:: y] [:: s0]).1) | e.1 == x) e.2.
Proof.
move=> Hx Hs Bx By Ea Eb Ep; rewrite !asep_total -?Hs // /asep_generator -?Hs.
have EV (r w : R) (u v z : seq nat) : event (fun z => (z == v)%:R) u r w z = r * w * (z == v)%:R - r * (u == v)%:R.
  by rewrite /event; mring R.
case: (altP (x =P y)) => [->//|xy]; have yx := xy; rewrite eq_sym in yx.
congr (_ + _ + _).
- rewrite !EV (negbTE xy) (negbTE yx) !mulr0 !subr0.
  by rewrite (end_sym (i := 0) Hx Hs Bx By Ea).
- rewrite !EV (negbTE xy) (negbTE yx) !mulr0 !subr0.
  by apply: end_sym => //; rewrite prednK.
- apply: eq_bigr => i _; rewrite !EV (negbTE xy) (negbTE yx) !mulr0 !subr0.
  have Hi : (i.+1 < size x)%N by have := ltn_ord i; lia.
  have S := swap_eq Hi Hs.
  have n1 : (i.+1 == i :> nat) = false by lia.
  have n2 : (i == i.+1 :> nat) = false by lia.
  have W (u v : seq nat) : swap_sites u i i.+1 == v -> nth 0%N v i = nth 0%N u i.+1 /\ nth 0%N v i.+1 = nth 0%N u i.
    by move=> /eqP <-; do 3! rewrite /swap_sites ?nth_set_nth /= ?eqxx ?n2.
  case Sxy: (swap_sites x i i.+1 == y); move: (Sxy); rewrite S => Syx; rewrite Syx; last first.
    by rewrite !mulr0 !if_same.
  have [-> ->] := W _ _ Sxy; rewrite !mulr1 Ep.
  have [->|->] := binary_nth i Bx; have [->|->] := binary_nth i.+1 Bx; by [].
Qed.
End Lemmas.
