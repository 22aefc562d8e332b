(* Linear algebra and inversion counting for the Slater determinant updates. *)
From mathcomp Require perm.
From Verif Require Import Base.
Local Open Scope ring_scope.

Section Mat.
Variable F : fieldType.

Lemma sylvester (N K : nat) (P : 'M[F]_(N, K)) (C : 'M[F]_(K, N)) : \det (1%:M + P *m C) = \det (1%:M + C *m P).
Proof.
have E1 : block_mx 1%:M (- P) C 1%:M = block_mx 1%:M 0 C 1%:M *m block_mx 1%:M (- P) 0 (1%:M + C *m P).
  rewrite mulmx_block ?(mul1mx, mulmx1, mul0mx, mulmx0, addr0, add0r) mulmxN.
  by congr block_mx; rewrite addrCA addNr addr0.
have E2 : block_mx 1%:M (- P) C 1%:M = block_mx (1%:M + P *m C) (- P) 0 1%:M *m block_mx 1%:M 0 C 1%:M.
  rewrite mulmx_block ?(mul1mx, mulmx1, mul0mx, mulmx0, addr0, add0r) mulNmx.
  by congr block_mx; rewrite addrK.
have := congr1 determinant E1; rewrite E2 !det_mulmx !det_ublock !det_lblock !det1 !mul1r !mulr1.
by [].
Qed.

Lemma woodbury (N K : nat) (A : 'M[F]_N) (P : 'M[F]_(N, K)) (V : 'M[F]_(K, N)) :
  A \in unitmx -> 1%:M + V *m invmx A *m P \in unitmx ->
  (A + P *m V) *m (invmx A - invmx A *m P *m (invmx (1%:M + V *m invmx A *m P) *m (V *m invmx A))) = 1%:M.
Proof.
move=> HA HS; set S := 1%:M + _ in HS *.
set W := V *m invmx A.
have E : (A + P *m V) *m (invmx A *m P) = P *m S.
  rewrite mulmxDl !mulmxA mulmxV // mul1mx /S mulmxDr mulmx1 !mulmxA; by [].
rewrite mulmxBr; rewrite [X in _ - X]mulmxA E mulmxDl mulmxV // -(mulmxA P S) (mulmxA S) mulmxV // mul1mx.
by rewrite -(mulmxA P V) -/W addrK.
Qed.
End Mat.

(* number of inversions of a list *)
Fixpoint inv (w : seq nat) : nat := if w is a :: w' then (count (fun b => b < a)%N w' + inv w')%N else 0%N.

Lemma inv_cat s t : inv (s ++ t) = (inv s + inv t + \sum_(a <- s) count (fun b => b < a)%N t)%N.
Proof.
elim: s => [|a s IH] /=; first by rewrite big_nil addn0.
by rewrite IH big_cons count_cat; lia.
Qed.
Lemma inv_sorted s : sorted ltn s -> inv s = 0%N.
Proof.
elim: s => [//|a s IH] /= Hp; rewrite IH ?(path_sorted Hp) // addn0.
apply/eqP; rewrite -leqn0 leqNgt -has_count; apply/hasPn => b Hb.
by have /allP /(_ _ Hb) Hab := order_path_min ltn_trans Hp; rewrite -leqNgt ltnW.
Qed.

Lemma between1 r a b : a != b -> r != b -> (b < a)%N = (b < r)%N (+) (minn r a < b < maxn r a)%N.
Proof.
rewrite gtn_min leq_max => Ha Hr.
by case: (ltngtP b a) Ha => //; case: (ltngtP b r) Hr.
Qed.
Lemma between2 r a b : a != b -> r != b -> (a < b)%N = (r < b)%N (+) (minn r a < b < maxn r a)%N.
Proof.
rewrite gtn_min leq_max => Ha Hr.
by case: (ltngtP b a) Ha => //; case: (ltngtP b r) Hr.
Qed.

(* replacing one entry: the parity changes by the entries strictly between *)
Lemma odd_inv_set w1 w2 r a : a \notin w1 ++ w2 -> r \notin w1 ++ w2 ->
  odd (inv (w1 ++ a :: w2)) =
  odd (inv (w1 ++ r :: w2)) (+) odd (count (fun p => (minn r a < p < maxn r a)%N) (w1 ++ w2)).
Proof.
move=> Ha Hr; rewrite !inv_cat /= -!oddD; apply/eqP.
have Hc : forall s, a \notin s -> r \notin s ->
   odd (count (fun b => b < a)%N s) = odd (count (fun b => b < r)%N s + count (fun p => (minn r a < p < maxn r a)%N) s).
  elim=> [//|b s IH]; rewrite !inE !negb_or => /andP[Hab Has] /andP[Hrb Hrs] /=.
  rewrite addnACA oddD (oddD (_ + _)) IH // !oddD !oddb (between1 Hab Hrb); by [].
have Hs : forall s, a \notin s -> r \notin s ->
   odd (\sum_(b <- s) count (fun c => c < b)%N (a :: w2)) =
   odd (\sum_(b <- s) count (fun c => c < b)%N (r :: w2) + count (fun p => (minn r a < p < maxn r a)%N) s).
  elim=> [|b s IH]; first by rewrite !big_nil.
  rewrite !inE !negb_or => /andP[Hab Has] /andP[Hrb Hrs]; rewrite !big_cons /=.
  rewrite addnACA oddD (oddD (_ + _)) IH // !oddD !oddb (between2 Hab Hrb).
  by congr (_ (+) _); rewrite addbAC.
move: Ha Hr; rewrite !mem_cat !negb_or => /andP[Ha1 Ha2] /andP[Hr1 Hr2].
rewrite count_cat.
have E1 := Hc _ Ha2 Hr2; have E2 := Hs _ Ha1 Hr1.
rewrite !oddD E1 E2 !oddD; apply/eqP.
have xor6 : forall i p q v s t, i (+) (p (+) q (+) v) (+) (s (+) t) = i (+) (p (+) v) (+) s (+) (t (+) q).
  by do 6!case.
exact: xor6.
Qed.

Section Alt.
Variables (F : fieldType) (d : seq nat -> F).
(* d changes sign when two neighbours are exchanged *)
Hypothesis d_swap : forall s a b t, d (s ++ a :: b :: t) = - d (s ++ b :: a :: t).

Fixpoint ins (a : nat) (t : seq nat) : seq nat :=
  if t is b :: t' then if (b < a)%N then b :: ins a t' else a :: t else [:: a].
Fixpoint isort (w : seq nat) : seq nat := if w is a :: w' then ins a (isort w') else [::].

Lemma perm_ins a t : perm_eq (ins a t) (a :: t).
Proof.
elim: t => [//|b t IH] /=; case: ifP => // _.
by rewrite (perm_trans (_ : perm_eq _ (b :: a :: t))) ?perm_cons // -cat1s -(cat1s a) perm_catCA.
Qed.
Lemma perm_isort w : perm_eq (isort w) w.
Proof. by elim: w => [//|a w IH] /=; rewrite (perm_trans (perm_ins _ _)) // perm_cons. Qed.
Lemma ins_sorted a t : sorted leq t -> sorted leq (ins a t).
Proof.
elim: t => [//|b t IH] /= Ht; case: (ltnP b a) => Hba /=; last by rewrite Hba.
have := IH (path_sorted Ht); case: t Ht {IH} => [|c t] /=; first by rewrite (ltnW Hba).
by case/andP => Hbc _; case: ifP => _ /= ->; rewrite ?Hbc ?(ltnW Hba).
Qed.
Lemma isort_sorted w : sorted leq (isort w).
Proof. by elim: w => [//|a w IH] /=; apply: ins_sorted. Qed.

Lemma alt_insert s a t : sorted leq t -> d (s ++ a :: t) = (-1) ^+ count (fun b => b < a)%N t * d (s ++ ins a t).
Proof.
elim: t s => [|b t IH] s Ht /=; first by rewrite mul1r.
case: (ltnP b a) => Hba /=.
  rewrite add1n exprS d_swap mulN1r mulNr; congr (- _).
  by have := IH (s ++ [:: b]) (path_sorted Ht); rewrite -!catA.
have -> : count (fun b0 => b0 < a)%N t = 0%N.
  apply/eqP; rewrite -leqn0 leqNgt -has_count; apply/hasPn => c Hc.
  have /allP /(_ _ Hc) Hbc := order_path_min leq_trans Ht.
  by rewrite -leqNgt (leq_trans Hba).
by rewrite mul1r.
Qed.
Lemma alt_isort s w : d (s ++ w) = (-1) ^+ inv w * d (s ++ isort w).
Proof.
elim: w s => [|a w IH] s /=; first by rewrite mul1r.
have := IH (s ++ [:: a]); rewrite -!catA /= => ->.
rewrite alt_insert ?isort_sorted // mulrA -exprD addnC; congr ((-1) ^+ (_ + _) * _).
by apply/permP; apply: perm_isort.
Qed.
Lemma alt_sorted w t : perm_eq w t -> sorted leq t -> d w = (-1) ^+ inv w * d t.
Proof.
move=> Hp Ht; rewrite -[w in LHS]cat0s alt_isort cat0s; congr (_ * d _).
apply: (sorted_eq leq_trans anti_leq) => //; first exact: isort_sorted.
by rewrite (perm_trans (perm_isort w)).
Qed.
End Alt.

(* determinants with rows selected by a list of positions *)
Section Rows.
Variables (F : fieldType) (N : nat) (f : nat -> 'rV[F]_N).
Definition rows (w : seq nat) : 'M[F]_N := \matrix_(i, j) f (nth 0%N w i) 0 j.
Definition rdet (w : seq nat) : F := if size w == N then \det (rows w) else 0.

Lemma rdet_swap s a b t : rdet (s ++ a :: b :: t) = - rdet (s ++ b :: a :: t).
Proof.
rewrite /rdet !size_cat /=; case: (altP (_ =P N)) => [E|_]; last by rewrite oppr0.
have H1 : (size s < N)%N by lia.
have H2 : ((size s).+1 < N)%N by lia.
pose i1 := Ordinal H1; pose i2 := Ordinal H2.
have Hne : i1 != i2 by apply/eqP => /(congr1 val) /=; lia.
have -> : rows (s ++ a :: b :: t) = xrow i1 i2 (rows (s ++ b :: a :: t)).
  apply/matrixP => i j; rewrite !mxE; congr (f _ 0 j).
  rewrite !nth_cat; case: perm.tpermP => [->|->|/eqP Hi1 /eqP Hi2] /=.
  - by rewrite ltnn ltnNge leqnSn subnn subSnn.
  - by rewrite ltnn ltnNge leqnSn subnn subSnn.
  have Hi1' : (i : nat) != size s by [].
  have Hi2' : (i : nat) != (size s).+1 by [].
  case: ltnP => // Hsi.
  have -> : (i - size s = (i - size s).-2.+2)%N by move: Hi1' Hi2' Hsi; lia.
  by [].
rewrite xrowE det_mulmx det_perm perm.odd_tperm Hne expr1 mulN1r; by [].
Qed.

Lemma rdet_sorted w t : perm_eq w t -> sorted leq t -> size t = N -> \det (rows w) = (-1) ^+ inv w * \det (rows t).
Proof.
move=> Hp Ht HN; have := alt_sorted rdet_swap Hp Ht.
by rewrite /rdet (perm_size Hp) HN eqxx.
Qed.
End Rows.
