From Verif Require Import Base QGPS_Model.
Local Open Scope ring_scope.

(* a permutation of 0..L-1 as a list *)
Definition is_perm (L : nat) (p : seq nat) : bool := perm_eq p (iota 0 L).

Lemma perm_size L p : is_perm L p -> size p = L.
Proof. by move/seq.perm_size; rewrite size_iota. Qed.
Lemma perm_lt L p i : is_perm L p -> (i < L)%N -> (nth 0%N p i < L)%N.
Proof.
move=> Hp Hi; have := mem_nth 0%N (_ : (i < size p)%N); rewrite (perm_size Hp) => /(_ Hi).
by rewrite (perm_mem Hp) mem_iota.
Qed.
Lemma perm_uniq L p : is_perm L p -> uniq p.
Proof. by move/seq.perm_uniq ->; rewrite iota_uniq. Qed.

Lemma inv_perm_loop (p v : seq nat) n k : (n <= size p)%N -> uniq p -> size v = size p ->
  (forall i, (i < size p)%N -> (nth 0%N p i < size p)%N) ->
  nth 0%N (foldl (fun v i => set_nth 0%N v (nth 0%N p i) i) v (iota 0 n)) k =
  if (index k p < n)%N then index k p else nth 0%N v k.
Proof.
move=> Hn Hu Hs Hlt; elim: n Hn => [//|n IH] Hn.
rewrite -addn1 iotaD foldl_cat /= add0n addn1 nth_set_nth /= (IH (ltnW Hn)).
case: (altP (k =P nth 0%N p n)) => [->|Hne].
  by rewrite index_uniq // ltnSn.
rewrite (ltnS (index k p)) (leq_eqVlt (index k p)); case: (altP (index k p =P n)) => [E|_] //=.
by case/eqP: Hne; rewrite -E nth_index // -index_mem E.
Qed.

Lemma inv_permE L p k : is_perm L p -> (k < L)%N -> nth 0%N (inv_perm p) k = index k p.
Proof.
move=> Hp Hk; rewrite /inv_perm inv_perm_loop ?size_nseq //; first last.
- by move=> i; rewrite (perm_size Hp); apply: perm_lt.
- exact: perm_uniq Hp.
by rewrite index_mem (perm_mem Hp) mem_iota Hk.
Qed.
Lemma inv_permK L p i : is_perm L p -> (i < L)%N -> nth 0%N (inv_perm p) (nth 0%N p i) = i.
Proof.
move=> Hp Hi; rewrite (inv_permE Hp); last exact: perm_lt.
by rewrite index_uniq ?(perm_size Hp) // (perm_uniq Hp).
Qed.

Section P.
Variable F : fieldType.

(* reindexing a product along a permutation *)
Lemma prod_perm L p (G : nat -> nat -> F) : is_perm L p ->
  \prod_(i < L) G (nth 0%N p i) i = \prod_(j < L) G j (nth 0%N (inv_perm p) j).
Proof.
move=> Hp.
have -> : \prod_(i < L) G (nth 0%N p i) i = \prod_(i < L) G (nth 0%N p i) (nth 0%N (inv_perm p) (nth 0%N p i)).
  by apply: eq_bigr => i _; rewrite (inv_permK Hp).
rewrite -(big_mkord xpredT (fun i => G (nth 0%N p i) (nth 0%N (inv_perm p) (nth 0%N p i)))).
rewrite -(perm_size Hp) -(big_nth 0%N xpredT (fun j => G j (nth 0%N (inv_perm p) j))).
rewrite (perm_big _ Hp) /= -[X in iota 0 X]subn0 -/(index_iota 0 L) big_mkord.
by rewrite (perm_size Hp).
Qed.
End P.
