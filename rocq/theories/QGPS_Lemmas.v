From Verif Require Import Base Update_Proto QGPS_Model QGPS_Proofs.
Local Open Scope ring_scope.

Definition syms_ok (L : nat) (s : symset) : bool :=
  if sy_perms s is Some ps then all (is_perm L) ps else true.

Section L.
Variables (F : fieldType) (eps : nat -> nat -> nat -> F) (M : nat).

(* one symmetry copy: reading x through the permutation p and the occupancy map f *)
Lemma site_prod_copy L (f : nat -> nat) p x m : is_perm L p -> size x = L -> (m < M)%N ->
  nth 0 (site_prod eps M [seq f o | o <- [seq nth 0%N x j | j <- p]]) m
  = \prod_(j < L) eps (f (nth 0%N x j)) m (nth 0%N (inv_perm p) j).
Proof.
move=> Hp Hx Hm; rewrite (nth_map 0%N) ?size_iota // nth_iota // add0n !size_map (perm_size Hp).
rewrite -(prod_perm (fun a i => eps (f (nth 0%N x a)) m i) Hp).
apply: eq_bigr => i _; congr (eps _ _ _).
by rewrite (nth_map 0%N) ?size_map ?(perm_size Hp) // (nth_map 0%N) ?(perm_size Hp).
Qed.

Lemma upd_prodE (f : nat -> nat) (g : nat -> nat) occs sites m :
  upd_prod eps [seq f o | o <- occs] [seq g i | i <- sites] m
  = \prod_(q <- zip occs sites) eps (f q.1) m (g q.2).
Proof.
rewrite /upd_prod; elim: sites occs => [|k sites IH] [|o occs] /=; rewrite ?big_nil //.
by rewrite !big_cons IH.
Qed.
Lemma zip_read_prod (W : nat -> nat -> F) x sites :
  \prod_(q <- zip [seq nth 0%N x j | j <- sites] sites) W q.1 q.2 = \prod_(j <- sites) W (nth 0%N x j) j.
Proof. by elim: sites => [|k sites IH] /=; rewrite ?big_nil // !big_cons IH. Qed.

Lemma inner_updateE L (f : nat -> nat) p x y sites occs : is_perm L p -> size x = L ->
  denotes x y sites occs ->
  (forall m j, (m < M)%N -> (j < L)%N -> eps (f (nth 0%N x j)) m (nth 0%N (inv_perm p) j) != 0) ->
  inner_update eps M (site_prod eps M [seq f o | o <- [seq nth 0%N x j | j <- p]])
    [seq f o | o <- occs] [seq f o | o <- [seq nth 0%N x j | j <- sites]]
    [seq nth 0%N (inv_perm p) i | i <- sites]
  = site_prod eps M [seq f o | o <- [seq nth 0%N y j | j <- p]].
Proof.
move=> Hp Hx Hd Hne; have Hy : size y = L by case: Hd => ->.
apply: (@eq_from_nth _ 0); first by rewrite !size_map.
move=> m; rewrite size_map size_iota => Hm.
rewrite (nth_map 0%N) ?size_iota // nth_iota // add0n (site_prod_copy f Hp Hx Hm).
rewrite (site_prod_copy f Hp Hy Hm) !upd_prodE.
rewrite (zip_read_prod (fun o j => eps (f o) m (nth 0%N (inv_perm p) j))) -Hx.
rewrite [RHS](@prod_proto _ (fun o j => eps (f o) m (nth 0%N (inv_perm p) j)) _ _ _ _ Hd) //.
by move=> j Hj; apply: Hne; rewrite -?Hx.
Qed.
End L.
