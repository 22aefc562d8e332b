(* The meaning of an update list (sites, occs) for a configuration x, as produced by the
   on-the-fly local energies (C14) and by the samplers: the first occurrence of a site carries
   its new occupancy, later occurrences carry the old one (dummy updates). *)
From Verif Require Import Base.
Local Open Scope ring_scope.

Definition denotes (x y sites occs : seq nat) : Prop :=
  [/\ size y = size x, size occs = size sites, all (fun k => (k < size x)%N) sites,
      (forall k, (k < size sites)%N -> nth 0%N occs k =
         if index (nth 0%N sites k) sites == k then nth 0%N y (nth 0%N sites k) else nth 0%N x (nth 0%N sites k)) &
      forall j, j \notin sites -> nth 0%N y j = nth 0%N x j].

Lemma index_leq_nth (s : seq nat) n : (index (nth 0%N s n) s <= n)%N.
Proof. by elim: s n => [//|a s IH] [|n] /=; rewrite ?eqxx //; case: ifP => // _; apply: IH. Qed.
Lemma count_once_index (s : seq nat) k : (k < size s)%N -> count_mem (nth 0%N s k) s = 1%N ->
  index (nth 0%N s k) s = k.
Proof.
elim: s k => [//|a s IH] [|k] Hk /=; first by rewrite eqxx.
case: (altP (a =P nth 0%N s k)) => [_|Hne] /=; last by move=> H; rewrite IH.
by move=> [] /eqP; rewrite -leqn0 leqNgt -has_count has_pred1 mem_nth.
Qed.

(* new occupancies everywhere are fine if changed sites occur only once *)
Lemma denotes_once x y sites : size y = size x -> all (fun k => (k < size x)%N) sites ->
  (forall j, count_mem j sites != 1%N -> nth 0%N y j = nth 0%N x j) ->
  denotes x y sites [seq nth 0%N y i | i <- sites].
Proof.
move=> Hs Ha Hoff; split=> //; first by rewrite size_map.
  move=> k Hk; rewrite (nth_map 0%N) //; case: (altP (_ =P k)) => // Hne.
  by apply: Hoff; apply: contraNN Hne => /eqP Hc; apply/eqP; apply: count_once_index.
by move=> j Hj; apply: Hoff; rewrite (count_memPn Hj).
Qed.

(* the scan with reverse=True over the list writes y *)
Lemma denotes_write x y sites occs : denotes x y sites occs ->
  foldl (fun v k => set_nth 0%N v (nth 0%N sites k) (nth 0%N occs k)) x (rev (iota 0 (size sites))) = y.
Proof.
case=> Hs Ho Ha Hv Hoff.
(* invariant: after writing the entries k >= n the value at j is that of the first entry >= n for j *)
have H n v : (n <= size sites)%N -> size v = size x ->
    (forall j, nth 0%N v j = if (index j sites < n)%N then nth 0%N v j else
       if j \in sites then nth 0%N y j else nth 0%N x j) ->
    foldl (fun v k => set_nth 0%N v (nth 0%N sites k) (nth 0%N occs k)) v (rev (iota 0 n)) = y.
  elim: n v => [|n IH] v Hn Hsv Hj.
    apply: (@eq_from_nth _ 0%N) => [|j _] /=; first by rewrite Hsv Hs.
    by rewrite Hj /=; case: ifP => // /negbT /Hoff ->.
  rewrite -addn1 iotaD rev_cat foldl_cat /= add0n.
  have Hsn : (nth 0%N sites n < size x)%N by move/all_nthP: Ha; apply.
  apply: IH => [||j]; first exact: ltnW.
    by rewrite size_set_nth Hsv; apply/maxn_idPr.
  case: ifP => // /negbT; rewrite -leqNgt leq_eqVlt => /orP[/eqP En|Hlt].
    have Hin : j \in sites by rewrite -index_mem -En.
    have Ej : nth 0%N sites n = j by rewrite En nth_index.
    by rewrite Hin nth_set_nth /= Ej eqxx Hv // Ej -En eqxx.
  rewrite nth_set_nth /=; case: (altP (j =P _)) => [Ej|_].
    have : (index j sites <= n)%N by rewrite Ej; apply: index_leq_nth.
    by rewrite leqNgt Hlt.
  by rewrite Hj ltnNge Hlt.
apply: H => // j; case: ifP => // /negbT.
by rewrite -leqNgt leqNgt index_mem => /negbTE ->.
Qed.

Section Prod.
Variable F : fieldType.

Lemma first_occ_perm (sites : seq nat) :
  perm_eq [seq nth 0%N sites k | k <- [seq k <- iota 0 (size sites) | index (nth 0%N sites k) sites == k]] (undup sites).
Proof.
apply: uniq_perm; last 1 first.
- move=> j; rewrite mem_undup; apply/mapP/idP => [[k]|Hj].
    by rewrite mem_filter mem_iota /= => /andP[_ Hk] ->; apply: mem_nth.
  exists (index j sites); last by rewrite nth_index.
  by rewrite mem_filter mem_iota /= nth_index // eqxx index_mem.
- rewrite map_inj_in_uniq ?filter_uniq ?iota_uniq // => k l.
  by rewrite !mem_filter => /andP[/eqP Ek _] /andP[/eqP El _] E; rewrite -Ek -El E.
- exact: undup_uniq.
Qed.

(* product over all sites from the product before the change and the update list *)
Lemma prod_proto (W : nat -> nat -> F) x y sites occs : denotes x y sites occs ->
  (forall j, (j < size x)%N -> W (nth 0%N x j) j != 0) ->
  \prod_(j < size x) W (nth 0%N y j) j
  = (\prod_(j < size x) W (nth 0%N x j) j) / (\prod_(k <- sites) W (nth 0%N x k) k)
    * \prod_(q <- zip occs sites) W q.1 q.2.
Proof.
case=> Hs Ho Ha Hv Hoff HW.
set G := fun j => W (nth 0%N x j) j; set H := fun j => W (nth 0%N y j) j.
have E1 : \prod_(k <- sites) G k = \prod_(k <- iota 0 (size sites)) G (nth 0%N sites k).
  by rewrite (big_nth 0%N) /index_iota subn0.
have E2 : \prod_(q <- zip occs sites) W q.1 q.2
    = \prod_(k <- iota 0 (size sites)) (if index (nth 0%N sites k) sites == k then H (nth 0%N sites k) else G (nth 0%N sites k)).
  rewrite (big_nth (0%N, 0%N)) /index_iota subn0 size_zip Ho minnn.
  rewrite big_seq [RHS]big_seq; apply: eq_bigr => k; rewrite mem_iota /= => Hk.
  by rewrite nth_zip // Hv //; case: ifP.
have HG k : k \in sites -> G k != 0 by move=> Hk; apply: HW; apply: (allP Ha).
rewrite -mulrA -[X in _ = X * _]/(\prod_(j < size x) G j).
have -> : (\prod_(k <- sites) G k)^-1 * \prod_(q <- zip occs sites) W q.1 q.2 = \prod_(j <- undup sites) (H j / G j).
  rewrite mulrC E1 E2 -prodf_div -(perm_big _ (first_occ_perm sites)) big_map big_filter [RHS]big_mkcond /=.
  rewrite big_seq [RHS]big_seq; apply: eq_bigr => k; rewrite mem_iota /= => Hk.
  by case: ifP => // _; rewrite divff // HG // mem_nth.
have -> : \prod_(j <- undup sites) (H j / G j) = \prod_(j < size x) (if (j : nat) \in sites then H j / G j else 1).
  rewrite -(big_mkord xpredT (fun j => if j \in sites then H j / G j else 1)) /index_iota subn0 -big_mkcond -[RHS]big_filter.
  apply: perm_big; apply: uniq_perm; [exact: undup_uniq|by rewrite filter_uniq ?iota_uniq|].
  move=> j; rewrite mem_undup mem_filter mem_iota /=; case: (boolP (j \in sites)) => //= Hj.
  by rewrite (allP Ha).
rewrite -big_split /=; apply: eq_bigr => j _; case: ifP => [Hj|/negbT /Hoff Hj]; first by rewrite mulrC divfK // HG.
by rewrite mulr1 /G Hj.
Qed.
End Prod.
