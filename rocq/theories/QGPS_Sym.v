From Verif Require Import Base Update_Proto QGPS_Model QGPS_Proofs QGPS_Lemmas.
Local Open Scope ring_scope.

(* the symmetry operations as pairs (occupancy map, permutation) *)
Definition ops (L : nat) (s : symset) : seq ((nat -> nat) * seq nat) :=
  let ps := if sy_perms s is Some ps then ps else [:: iota 0 L] in
  [seq (id, p) | p <- ps] ++ (if sy_flip s then [seq (flip_occ, p) | p <- ps] else [::]).

Lemma map_nth_self (x : seq nat) L : size x = L -> [seq nth 0%N x j | j <- iota 0 L] = x.
Proof. by move=> <-; rewrite map_nth_iota0 // take_size. Qed.

Lemma sym_copiesE L s x : size x = L ->
  sym_copies s x = [seq [seq fp.1 o | o <- [seq nth 0%N x j | j <- fp.2]] | fp <- ops L s].
Proof.
move=> Hx; rewrite /sym_copies /ops.
have -> : (if sy_perms s is Some ps then [seq [seq nth 0%N x j | j <- p] | p <- ps] else [:: x])
  = [seq [seq nth 0%N x j | j <- p] | p <- (if sy_perms s is Some ps then ps else [:: iota 0 L])].
  by case: (sy_perms s) => //=; rewrite map_nth_self.
set ps := (if sy_perms s is Some ps then ps else _); rewrite map_cat.
have -> : [seq [seq fp.1 o | o <- [seq nth 0%N x j | j <- fp.2]] | fp <- [seq (id : nat -> nat, p) | p <- ps]]
   = [seq [seq nth 0%N x j | j <- p] | p <- ps].
  by rewrite -map_comp; apply: eq_map => p /=; rewrite map_id.
by case: (sy_flip s); rewrite ?cats0 // -!map_comp.
Qed.

Lemma inv_perm_iota L k : (k < L)%N -> nth 0%N (inv_perm (iota 0 L)) k = k.
Proof.
move=> Hk; rewrite (@inv_permE L) // /is_perm ?perm_refl //.
have E : nth 0%N (iota 0 L) k = k by rewrite nth_iota.
by rewrite -{1}E index_uniq ?iota_uniq ?size_iota.
Qed.

Lemma sym_inverseE L s occs sites : all (fun k => (k < L)%N) sites ->
  sym_inverse s occs sites
  = [seq ([seq fp.1 o | o <- occs], [seq nth 0%N (inv_perm fp.2) i | i <- sites]) | fp <- ops L s].
Proof.
move=> Hs; rewrite /sym_inverse /ops.
have -> : (if sy_perms s is Some ps then [seq [seq nth 0%N (inv_perm p) i | i <- sites] | p <- ps] else [:: sites])
  = [seq [seq nth 0%N (inv_perm p) i | i <- sites] | p <- (if sy_perms s is Some ps then ps else [:: iota 0 L])].
  case: (sy_perms s) => //=; congr (_ :: _); rewrite -{1}[sites]map_id; apply/esym/eq_in_map => k Hk.
  by rewrite inv_perm_iota //; apply: (allP Hs).
set ps := (if sy_perms s is Some ps then ps else _); rewrite map_cat.
have -> : [seq ([seq fp.1 o | o <- occs], [seq nth 0%N (inv_perm fp.2) i | i <- sites]) | fp <- [seq (id : nat -> nat, p) | p <- ps]]
   = [seq (occs, ss) | ss <- [seq [seq nth 0%N (inv_perm p) i | i <- sites] | p <- ps]].
  by rewrite -!map_comp; apply: eq_map => p /=; rewrite map_id.
by case: (sy_flip s); rewrite ?cats0 // -!map_comp.
Qed.

Lemma ops_perm L s fp : syms_ok L s -> fp \in map (fun fp => fp.2) (ops L s) -> is_perm L fp.
Proof.
rewrite /syms_ok /ops map_cat -map_comp mem_cat => Hok.
have H p : p \in (if sy_perms s is Some ps then ps else [:: iota 0 L]) -> is_perm L p.
  case: (sy_perms s) Hok => [ps|_]; first by move/allP => Ha Hp; apply: Ha.
  by rewrite inE => /eqP->; rewrite /is_perm perm_refl.
rewrite (eq_map (_ : _ =1 id)) // map_id; case/orP => [/H //|].
by case: (sy_flip s); rewrite // -map_comp (eq_map (_ : _ =1 id)) // map_id => /H.
Qed.

Section L.
Variables (F : fieldType) (eps : nat -> nat -> nat -> F) (M : nat).

Lemma zip_map3 (A B C D E : Type) (f : A -> B) (g : A -> C) (h : A -> D) (k : B * (C * D) -> E) (l : seq A) :
  map k (zip (map f l) (zip (map g l) (map h l))) = [seq k (f a, (g a, h a)) | a <- l].
Proof. by elim: l => //= a l ->. Qed.

(* all-sites product through a permutation is the same multiset of factors *)
Lemma factor_nonzero L (f : nat -> nat) p x m : is_perm L p -> size x = L ->
  (forall i, (i < L)%N -> eps (nth 0%N [seq f o | o <- [seq nth 0%N x j | j <- p]] i) m i != 0) ->
  forall j, (j < L)%N -> eps (f (nth 0%N x j)) m (nth 0%N (inv_perm p) j) != 0.
Proof.
move=> Hp Hx H j Hj.
have Hi : (index j p < L)%N by rewrite -(perm_size Hp) index_mem (perm_mem Hp) mem_iota Hj.
have Ej : nth 0%N p (index j p) = j by rewrite nth_index // (perm_mem Hp) mem_iota.
have := H _ Hi; rewrite (nth_map 0%N) ?size_map ?(perm_size Hp) // (nth_map 0%N) ?(perm_size Hp) // Ej.
by rewrite (inv_permE Hp).
Qed.

Lemma fast_full_lemma L s x y sites occs : syms_ok L s -> size x = L -> denotes x y sites occs ->
  (forall c m i, c \in sym_copies s x -> (m < M)%N -> (i < L)%N -> eps (nth 0%N c i) m i != 0) ->
  qgps_fast eps M s (qgps_full eps M s x) occs sites = qgps_full eps M s y.
Proof.
move=> Hok Hx Hd Hne; have [Hy _ Hs _ _] := Hd; rewrite Hx in Hy Hs.
rewrite /qgps_fast /qgps_full; cbn [ca_samples ca_prod]; congr Cache; first exact: denotes_write.
rewrite /outer_update /get_site_prod !(@sym_inverseE L) // !(@sym_copiesE L) // -map_comp zip_map3 -map_comp.
have HC : forall fp, List.In fp (ops L s) -> is_perm L fp.2 /\ [seq fp.1 o | o <- [seq nth 0%N x j | j <- fp.2]] \in sym_copies s x.
  move=> fp Hin; split.
    by apply: ops_perm Hok _; elim: (ops L s) Hin => //= a l IH [->|/IH H]; rewrite in_cons ?eqxx // H orbT.
  rewrite (@sym_copiesE L) //.
  by elim: (ops L s) Hin => //= a l IH [->|/IH H]; rewrite in_cons ?eqxx // H orbT.
elim: (ops L s) HC => //= fp l IH HC; rewrite IH; last by move=> q Hq; apply: HC; right.
congr cons; have [Hp Hc] := HC fp (or_introl erefl).
apply: (inner_updateE (L := L)) => // m j Hm Hj.
by apply: (factor_nonzero Hp Hx) => // i Hi; apply: Hne.
Qed.
End L.
