(* C34: fast updates of PlaquetteqGPS. *)
From Verif Require Import Base Update_Proto QGPS_Model QGPS_Proofs QGPS_Lemmas QGPS_Sym Plaq_Model.
Local Open Scope ring_scope.

Lemma inv_plaquette_loop pl v n k : (n <= size pl)%N -> uniq pl ->
  nth None (foldl (fun v j => set_nth None v (nth 0%N pl j) (Some j)) v (iota 0 n)) k =
  if (index k pl < n)%N then Some (index k pl) else nth None v k.
Proof.
move=> Hn Hu; elim: n Hn => [//|n IH] Hn.
rewrite -addn1 iotaD foldl_cat /= add0n addn1 nth_set_nth /= (IH (ltnW Hn)).
case: (altP (k =P nth 0%N pl n)) => [->|Hne].
  by rewrite index_uniq // ltnSn.
rewrite (ltnS (index k pl)) (leq_eqVlt (index k pl)); case: (altP (index k pl =P n)) => [E|_] //=.
by case/eqP: Hne; rewrite -E nth_index // -index_mem E.
Qed.
Lemma inv_plaquetteE L pl k : uniq pl ->
  nth None (inv_plaquette L pl) k = if k \in pl then Some (index k pl) else None.
Proof.
move=> Hu; rewrite /inv_plaquette inv_plaquette_loop // index_mem nth_nseq.
by case: (k \in pl) => //; case: ifP.
Qed.

Section Lemmas.
Variable F : fieldType.

(* a product over the plaquette as a product over all sites *)
Lemma plaq_prod_sites L pl (G : nat -> nat -> F) : uniq pl -> all (fun k => (k < L)%N) pl ->
  \prod_(j < size pl) G (nth 0%N pl j) j
  = \prod_(i < L) (if nth None (inv_plaquette L pl) i is Some j then G i j else 1).
Proof.
move=> Hu Ha.
have -> : \prod_(i < L) (if nth None (inv_plaquette L pl) i is Some j then G i j else 1)
   = \prod_(i <- iota 0 L) (if i \in pl then G i (index i pl) else 1).
  rewrite -(big_mkord xpredT (fun i => if nth None (inv_plaquette L pl) i is Some j then G i j else 1)).
  rewrite /index_iota subn0; apply: eq_bigr => i _; rewrite inv_plaquetteE //.
  by case: (i \in pl).
rewrite -(big_mkcond (fun i => i \in pl)) -big_filter.
have Hp : perm_eq [seq i <- iota 0 L | i \in pl] pl.
  apply: uniq_perm => //; first by rewrite filter_uniq // iota_uniq.
  move=> i; rewrite mem_filter mem_iota /=; case: (boolP (i \in pl)) => //= Hi.
  by rewrite (allP Ha).
rewrite (perm_big _ Hp) /= (big_nth 0%N) big_mkord; apply: eq_bigr => j _.
by rewrite index_uniq.
Qed.

Variables (eps : nat -> nat -> nat -> nat -> F) (M : nat) (plaquettes : seq (seq nat)).

(* the factor of site k of the configuration x in plaquette p, through the permutation g *)
Definition pfac (L : nat) (f : nat -> nat) (g : nat -> nat) p m x k : F :=
  if nth None (inv_plaquette L (nth [::] plaquettes p)) (g k) is Some j
  then eps (f (nth 0%N x k)) p m j else 1.

(* the same factor for an occupancy o of site k *)
Definition pfac_occ (L : nat) (f : nat -> nat) (g : nat -> nat) p m o k : F :=
  if nth None (inv_plaquette L (nth [::] plaquettes p)) (g k) is Some j then eps (f o) p m j else 1.

Lemma plaq_update_prodE L f g p m occs sites :
  plaq_update_prod eps L plaquettes p m [seq f o | o <- occs] [seq g i | i <- sites]
  = \prod_(q <- zip occs sites) pfac_occ L f g p m q.1 q.2.
Proof.
rewrite /plaq_update_prod; elim: sites occs => [|k sites IH] [|o occs] /=; rewrite ?big_nil //.
by rewrite !big_cons IH.
Qed.

Lemma plaquette_prod_copy L f q p x m : is_perm L q -> size x = L -> (m < M)%N ->
  uniq (nth [::] plaquettes p) -> all (fun k => (k < L)%N) (nth [::] plaquettes p) ->
  nth 0 (plaquette_prod eps M plaquettes p [seq f o | o <- [seq nth 0%N x j | j <- q]]) m
  = \prod_(k < L) pfac L f (nth 0%N (inv_perm q)) p m x k.
Proof.
move=> Hq Hx Hm Hu Ha; rewrite (nth_map 0%N) ?size_iota // nth_iota // add0n.
rewrite (plaq_prod_sites (fun i j => eps (nth 0%N [seq f o | o <- [seq nth 0%N x j | j <- q]] i) p m j) Hu Ha).
rewrite /pfac -(prod_perm (fun a i => if nth None (inv_plaquette L (nth [::] plaquettes p)) i is Some j then eps (f (nth 0%N x a)) p m j else 1) Hq).
apply: eq_bigr => i _; case: (nth _ _ _) => // j; congr (eps _ _ _ _).
by rewrite (nth_map 0%N) ?size_map ?(perm_size Hq) // (nth_map 0%N) ?(perm_size Hq).
Qed.

Lemma plaq_configE x y sites : size y = size x -> all (fun k => (k < size x)%N) sites ->
  (forall j, j \notin sites -> nth 0%N y j = nth 0%N x j) ->
  plaq_update_config x sites [seq nth 0%N y i | i <- sites] = y.
Proof.
rewrite /plaq_update_config; elim: sites x => [|k sites IH] x Hs /=.
  by move=> _ H; apply: (@eq_from_nth _ 0%N) => // j _; rewrite H.
case/andP => Hk Ha Hoff; have E : size (set_nth 0%N x k (nth 0%N y k)) = size x.
  by rewrite size_set_nth; apply/maxn_idPr.
apply: IH; rewrite ?E // => j Hj; rewrite nth_set_nth /=.
by case: (altP (j =P k)) => [->|Hne] //; apply: Hoff; rewrite in_cons negb_or Hne.
Qed.
End Lemmas.

Section Props.
Variables (F : fieldType) (eps : nat -> nat -> nat -> nat -> F) (M L : nat) (plaquettes : seq (seq nat)).

(* every factor of every plaquette in every symmetry copy of x is non-zero *)
Definition plaq_nonvanishing (s : symset) (x : seq nat) : Prop :=
  forall c p m j, c \in sym_copies s x -> (p < size plaquettes)%N -> (m < M)%N ->
    (j < size (nth [::] plaquettes p))%N -> eps (nth 0%N c (nth 0%N (nth [::] plaquettes p) j)) p m j != 0.
(* C34, site products and hence the returned value: every update list in which the first
   occurrence of a site carries its new occupancy and later ones the old one ([denotes]), for
   plaquettes without repeated sites (otherwise refuted below). *)
Theorem C34_plaquette_fast_update_partial s x y sites occs :
  all (fun pl => uniq pl && all (fun k => (k < L)%N) pl) plaquettes ->
  (if sy_perms s is Some ps then all (fun p => perm_eq p (iota 0 L)) ps else true) -> size x = L ->
  plaq_nonvanishing s x -> denotes x y sites occs ->
  pc_prod (plaq_fast eps M L plaquettes s (plaq_full eps M plaquettes s x) occs sites)
  = pc_prod (plaq_full eps M plaquettes s y).
Proof.
move=> Hpl Hok Hx Hne Hd; have [Hy _ Hs _ _] := Hd; rewrite Hx in Hy Hs.
rewrite /plaq_fast /plaq_full; cbn [pc_samples pc_prod].
rewrite /plaq_outer_update /plaq_site_prod !(@sym_inverseE L) // !(@sym_copiesE L) // -map_comp zip_map3 -map_comp.
have HC : forall fp, List.In fp (ops L s) -> is_perm L fp.2 /\ [seq fp.1 o | o <- [seq nth 0%N x j | j <- fp.2]] \in sym_copies s x.
  move=> fp Hin; split.
    by apply: ops_perm Hok _; elim: (ops L s) Hin => //= a l IH [->|/IH H]; rewrite in_cons ?eqxx // H orbT.
  rewrite (@sym_copiesE L) //.
  by elim: (ops L s) Hin => //= a l IH [->|/IH H]; rewrite in_cons ?eqxx // H orbT.
elim: (ops L s) HC => //= fp l IH HC; rewrite IH; last by move=> q Hq; apply: HC; right.
congr cons; have [Hp Hc] := HC fp (or_introl erefl).
apply: (@eq_from_nth _ [::]); first by rewrite !size_map.
move=> p; rewrite size_map size_iota => Hps.
have /andP[Hu Ha] := allP Hpl _ (mem_nth [::] Hps).
rewrite !(nth_map 0%N [::]) ?size_iota // !nth_iota // add0n.
apply: (@eq_from_nth _ 0); first by rewrite !size_map.
move=> m; rewrite size_map size_iota => Hm.
rewrite [LHS](nth_map 0%N) ?size_iota // nth_iota // !add0n.
rewrite (plaquette_prod_copy eps (fp.1) Hp Hx Hm Hu Ha) (plaquette_prod_copy eps (fp.1) Hp Hy Hm Hu Ha).
rewrite !plaq_update_prodE mulrA mulrAC.
rewrite (@zip_read_prod _ (pfac_occ eps plaquettes L fp.1 (nth 0%N (inv_perm fp.2)) p m)) -Hx.
rewrite [RHS](@prod_proto _ (pfac_occ eps plaquettes (size x) fp.1 (nth 0%N (inv_perm fp.2)) p m) _ _ _ _ Hd) //.
move=> j; rewrite Hx => Hj; rewrite /pfac_occ inv_plaquetteE //; case: ifP => [Hin|_]; last exact: oner_neq0.
have := Hne _ p m (index (nth 0%N (inv_perm fp.2) j) (nth [::] plaquettes p)) Hc Hps Hm.
rewrite index_mem Hin nth_index // => /(_ isT).
have Hi : (nth 0%N (inv_perm fp.2) j < L)%N := allP Ha _ Hin.
rewrite (nth_map 0%N) ?size_map ?(perm_size Hp) // (nth_map 0%N) ?(perm_size Hp) //.
have -> // : nth 0%N fp.2 (nth 0%N (inv_perm fp.2) j) = j.
by rewrite (inv_permE Hp Hj) nth_index // (perm_mem Hp) mem_iota.
Qed.

(* the whole cache, when changed sites are listed exactly once (as the samplers do) *)
Definition plaq_good_update (x y sites : seq nat) : Prop :=
  [/\ size y = size x, all (fun k => (k < size x)%N) sites &
      forall j, count_mem j sites != 1%N -> nth 0%N y j = nth 0%N x j].
Theorem C34_plaquette_cache_partial s x y sites :
  all (fun pl => uniq pl && all (fun k => (k < L)%N) pl) plaquettes ->
  (if sy_perms s is Some ps then all (fun p => perm_eq p (iota 0 L)) ps else true) -> size x = L ->
  plaq_nonvanishing s x -> plaq_good_update x y sites ->
  plaq_fast eps M L plaquettes s (plaq_full eps M plaquettes s x) [seq nth 0%N y i | i <- sites] sites
  = plaq_full eps M plaquettes s y.
Proof.
move=> Hpl Hok Hx Hne [Hy Hs Hoff].
have := C34_plaquette_fast_update_partial Hpl Hok Hx Hne (denotes_once Hy Hs Hoff).
rewrite /plaq_fast /plaq_full; cbn [pc_samples pc_prod] => ->; congr PlaqCache.
by apply: plaq_configE => // j Hj; apply: Hoff; rewrite (count_memPn Hj).
Qed.

(* chains of cached updates of any length *)
Fixpoint plaq_chain_ok (s : symset) (x : seq nat) (us : seq (seq nat * seq nat)) : Prop :=
  if us is u :: us' then [/\ plaq_nonvanishing s x, plaq_good_update x u.1 u.2 & plaq_chain_ok s u.1 us'] else True.
Theorem C34_plaquette_update_chain_partial s x us :
  all (fun pl => uniq pl && all (fun k => (k < L)%N) pl) plaquettes ->
  (if sy_perms s is Some ps then all (fun p => perm_eq p (iota 0 L)) ps else true) -> size x = L ->
  plaq_chain_ok s x us ->
  foldl (fun c u => plaq_fast eps M L plaquettes s c [seq nth 0%N u.1 i | i <- u.2] u.2) (plaq_full eps M plaquettes s x) us
  = plaq_full eps M plaquettes s (last x (map fst us)).
Proof.
move=> Hpl Hok; elim: us x => [//|[y sites] us IH] x Hx [H1 H2 H3] /=.
rewrite (C34_plaquette_cache_partial Hpl Hok Hx H1 H2) IH //.
by case: H2 => ->.
Qed.
End Props.

(* a plaquette containing a site twice (as on small periodic lattices): the inverse table
   only keeps its last position *)
Theorem C34_repeated_plaquette_site_refuted :
  exists (F : fieldType) (eps : nat -> nat -> nat -> nat -> F) M L plaquettes s x y sites,
  [/\ all (all (fun k => (k < L)%N)) plaquettes, size x = L, plaq_nonvanishing eps M plaquettes s x,
      plaq_good_update x y sites &
      pc_prod (plaq_fast eps M L plaquettes s (plaq_full eps M plaquettes s x) [seq nth 0%N y i | i <- sites] sites)
      <> pc_prod (plaq_full eps M plaquettes s y)].
Proof.
exists [fieldType of rat], (fun o _ _ _ => o.+1%:R), 1%N, 1%N, [:: [:: 0; 0]%N], (SymSet None false), [:: 0%N], [:: 1%N], [:: 0%N].
split=> //.
- by move=> c p m j _ _ _ _; rewrite Num.Theory.pnatr_eq0.
- by split=> // -[|j] //; rewrite !nth_nil.
- rewrite /plaq_fast /plaq_full /plaq_site_prod /plaq_outer_update /plaq_inner_update /plaquette_prod /plaq_update_prod /=.
  rewrite !big_cons !big_nil !big_ord_recl !big_ord0 /= => -[] /eqP; by vm_compute.
Qed.

(* with dummy updates the cached configuration can be the old one: unlike the other models,
   which scan in reverse, the list is written in one scatter (in list order in this model) *)
Theorem C34_cached_configuration_refuted :
  exists (F : fieldType) (eps : nat -> nat -> nat -> nat -> F) M L plaquettes s x y sites occs,
  [/\ all (fun pl => uniq pl && all (fun k => (k < L)%N) pl) plaquettes, size x = L,
      plaq_nonvanishing eps M plaquettes s x, denotes x y sites occs &
      pc_samples (plaq_fast eps M L plaquettes s (plaq_full eps M plaquettes s x) occs sites) = x /\ y <> x].
Proof.
exists [fieldType of rat], (fun o _ _ _ => o.+1%:R), 1%N, 1%N, [:: [:: 0%N]], (SymSet None false), [:: 0%N], [:: 1%N], [:: 0; 0]%N, [:: 1; 0]%N.
split=> //.
- by move=> c p m j _ _ _ _; rewrite Num.Theory.pnatr_eq0.
- by split=> //; [do 2?[case=> //]|case=> [|j] // _; rewrite !nth_nil].
Qed.

(* three sites, plaquettes of two neighbours; exchange on sites 0 and 1 *)
Example C34_example :
  let pls := [:: [:: 0; 1]; [:: 1; 2]; [:: 2; 0]]%N in
  inv_plaquette 3 [:: 2; 0]%N = [:: Some 1; None; Some 0]%N /\
  all (fun pl => uniq pl && all (fun k => (k < 3)%N) pl) pls /\
  plaq_good_update [:: 0; 1; 1]%N [:: 1; 0; 1]%N [:: 0; 1]%N.
Proof. by do ![split=> //] => -[|[|[|j]]] //; rewrite !nth_default. Qed.

Print Assumptions C34_plaquette_fast_update_partial.
Print Assumptions C34_plaquette_update_chain_partial.
Print Assumptions C34_repeated_plaquette_site_refuted.
Print Assumptions C34_plaquette_cache_partial.
Print Assumptions C34_cached_configuration_refuted.
