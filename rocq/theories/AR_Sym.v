From Verif Require Import Base QGPS_Model QGPS_Proofs QGPS_Lemmas QGPS_Sym QGPS_Group.
Local Open Scope ring_scope.

Definition group_ok (L : nat) (s : symset) : bool :=
  if sy_perms s is Some ps then
    [&& uniq ps, all (fun p => perm_eq p (iota 0 L)) ps &
        all (fun p => all (fun q => [seq nth 0%N p j | j <- q] \in ps) ps) ps] else true.

Definition act (p x : seq nat) : seq nat := [seq nth 0%N x j | j <- p].

Section G.
Variables (L : nat) (ps : seq (seq nat)).
Hypotheses (Hu : uniq ps) (Ha : all (is_perm L) ps).
Hypothesis Hc : forall q r, q \in ps -> r \in ps -> comp q r \in ps.

Lemma comp_iota p : is_perm L p -> comp p (iota 0 L) = p.
Proof. by move=> Hp; rewrite /comp map_nth_self // (perm_size Hp). Qed.

Lemma iota_in p : p \in ps -> iota 0 L \in ps.
Proof.
move=> Hp; have : p \in [seq comp p q | q <- ps] by rewrite (perm_mem (comp_closed Hu Ha Hc Hp)).
case/mapP => q Hq E; have Hpp := allP Ha _ Hp.
suff -> : iota 0 L = q by [].
by apply: (@comp_inj L p) => //; [rewrite /is_perm perm_refl|apply: (allP Ha)|rewrite -E comp_iota].
Qed.

Lemma inv_in p : p \in ps -> inv_perm p \in ps /\ comp p (inv_perm p) = iota 0 L.
Proof.
move=> Hp; have Hpp := allP Ha _ Hp.
have : iota 0 L \in [seq comp p q | q <- ps].
  by rewrite (perm_mem (comp_closed Hu Ha Hc Hp)) (iota_in Hp).
case/mapP => r Hr E; have Hrr := allP Ha _ Hr.
have Hs : size (inv_perm p) = L.
  rewrite /inv_perm -(perm_size Hpp).
  have H (v : seq nat) is_ : size v = size p -> all (fun i => (i < size p)%N) is_ ->
     size (foldl (fun v i => set_nth 0%N v (nth 0%N p i) i) v is_) = size p.
    elim: is_ v => //= i is_ IH v Hv /andP[Hi Hall]; rewrite IH //.
    rewrite size_set_nth Hv; apply/maxn_idPr.
    by rewrite (perm_size Hpp) perm_lt // -(perm_size Hpp).
  apply: H; first by rewrite size_nseq.
  by apply/allP => i; rewrite mem_iota.
suff -> : inv_perm p = r by rewrite -E.
apply: (@eq_from_nth _ 0%N); rewrite Hs ?(perm_size Hrr) // => k Hk.
rewrite (inv_permE Hpp Hk).
have Ek : nth 0%N p (nth 0%N r k) = k.
  by have := congr1 (fun z => nth 0%N z k) E; rewrite /comp (nth_map 0%N) ?(perm_size Hrr) // nth_iota // => <-.
by rewrite -{1}Ek index_uniq ?(perm_size Hpp) ?(perm_uniq Hpp) // perm_lt.
Qed.

Lemma act_inv p x y : p \in ps -> size x = L -> size y = L -> (act p x == y) = (act (inv_perm p) y == x).
Proof.
move=> Hp Hx Hy; have [Hi Ei] := inv_in Hp; have Hpp := allP Ha _ Hp; have Hii := allP Ha _ Hi.
have Ei' : comp (inv_perm p) p = iota 0 L.
  apply: (@eq_from_nth _ 0%N); rewrite size_map ?size_iota (perm_size Hpp) // => k Hk.
  by rewrite (nth_map 0%N) ?(perm_size Hpp) // (inv_permK Hpp) // nth_iota.
apply/eqP/eqP => [<-|<-].
  by rewrite /act (comp_act _ Hpp Hii) Ei map_nth_self.
by rewrite /act (comp_act _ Hii Hpp) Ei' map_nth_self.
Qed.

Lemma inv_perm_ps : perm_eq [seq inv_perm p | p <- ps] ps.
Proof.
have Hinj : {in ps &, injective inv_perm}.
  move=> p q Hp Hq E; have [_ E1] := inv_in Hp; have [_ E2] := inv_in Hq.
  have Hpp := allP Ha _ Hp; have Hqq := allP Ha _ Hq.
  have Hsz : size (inv_perm p) = L by have := congr1 size E1; rewrite size_map size_iota.
  apply: (@eq_from_nth _ 0%N); rewrite (perm_size Hpp) ?(perm_size Hqq) // => k Hk.
  have [i Hi Ek] : exists2 i, (i < L)%N & nth 0%N (inv_perm p) i = k.
    by exists (nth 0%N p k); [apply: perm_lt|rewrite (inv_permK Hpp)].
  have A1 : nth 0%N p k = i.
    by have := congr1 (fun z => nth 0%N z i) E1; rewrite /comp (nth_map 0%N) ?Hsz // Ek nth_iota.
  have A2 : nth 0%N q k = i.
    by have := congr1 (fun z => nth 0%N z i) E2; rewrite /comp (nth_map 0%N) -?E ?Hsz // Ek nth_iota.
  by rewrite A1 A2.
have Hum : uniq [seq inv_perm p | p <- ps] by rewrite map_inj_in_uniq.
have Hsub : {subset [seq inv_perm p | p <- ps] <= ps} by move=> _ /mapP[q Hq ->]; have [] := inv_in Hq.
have Hsz : (size ps <= size [seq inv_perm p | p <- ps])%N by rewrite size_map.
have [_ Hi] := uniq_min_size Hum Hsub Hsz.
exact: uniq_perm.
Qed.

Lemma count_act x y : size x = L -> size y = L ->
  count_mem y [seq act p x | p <- ps] = count_mem x [seq act p y | p <- ps].
Proof.
move=> Hx Hy; rewrite !count_map.
rewrite -[RHS](permP inv_perm_ps) count_map; apply: eq_in_count => p Hp /=.
exact: act_inv.
Qed.
End G.

Lemma count_copies L s x y : group_ok L s -> size x = L -> size y = L ->
  (sy_flip s -> all (fun o => (o < 2)%N) x && all (fun o => (o < 2)%N) y) ->
  count_mem y (sym_copies s x) = count_mem x (sym_copies s y).
Proof.
move=> Hg Hx Hy Hb; rewrite (copies_base s Hx) (copies_base s Hy) /base_copies.
set ps := if sy_perms s is Some ps then ps else [:: iota 0 L].
have [Hu Ha Hc] : [/\ uniq ps, all (is_perm L) ps & forall q r, q \in ps -> r \in ps -> comp q r \in ps].
  rewrite /ps; move: Hg; rewrite /group_ok; case: (sy_perms s) => [qs|_].
    by case/and3P => ? ? H; split=> // q r Hq Hr; apply: (allP (allP H _ Hq)).
  split=> //=; first by rewrite /is_perm perm_refl.
  by move=> q r; rewrite !inE => /eqP-> /eqP->; rewrite /comp map_nth_self ?size_iota.
have Hbase := count_act Hu Ha Hc.
case E : (sy_flip s); last exact: Hbase.
have /andP[Bx By] := Hb E.
rewrite !count_cat Hbase //; congr (_ + _)%N.
have Hfl (z w : seq nat) : size z = L -> all (fun o => (o < 2)%N) z -> all (fun o => (o < 2)%N) w ->
   count_mem w [seq [seq flip_occ o | o <- i] | i <- [seq act p z | p <- ps]]
   = count_mem (map flip_occ w) [seq act p z | p <- ps].
  move=> Hz Hzb Hwb; rewrite count_map; apply: eq_in_count => v /mapP[p Hp ->] /=.
  apply/eqP/eqP => [<-|->]; last by rewrite flipK.
  rewrite flipK //; apply/allP => o /mapP[j Hj ->]; apply: (allP Hzb); apply: mem_nth.
  by move: Hj; rewrite (perm_mem (allP Ha _ Hp)) mem_iota Hz.
rewrite -/(act _ _) (Hfl x y) // Hbase ?size_map // .
rewrite count_map [RHS]count_map count_map; apply: eq_in_count => p Hp /=.
by rewrite /act (flip_take (allP Ha _ Hp)).
Qed.

Lemma copies_ok L s x D : group_ok L s -> size x = L -> all (fun o => (o < D)%N) x -> (sy_flip s -> D = 2%N) ->
  forall y, y \in sym_copies s x -> size y = L /\ all (fun o => (o < D)%N) y.
Proof.
move=> Hg Hx HD Hf y; rewrite (copies_base s Hx) /base_copies.
set ps := if sy_perms s is Some ps then ps else [:: iota 0 L].
have Ha : all (is_perm L) ps.
  rewrite /ps; move: Hg; rewrite /group_ok; case: (sy_perms s) => [qs /and3P[]|_] //=.
  by rewrite /is_perm perm_refl.
have H p : p \in ps -> size (act p x) = L /\ all (fun o => (o < D)%N) (act p x).
  move=> Hp; split; first by rewrite size_map (perm_size (allP Ha _ Hp)).
  apply/allP => o /mapP[j Hj ->]; apply: (allP HD); apply: mem_nth.
  by move: Hj; rewrite (perm_mem (allP Ha _ Hp)) mem_iota Hx.
case E : (sy_flip s); last by case/mapP => p Hp ->; apply: H.
rewrite mem_cat => /orP[/mapP[p Hp ->]|/mapP[z /mapP[p Hp ->] ->]]; first exact: H.
have [H1 H2] := H p Hp; rewrite size_map; split=> //.
apply/allP => o /mapP[o' Ho' ->]; rewrite /flip_occ (Hf E); lia.
Qed.

Lemma size_copies s L x y : size x = L -> size y = L -> size (sym_copies s x) = size (sym_copies s y).
Proof.
move=> Hx Hy; rewrite (copies_base s Hx) (copies_base s Hy) /base_copies.
by case: (sy_flip s); rewrite ?size_cat !size_map.
Qed.
