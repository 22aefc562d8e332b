From Verif Require Import Base QGPS_Model QGPS_Proofs QGPS_Lemmas QGPS_Sym.
Local Open Scope ring_scope.

Definition comp (p q : seq nat) : seq nat := [seq nth 0%N p j | j <- q].

Lemma comp_act L p q (x : seq nat) : is_perm L p -> is_perm L q ->
  [seq nth 0%N [seq nth 0%N x j | j <- p] k | k <- q] = [seq nth 0%N x j | j <- comp p q].
Proof.
move=> Hp Hq; rewrite /comp -map_comp; apply/eq_in_map => k; rewrite (perm_mem Hq) mem_iota => Hk /=.
by rewrite (nth_map 0%N) // (perm_size Hp).
Qed.

Lemma comp_inj L p q r : is_perm L p -> is_perm L q -> is_perm L r -> comp p q = comp p r -> q = r.
Proof.
move=> Hp Hq Hr E; apply: (@eq_from_nth _ 0%N); rewrite (perm_size Hq) ?(perm_size Hr) // => i Hi.
have : nth 0%N (comp p q) i = nth 0%N (comp p r) i by rewrite E.
rewrite !(nth_map 0%N) ?(perm_size Hq) ?(perm_size Hr) // => /eqP.
by rewrite nth_uniq ?(perm_size Hp) ?(perm_uniq Hp) ?perm_lt // => /eqP.
Qed.

(* a closed set of permutations is mapped onto itself by left composition *)
Lemma comp_closed L ps p : uniq ps -> all (is_perm L) ps ->
  (forall q r, q \in ps -> r \in ps -> comp q r \in ps) -> p \in ps ->
  perm_eq [seq comp p q | q <- ps] ps.
Proof.
move=> Hu Ha Hc Hp; have Hinj : {in ps &, injective (comp p)}.
  by move=> q r Hq Hr; apply: (@comp_inj L); apply: (allP Ha).
have Hum : uniq [seq comp p q | q <- ps] by rewrite map_inj_in_uniq.
have Hsub : {subset [seq comp p q | q <- ps] <= ps} by move=> _ /mapP[q Hq ->]; apply: Hc.
have Hsz : (size ps <= size [seq comp p q | q <- ps])%N by rewrite size_map.
have [_ Hi] := uniq_min_size Hum Hsub Hsz.
exact: uniq_perm.
Qed.

Lemma flipK x : all (fun o => o < 2)%N x -> map flip_occ (map flip_occ x) = x.
Proof.
by move=> /allP H; rewrite -map_comp -[RHS]map_id; apply/eq_in_map => o /H /=; case: o => [|[|o]].
Qed.

Lemma flip_take x q L : is_perm L q -> size x = L ->
  [seq nth 0%N (map flip_occ x) j | j <- q] = map flip_occ [seq nth 0%N x j | j <- q].
Proof.
move=> Hq Hx; rewrite -map_comp; apply/eq_in_map => k; rewrite (perm_mem Hq) mem_iota => Hk /=.
by rewrite (nth_map 0%N) ?Hx.
Qed.

Definition base_copies L (s : symset) (x : seq nat) : seq (seq nat) :=
  [seq [seq nth 0%N x j | j <- p] | p <- if sy_perms s is Some ps then ps else [:: iota 0 L]].

Lemma copies_base L s x : size x = L ->
  sym_copies s x = if sy_flip s then base_copies L s x ++ map (map flip_occ) (base_copies L s x) else base_copies L s x.
Proof.
move=> Hx; rewrite /sym_copies /base_copies; case: (sy_perms s) => [ps|] //=.
by rewrite map_nth_self.
Qed.

Lemma group_lemma L s x y : size x = L -> (sy_flip s -> all (fun o => o < 2)%N x) ->
  (if sy_perms s is Some ps then
     [&& uniq ps, all (is_perm L) ps & all (fun p => all (fun q => comp p q \in ps) ps) ps] else true) ->
  y \in sym_copies s x -> perm_eq (sym_copies s y) (sym_copies s x).
Proof.
move=> Hx Hb Hg.
set ps := if sy_perms s is Some ps then ps else [:: iota 0 L].
have [Hu Ha Hc] : [/\ uniq ps, all (is_perm L) ps & forall q r, q \in ps -> r \in ps -> comp q r \in ps].
  rewrite /ps; case: (sy_perms s) Hg => [qs|_].
    by case/and3P => ? ? H; split=> // q r Hq Hr; apply: (allP (allP H _ Hq)).
  split=> //=; first by rewrite /is_perm perm_refl.
  move=> q r; rewrite !inE => /eqP-> /eqP->; rewrite /comp.
  by rewrite map_nth_self ?size_iota.
have Hsz p z : p \in ps -> size [seq nth 0%N z j | j <- p] = L by move=> Hp; rewrite size_map (perm_size (allP Ha _ Hp)).
have Hbase p : p \in ps -> perm_eq (base_copies L s [seq nth 0%N x j | j <- p]) (base_copies L s x).
  move=> Hp; rewrite /base_copies -/ps.
  have -> : [seq [seq nth 0%N [seq nth 0%N x j | j <- p] j | j <- p0] | p0 <- ps]
     = [seq [seq nth 0%N x j | j <- q] | q <- [seq comp p q | q <- ps]].
    rewrite -map_comp; apply/eq_in_map => q Hq /=.
    by rewrite (@comp_act L) //; apply: (allP Ha).
  by apply: perm_map; apply: (comp_closed Hu Ha Hc Hp).
have Hflip p : p \in ps -> base_copies L s (map flip_occ [seq nth 0%N x j | j <- p])
    = map (map flip_occ) (base_copies L s [seq nth 0%N x j | j <- p]).
  move=> Hp; rewrite /base_copies -/ps -[RHS]map_comp; apply/eq_in_map => q Hq /=.
  by rewrite (flip_take (allP Ha _ Hq)) // Hsz.
rewrite (copies_base s Hx); case E : (sy_flip s).
  have Hcl (l : seq (seq nat)) : perm_eq l (base_copies L s x) ->
      perm_eq (map (map flip_occ) (map (map flip_occ) l)) l.
    move=> Hl; rewrite (_ : map _ (map _ l) = l) //; rewrite -map_comp -[RHS]map_id.
    apply/eq_in_map => z; rewrite (perm_mem Hl) => /mapP[p Hp ->]; rewrite [LHS]/= flipK //.
    apply/allP => o /mapP[j Hj ->]; apply: (allP (Hb E)); apply: mem_nth.
    by move: Hj; rewrite (perm_mem (allP Ha _ Hp)) mem_iota Hx.
  rewrite mem_cat => /orP[/mapP[p Hp ->]|/mapP[z /mapP[p Hp ->] ->]].
    rewrite (copies_base s (Hsz p x Hp)) E; apply: perm_cat; first exact: Hbase.
    exact/perm_map/Hbase.
  rewrite (@copies_base L) ?size_map ?(perm_size (allP Ha _ Hp)) // E Hflip //.
  rewrite perm_sym perm_catC perm_sym; apply: perm_cat; first exact/perm_map/Hbase.
  by apply: perm_trans (Hbase p Hp); apply: Hcl; apply: Hbase.
by case/mapP => p Hp ->; rewrite (copies_base s (Hsz p x Hp)) E; apply: Hbase.
Qed.
