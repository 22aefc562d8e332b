(* C112: the models of the ARGPS scripts have the symmetries asked for in the configuration *)
From Coq Require Import String Ascii Reals.
From Verif Require Import Base Rstruct QGPS_Model QGPS_Proofs QGPS_Group AR_Model AR_Phase_Model Argps_Model.
Import Num.Theory Order.TTheory.
Local Open Scope ring_scope.
Local Notation RR := R_realFieldType.

(* the words of a comma separated list *)
Fixpoint no_comma (s : string) : bool := if s is String c s' then ~~ Ascii.eqb c "," && no_comma s' else true.
Theorem C112_split s : String.concat "," (split_comma s) = s /\ all no_comma (split_comma s).
Proof.
have H0 t : split_comma t <> [::] by elim: t => //= c t; case: Ascii.eqb => //; case: (split_comma t).
elim: s => [//|c s [IH1 IH2]] /=; case E : (Ascii.eqb c ",").
  move/Ascii.eqb_spec: E => ->; have := H0 s; case: (split_comma s) IH1 IH2 => [//|w ws] IH1 IH2 _ /=.
  by split=> //; rewrite -IH1.
case: (split_comma s) IH1 IH2 (H0 s) => [//|w ws] IH1 IH2 _; split; last by move: IH2; rewrite /= E.
by rewrite -IH1; case: ws {IH1 IH2} => [//|v ws].
Qed.

(* the image of a configuration under a permutation *)
Definition image (p : seq nat) (x : seq int) : seq int := [seq nth 0 x j | j <- p].
(* a non-empty finite set of permutations closed under composition *)
Definition perm_group (L : nat) (ps : seq (seq nat)) : Prop :=
  [/\ uniq ps, (forall p, p \in ps -> perm_eq p (iota 0 L)) &
      forall p q, p \in ps -> q \in ps -> [seq nth 0%N p j | j <- q] \in ps].
Definition graph_ok (L : nat) (g : graph) : Prop :=
  [/\ perm_group L (g_aut g), perm_group L (g_trans g), perm_group L (g_point g),
      {subset g_trans g <= g_aut g} & {subset g_point g <= g_aut g}].
(* a configuration of L spins and the numbering of their local states *)
Definition spins (L : nat) (x : seq int) : Prop := size x = L /\ all (fun o => (o == 1) || (o == -1)) x.
Definition index_ok (to_index : int -> nat) : Prop := (to_index (- 1)%R <= 1)%N /\ to_index 1%R = (1 - to_index (- 1)%R)%N.
(* a group asked for in the configuration *)
Definition asked (which opt : string) : Prop :=
  let groups := split_comma opt in
  List.In which groups \/ (exists l, groups = "all"%string :: l \/ groups = "automorphisms"%string :: l).

Lemma requestedP which opt : asked which opt <-> requested which (split_comma opt) = true.
Proof.
rewrite /asked /requested /listed; case: (split_comma opt) => [|w l] /=.
  by split=> [[//|[l [//|//]]]|//].
split=> [[[->|H]|[l' [[-> _]|[-> _]]]]|].
- by rewrite String.eqb_refl.
- suff -> : has (String.eqb which) l by rewrite !orbT.
  elim: l H => //= v l IH [->|/IH ->]; rewrite ?orbT // String.eqb_refl //.
- by rewrite String.eqb_refl orbT.
- by rewrite String.eqb_refl !orbT.
case/orP => [/orP[/orP[/String.eqb_spec->|H]|/String.eqb_spec->]|/String.eqb_spec->]; [by left; left| |by right; exists l; left|by right; exists l; right].
left; right; elim: l H => //= v l IH /orP[/String.eqb_spec->|/IH]; by [left|right].
Qed.

Section Copies.
Variables (to_index : int -> nat) (L : nat).
Hypothesis Hi : index_ok to_index.
Lemma to_index_opp o : (o == 1) || (o == -1) -> to_index (0 - o) = flip_occ (to_index o).
Proof. by case: Hi => H1 H2; rewrite /flip_occ => /orP[]/eqP->; rewrite sub0r ?opprK H2 ?subKn. Qed.
Lemma to_index_lt o : (o == 1) || (o == -1) -> (to_index o < 2)%N.
Proof. by case: Hi => H1 H2 => /orP[]/eqP->; rewrite ?H2 ltnS ?leq_subr. Qed.
Lemma index_all x : spins L x -> size (map to_index x) = L /\ all (fun o => (o < 2)%N) (map to_index x).
Proof.
case=> Hs Ha; rewrite size_map Hs; split=> //; apply/allP => o /mapP[v Hv ->].
exact: to_index_lt (allP Ha v Hv).
Qed.
Definition perms_ok (s : symset) := if sy_perms s is Some ps then forall p, p \in ps -> perm_eq p (iota 0 L) else True.
Lemma image_index p x : size x = L -> perm_eq p (iota 0 L) -> map to_index (image p x) = [seq nth 0%N (map to_index x) j | j <- p].
Proof.
move=> Hx Hp; rewrite /image -map_comp; apply/eq_in_map => j Hj /=.
by rewrite (nth_map 0) // Hx; move: Hj; rewrite (perm_mem Hp) mem_iota.
Qed.
Lemma image_spins p x : spins L x -> perm_eq p (iota 0 L) -> spins L (image p x).
Proof.
case=> Hs Ha Hp; split; first by rewrite size_map (seq.perm_size Hp) size_iota.
apply/allP => o /mapP[j Hj ->]; apply: (allP Ha); apply: mem_nth; rewrite Hs.
by move: Hj; rewrite (perm_mem Hp) mem_iota.
Qed.
Lemma ar_copies s x : perms_ok s -> spins L x -> [seq map to_index y | y <- symmetries 0 s x] = sym_copies s (map to_index x).
Proof.
move=> Hp Hx; have [Hs Ha] := Hx; rewrite /symmetries /sym_copies.
set o1 := (X in if _ then X ++ _ else X); set o2 := (X in _ = if _ then X ++ _ else X); rewrite -/o1 -/o2.
have E : [seq map to_index y | y <- o1] = o2.
  rewrite /o1 /o2; move: Hp; rewrite /perms_ok; case: (sy_perms s) => [ps|] // Hp.
  by rewrite -map_comp; apply/eq_in_map => p Hpp /=; apply: image_index; [|apply: Hp].
case: (sy_flip s) => //; rewrite map_cat E; congr (_ ++ _); rewrite -E -!map_comp; apply/eq_in_map => y Hy /=.
rewrite -!map_comp; apply/eq_in_map => o Ho /=; apply: to_index_opp.
suff: spins L y by case=> _ /allP; apply.
move: Hy Hp; rewrite /o1 /perms_ok; case: (sy_perms s) => [ps /mapP[p Hp ->] H|]; last by rewrite inE => /eqP->.
by apply: image_spins => //; apply: H.
Qed.
Lemma gps_copies s x : perms_ok s -> size x = L -> (sy_flip s -> all (fun o => (o < 2)%N) x) ->
  [seq map absz y | y <- symmetries 1 s [seq o%:Z | o <- x]] = sym_copies s x.
Proof.
move=> Hp Hs Ha; rewrite /symmetries /sym_copies.
set o1 := (X in if _ then X ++ _ else X); set o2 := (X in _ = if _ then X ++ _ else X); rewrite -/o1 -/o2.
have E0 : o1 = [seq [seq o%:Z | o <- y] | y <- o2].
  rewrite /o1 /o2; move: Hp; rewrite /perms_ok; case: (sy_perms s) => [ps|] // Hp.
  rewrite -map_comp; apply/eq_in_map => p Hpp /=; rewrite -map_comp; apply/eq_in_map => j Hj /=.
  by rewrite (nth_map 0%N) // Hs; move: Hj; rewrite (perm_mem (Hp p Hpp)) mem_iota.
have E : [seq map absz y | y <- o1] = o2.
  rewrite E0 -map_comp -[RHS]map_id; apply/eq_in_map => y _ /=; rewrite -map_comp -[RHS]map_id.
  exact/eq_in_map.
case: (sy_flip s) Ha => // /(_ isT) Ha; rewrite map_cat E; congr (_ ++ _); rewrite E0 -!map_comp; apply/eq_in_map => y Hy /=.
rewrite -!map_comp; apply/eq_in_map => o Ho /=.
suff : (o < 2)%N by case: o {Ho} => [|[]].
move: Hy Hp; rewrite /o2 /perms_ok; case: (sy_perms s) => [ps /mapP[p Hp E2] H|]; last by rewrite inE => /eqP E2 _; move: Ho; rewrite E2; apply: (allP Ha).
move: Ho; rewrite E2 => /mapP[j Hj ->]; apply: (allP Ha); apply: mem_nth; rewrite Hs.
by move: Hj; rewrite (perm_mem (H p Hp)) mem_iota.
Qed.
End Copies.

Section Claim.
Variables (V : fieldType) (wexp im : V -> RR) (carg : RR * RR -> RR) (to_index : int -> nat).
Variables (D L : nat) (constrained : bool) (count_spins : nat -> seq nat) (renorm : seq nat -> nat -> seq bool).
Variable eps : nat -> nat -> nat -> V.
Hypothesis Hi : index_ok to_index.
Notation value := (value wexp im carg to_index D L constrained count_spins renorm eps).

Definition sym_of (m : machine) : symset := match m with MGPS _ _ s | MARFull _ _ s _ | MARPlaq _ _ s _ _ _ => s end.
Definition centre_ok (m : machine) : bool := match m with MGPS _ c _ => c == 1 | MARFull _ c _ _ | MARPlaq _ c _ _ _ _ => c == 0 end.
Lemma value_copies m x y : centre_ok m -> perms_ok L (sym_of m) -> spins L x -> spins L y ->
  perm_eq (sym_copies (sym_of m) (map to_index y)) (sym_copies (sym_of m) (map to_index x)) -> value m y = value m x.
Proof.
move=> Hc Hp Hx Hy Hxy.
have ARc md M n s : perms_ok L s -> perm_eq (sym_copies s (map to_index y)) (sym_copies s (map to_index x)) ->
    ar_value wexp im carg to_index D L constrained count_spins renorm md M n 0 s y
    = ar_value wexp im carg to_index D L constrained count_spins renorm md M n 0 s x.
  move=> Hs Hyx; rewrite /ar_value (ar_copies Hi Hs Hx) (ar_copies Hi Hs Hy) !(perm_big _ Hyx) /=; by rewrite (seq.perm_size Hyx).
case: m Hc Hp Hxy => [M c s|M c s n|M c s n pl mk] /= /eqP-> Hp Hxy.
- congr inl; have [Hx1 Hx2] := index_all Hi Hx; have [Hy1 Hy2] := index_all Hi Hy.
  have G z : spins L z -> gps_value to_index eps M 1 s z = \sum_(u <- sym_copies s (map to_index z)) \sum_(v <- site_prod eps M u) v.
    move=> Hz; have [Hz1 Hz2] := index_all Hi Hz; rewrite -(gps_copies Hp Hz1 (fun _ => Hz2)) /gps_value /default_out -map_comp.
    by rewrite !big_map.
  by rewrite !G // (perm_big _ Hxy).
- by congr inr; apply: ARc.
- by congr inr; apply: ARc.
Qed.

Lemma group_of_ok g t p f : graph_ok L g -> let s := SymSet (sym_perms t p g) f in
  perms_ok L s /\ is_true (if sy_perms s is Some ps then
     [&& uniq ps, all (is_perm L) ps & all (fun p => all (fun q => comp p q \in ps) ps) ps] else true).
Proof.
case=> Ga Gt Gp _ _ /=.
have G ps : perm_group L ps -> (forall p, p \in ps -> perm_eq p (iota 0 L)) /\
    [&& uniq ps, all (is_perm L) ps & all (fun p => all (fun q => comp p q \in ps) ps) ps].
  case=> Hu Hp Hc; split=> //; rewrite Hu /=; apply/andP; split; first exact/allP.
  by apply/allP => a Ha; apply/allP => b Hb; apply: Hc.
by rewrite /perms_ok /sym_perms /=; case: t; case: p => //=; apply: G.
Qed.

Lemma symmetric_value g t p f m x : graph_ok L g -> sym_of m = SymSet (sym_perms t p g) f -> centre_ok m -> spins L x ->
  [/\ t -> forall q, q \in g_trans g -> value m (image q x) = value m x,
      p -> forall q, q \in g_point g -> value m (image q x) = value m x,
      t -> p -> forall q, q \in g_aut g -> value m (image q x) = value m x &
      f -> value m (map -%R x) = value m x].
Proof.
move=> Hg Hm Hc Hx; have [Hp Hgr] := group_of_ok t p f Hg; rewrite -Hm in Hp Hgr.
have [Hx1 Hx2] := index_all Hi Hx.
have A q : (if sym_perms t p g is Some ps then q \in ps else false) -> value m (image q x) = value m x.
  move=> Hq; have Hq' : perm_eq q (iota 0 L).
    by move: Hp Hq; rewrite /perms_ok Hm /=; case: (sym_perms t p g) => // ps; apply.
  apply: value_copies => //; first exact: image_spins.
  apply: (group_lemma Hx1 (fun _ => Hx2) Hgr); rewrite (image_index _ _ Hq') //; last by case: Hx.
  rewrite /sym_copies Hm /=; case: (sym_perms t p g) Hq => // ps Hq.
  by case: f {Hm}; rewrite ?mem_cat (map_f (fun p => [seq nth 0%N (map to_index x) j | j <- p]) Hq).
have [Ga Gt Gp St Sp] := Hg.
split.
- move=> Et q Hq; apply: A; move: Et; rewrite /sym_perms; case: (t) => // _; case: (p) => //=; exact: St.
- move=> Ep q Hq; apply: A; move: Ep; rewrite /sym_perms; case: (p) => // _; case: (t) => //=; exact: Sp.
- by move=> Et Ep q Hq; apply: A; rewrite /sym_perms Et Ep.
move=> Ef; have Hx' : spins L (map -%R x).
  case: Hx => Hs Ha; rewrite /spins size_map; split=> //; apply/allP => o /mapP[v Hv ->].
  by case/orP: (allP Ha v Hv) => /eqP->; rewrite ?opprK ?eqxx ?orbT.
apply: value_copies => //.
have Ex : map to_index (map -%R x) = map flip_occ (map to_index x).
  rewrite -!map_comp; apply/eq_in_map => o Ho /=; rewrite -(to_index_opp Hi) ?sub0r //.
  by case: Hx => _ /allP; apply.
rewrite Ex; set y := map to_index x; set s := sym_of m.
(* the copies of the flipped configuration are the flipped copies *)
rewrite (copies_base s (L := L)) ?size_map ?(copies_base s (L := L) (x := y)) //; last by case: Hx.
have Efl : base_copies L s (map flip_occ y) = map (map flip_occ) (base_copies L s y).
  rewrite /base_copies -map_comp; apply/eq_in_map => q Hq /=; apply: (@flip_take _ _ L) => //.
  move: Hq Hp; rewrite /perms_ok -/s; case: (sy_perms s) => [qs Hq H|]; first exact: H.
  by rewrite inE => /eqP->; rewrite /is_perm perm_refl.
have Efl2 : map (map flip_occ) (map (map flip_occ) (base_copies L s y)) = base_copies L s y.
  rewrite -map_comp -[RHS]map_id; apply/eq_in_map => z /mapP[q Hq ->] /=; rewrite flipK //.
  apply/allP => o /mapP[j Hj ->]; apply: (allP Hx2); apply: mem_nth; rewrite Hx1.
  move: Hq Hp Hj; rewrite /perms_ok -/s; case: (sy_perms s) => [qs Hq H|]; first by rewrite (perm_mem (H q Hq)) mem_iota.
  by rewrite inE => /eqP-> _; rewrite mem_iota.
have Es : sy_flip s = true by rewrite /s Hm.
by rewrite Es Efl Efl2; apply/permPl; apply: perm_catC.
Qed.

(* every model but FilterGPS on a system of spins with a graph *)
Theorem C112_partial name opt system M g chain m x : graph_ok L g -> name <> "FilterGPS"%string ->
  get_model name opt system M L (Some g) chain = Some m -> spins L x ->
  [/\ asked "translations" opt -> forall p, p \in g_trans g -> value m (image p x) = value m x,
      asked "point-symmetries" opt -> forall p, p \in g_point g -> value m (image p x) = value m x,
      asked "translations" opt -> asked "point-symmetries" opt -> forall p, p \in g_aut g -> value m (image p x) = value m x &
      asked "spin-flip" opt -> value m (map -%R x) = value m x].
Proof.
move=> Hg Hn Hm Hx; move: Hm; rewrite /get_model; case: ifP => // Hl.
set s := SymSet _ _ => Hm.
have [Hs Hc] : sym_of m = s /\ centre_ok m.
  move: Hm; rewrite /inv_centre; case G : (is_gps name) => /=; last by case: ifP => _ [<-].
  suff -> : substring_of "Filter" name = false by case=> <-.
  move: G; rewrite /is_gps => /orP[/String.eqb_spec->|/String.eqb_spec E] //.
have [S1 S2 S3 S4] := symmetric_value Hg Hs Hc Hx.
by split; move=> A; try (move=> B); [apply: S1|apply: S2|apply: S3|apply: S4]; apply/requestedP.
Qed.

(* FilterGPS: the translations whatever the configuration asks for, also of electrons *)
Theorem C112_filter_partial opt system M g chain m x : (if g is Some gr then graph_ok L gr else True) -> graph_ok L chain ->
  get_model "FilterGPS" opt system M L g chain = Some m -> size x = L ->
  exists gr, (gr = chain \/ g = Some gr) /\ forall p, p \in g_trans gr -> value m (image p x) = value m x.
Proof using eps.
move=> Hg Hch Hm Hx.
have [gr [Hg1 [Hgr Em]]] : exists gr, (gr = chain \/ g = Some gr) /\ graph_ok L gr /\
    m = MGPS M 1 (SymSet (Some (g_trans gr)) false).
  move: Hm; rewrite /get_model /=; case: String.eqb; first by case=> <-; exists chain; split=> //; left.
  by case: g Hg => // gr Hgr [<-]; exists gr; split=> //; right.
exists gr; split=> // p Hp; rewrite Em /=; congr inl.
set s := SymSet _ _; have [Hs Hgg] := group_of_ok true false false Hgr.
have Hpp : perm_eq p (iota 0 L) by apply: Hs.
have G z : size z = L -> gps_value to_index eps M 1 s z = \sum_(u <- sym_copies s (map to_index z)) \sum_(v <- site_prod eps M u) v.
  move=> Hz; have Hz1 : size (map to_index z) = L by rewrite size_map.
  rewrite -(@gps_copies L s) // /gps_value /default_out -map_comp.
  by rewrite !big_map.
have Hx1 : size (map to_index x) = L by rewrite size_map.
rewrite !G //; last by rewrite size_map (seq.perm_size Hpp) size_iota.
have F : sy_flip s -> all (fun o => (o < 2)%N) (map to_index x) by [].
apply: perm_big; apply: (@group_lemma L s _ _ Hx1 F Hgg).
by rewrite (image_index _ Hx Hpp); apply: (map_f (fun p => [seq nth 0%N (map to_index x) j | j <- p]) Hp).
Qed.
End Claim.

(* the second function: the values and sites it returns are entries of the copies *)
Theorem C112_inverse L centre s x sites : (if sy_perms s is Some ps then forall p, p \in ps -> perm_eq p (iota 0 L) else True) ->
  size x = L -> all (fun i => (i < L)%N) sites ->
  let inv := inv_symmetries centre s [seq nth 0 x i | i <- sites] sites in
  size inv = size (symmetries centre s x) /\
  [seq [seq nth 0 c.1 i | i <- c.2.2] | c <- zip (symmetries centre s x) inv] = map fst inv.
Proof.
move=> Hp Hx Hsites; rewrite /inv_symmetries /symmetries.
set S := (X in if _ then [seq (_, ss) | ss <- X] ++ _ else _); set O := (X in if _ then X ++ _ else X).
set occs := [seq nth 0 x i | i <- sites].
have [E1 [E2 E3]] : size S = size O /\ [seq [seq nth 0 c.1 i | i <- c.2] | c <- zip O S] = nseq (size S) occs
    /\ all2 (fun y ss => all (fun i => i < size y)%N ss) O S.
  rewrite /S /O; move: Hp; case: (sy_perms s) => [ps|_]; last first.
    by rewrite /= andbT; split=> //; split=> //; rewrite Hx.
  elim: ps => [//|p ps IH] Hp; have [I1 [I2 I3]] := IH (fun q Hq => Hp q (mem_behead (s := p :: ps) Hq)).
  have Hpp := Hp p (mem_head _ _).
  have Hi i : i \in sites -> (i < L)%N by move=> Hi; apply: (allP Hsites).
  have Hin i : (i < L)%N -> (index i p < size p)%N by move=> Hl; rewrite index_mem (perm_mem Hpp) mem_iota.
  rewrite /= I1; split=> //; rewrite /= -I1 I2; split.
    congr cons; rewrite -map_comp; apply/eq_in_map => i Hii /=; rewrite (@inv_permE L) ?Hi //.
    by rewrite (nth_map 0%N) ?Hin ?Hi // nth_index // (perm_mem Hpp) mem_iota Hi.
  rewrite I3 andbT; apply/allP => j /mapP[i Hii ->]; rewrite size_map (@inv_permE L) ?Hi //; exact/Hin/Hi.
rewrite -/S -/O; move: S O E1 E2 E3 => S O E1 E2 E3.
have K1 (o : seq int) : [seq p.1 | p <- [seq (o, ss) | ss <- S]] = nseq (size S) o by elim: (S) => //= a l ->.
have K2 : [seq [seq nth 0 c.1 i | i <- c.2.2] | c <- zip O [seq (occs, ss) | ss <- S]] = nseq (size S) occs.
  rewrite -E2; elim: (O) (S) {E1 E2 E3 K1} => [|y l IH] [|ss l'] //=; by rewrite IH.
case: (sy_flip s); rewrite ?size_cat !size_map E1 //; split=> //; last by rewrite K1.
rewrite zip_cat ?size_map // !map_cat K2 !K1; congr (_ ++ _).
transitivity [seq [seq centre - o | o <- u] | u <- nseq (size S) occs]; last by elim: (size S) => //= n ->.
rewrite -E2; elim: (O) (S) {E1 E2 K1 K2} E3 => [|y l IH] [|ss l'] //= /andP[Hy Hl]; rewrite IH //; congr cons.
rewrite -map_comp; apply/eq_in_map => i Hii /=; rewrite (nth_map 0) //; exact: (allP Hy).
Qed.

(* FilterGPS ignores the other symmetries asked for: two spins, one of them flipped by the amplitude *)
Definition ex_graph : graph := Graph [:: [:: 0; 1]; [:: 1; 0]]%N [:: [:: 0; 1]; [:: 1; 0]]%N [:: [:: 0; 1]; [:: 1; 0]]%N false.
Lemma ex_graph_ok : graph_ok 2 ex_graph.
Proof.
have G : perm_group 2 [:: [:: 0; 1]; [:: 1; 0]]%N.
  split=> // [p|p q]; rewrite !inE; first by case/orP => /eqP->.
  by case/orP => /eqP->; case/orP => /eqP->.
by split.
Qed.
Theorem C112_filter_refuted : exists (L M : nat) (g : graph) (m : machine) (x : seq int), 
  [/\ graph_ok L g, asked "spin-flip" "spin-flip", spins L x,
      get_model "FilterGPS" "spin-flip" "Heisenberg2d" M L (Some g) g = Some m &
      forall (wexp im : RR -> RR) carg to_index D c cs rn, index_ok to_index ->
        exists eps, value wexp im carg to_index D L c cs rn eps m (map -%R x) <> value wexp im carg to_index D L c cs rn eps m x].
Proof.
exists 2%N, 1%N, ex_graph; eexists; exists [:: 1; 1]; split; [exact: ex_graph_ok|by left; left|by []|by []|].
move=> wexp im carg to_index D c cs rn [H1 H2].
exists (fun o _ _ => (o != to_index 1)%:R); rewrite /value => -[].
rewrite /gps_value /default_out /= !big_cons !big_nil /= !big_ord_recl !big_ord0 /= eqxx /=.
have -> : (to_index (-1) != to_index 1) = true by rewrite H2; case: (to_index (-1)) H1 => [|[|]].
by rewrite !mul0r !mulr1 !addr0 => /eqP; rewrite -mulr2n pnatr_eq0.
Qed.

(* ARFilterGPS with spin flip and translations on two spins *)
Example C112_example (wexp im : RR -> RR) carg eps x :
  let v := value wexp im carg (fun o : int => (o == 1 : nat)) 2 2 true count_spins2 (renorm2 2) eps in
  forall m, get_model "ARFilterGPS" "translations,spin-flip" "Heisenberg2d" 3 2 (Some ex_graph) ex_graph = Some m ->
  spins 2 x -> v m (map -%R x) = v m x /\ v m (rev x) = v m x.
Proof.
move=> v m Hm Hx.
have Hi : index_ok (fun o : int => (o == 1 : nat)) by [].
have Hn : "ARFilterGPS"%string <> "FilterGPS"%string by [].
have [S1 _ _ S4] := C112_partial wexp im carg 2 true count_spins2 (renorm2 2) eps Hi ex_graph_ok Hn Hm Hx.
split; first by apply: S4; left; right; left.
have E : image [:: 1; 0]%N x = rev x by case: Hx => /eqP; case: (x) => [|a [|b []]].
by rewrite -E; apply: S1 => //; left; left.
Qed.
