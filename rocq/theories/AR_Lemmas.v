From Verif Require Import Base Choice_Model Choice_Proofs QGPS_Model QGPS_Proofs QGPS_Group AR_Model AR_Sym AR_Proofs.
Import Num.Theory Order.TTheory.
Local Open Scope ring_scope.

Lemma sum_count (R : ringType) (T : eqType) (y : T) l : \sum_(z <- l) (z == y)%:R = (count_mem y l)%:R :> R.
Proof. by elim: l => [|z l IH]; rewrite ?big_nil // big_cons IH /= natrD. Qed.

Section Chain.
Variables (V : comRingType) (R : realFieldType) (wexp : V -> R).
Variables (D L : nat) (constrained : bool).
Variables (count_spins : nat -> seq nat) (renorm : seq nat -> nat -> seq bool).
Variables (C : Type) (c0 : C) (site : C -> seq nat -> nat -> C * seq V).
Local Notation okc := (okc D L).
Local Notation carry := (carry c0 site).
Local Notation lp_at := (lp_at D constrained count_spins renorm c0 site).
Local Notation pc := (pc wexp D constrained count_spins renorm c0 site).
Local Notation wc := (wc wexp D constrained count_spins renorm c0 site).
Hypothesis size_count : forall k, size (count_spins k) = D.
Hypothesis site_causal : forall x y i, (i < L)%N -> okc x -> okc y -> agree i x y ->
  site (carry x i) x i = site (carry y i) y i.
Hypothesis size_lp : forall x i, (i < L)%N -> okc x -> size (lp_at x i) = D.
Hypothesis alive : forall x i, (i < L)%N -> okc x ->
  (forall j, (j < i)%N -> nth 0 (pc x j) (nth 0%N x j) != 0) -> \sum_(u <- wc x i) u != 0.
Hypothesis HD : (0 < D)%N.
Local Notation ssites := (sample_sites wexp D constrained count_spins renorm site).
Local Notation pone := (prob_one wexp D L constrained count_spins renorm c0 site).

Lemma init_mst : init_mstate D c0 = mst D constrained count_spins c0 site (nseq L 0%N) 0.
Proof. by rewrite /mst /=; case: constrained. Qed.

Lemma chain_lemma s y : group_ok L s -> (sy_flip s -> D = 2%N) -> okc y ->
  pr (sample_chain wexp D L constrained count_spins renorm c0 site s) (pred1 y)
  = prob wexp D L constrained count_spins renorm c0 site s y.
Proof.
move=> Hg Hf Hy; have [/eqP HyL HyD] := andP Hy.
rewrite pr_ex /sample_chain ex_bind.
pose f x : R := (count_mem y (sym_copies s x))%:R / (size (sym_copies s x))%:R.
pose g x : R := (count_mem x (sym_copies s y))%:R / (size (sym_copies s y))%:R.
rewrite [LHS](_ : _ = ex (ssites (iota 0 L) (nseq L 0%N, init_mstate D c0)) (fun st => f st.1)); last first.
  rewrite /ex; apply: eq_bigr => -[[x m] w] _ /=; congr (_ * _); rewrite big_map /f.
  under eq_bigr do rewrite mulrC mul1r.
  by rewrite -mulr_suml /= sum_count.
have Hfg x : okc x -> f x = g x.
  move=> /andP[/eqP HxL HxD]; rewrite /f /g (@count_copies L) // ?(@size_copies s L x y) // => Hfl.
  by move: HxD HyD; rewrite (Hf Hfl) => -> ->.
rewrite init_mst (@loop_support _ _ wexp D L constrained count_spins renorm C c0 site site_causal size_lp L f g Hfg 0 (nseq L 0%N)) //; last exact: okc0.
rewrite /prob; set T := (size _)%:R.
have -> : \sum_(z <- sym_copies s y) pone z
    = \sum_(z <- sym_copies s y) ex (ssites (iota 0 L) (nseq L 0%N, init_mstate D c0)) (fun st => (z == st.1)%:R).
  rewrite big_seq_cond [RHS]big_seq_cond; apply: eq_bigr => z /andP[Hz _].
  have [Hz1 Hz2] := copies_ok Hg HyL HyD Hf Hz.
  rewrite -(@sites_lemma _ _ wexp D L constrained count_spins renorm C c0 site) //; last by rewrite /okc Hz1 eqxx.
  by rewrite pr_ex /ex; apply: eq_bigr => a _; rewrite eq_sym.
rewrite -init_mst /ex exchange_big mulr_suml; apply: eq_bigr => a _ /=.
by rewrite -mulr_sumr sum_count mulrA.
Qed.

Lemma total_lemma : \sum_(t : L.-tuple 'I_D) pone (map val t) = 1.
Proof.
pose ys := [seq map val (tval t) | t <- enum {: L.-tuple 'I_D}].
have Hu : uniq ys.
  rewrite map_inj_uniq ?enum_uniq // => t u /= E; apply: val_inj; exact: (inj_map val_inj E).
have Hin y : (y \in ys) = okc y.
  apply/mapP/idP => [[t _ ->]|/andP[Hs Ha]].
    rewrite /okc size_map size_tuple eqxx /= all_map; apply/allP => o _; exact: ltn_ord.
  have Ht : size (pmap (@insub nat (fun o => o < D)%N [subType of 'I_D]) y) == L.
    by rewrite size_pmap_sub -(eqP Hs) -all_count.
  exists (Tuple Ht); first by rewrite mem_enum.
  rewrite /= pmap_filter; last exact: insubK.
  by rewrite -{1}[y]filter_predT; apply: eq_in_filter => o Ho /=; rewrite isSome_insub (allP Ha).
rewrite -(@loop_total _ _ wexp D L constrained count_spins renorm C c0 site site_causal size_lp L HD 0 (nseq L 0%N)) //; last exact: okc0.
rewrite -init_mst.
have -> : pr (ssites (iota 0 L) (nseq L 0%N, init_mstate D c0)) (fun st => okc st.1)
   = pr (ssites (iota 0 L) (nseq L 0%N, init_mstate D c0)) (fun st => st.1 \in ys).
  by rewrite /pr; apply: eq_bigl => a; rewrite Hin.
rewrite -pr_partition // big_map -big_enum /=; apply: eq_bigr => t _.
rewrite -(@sites_lemma _ _ wexp D L constrained count_spins renorm C c0 site) //.
by rewrite -Hin; apply/mapP; exists t; rewrite // mem_enum.
Qed.
End Chain.
