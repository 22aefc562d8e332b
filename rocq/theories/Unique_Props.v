(* C43: the unique samples and their weights *)
From Verif Require Import Base Unique_Model.
Import Num.Theory Order.TTheory.
Local Open Scope ring_scope.

(* Specification: [cons] is the sequence of raw samples the state uses.  It is a prefix of the
   stream (m whole batches and k samples of the next one); it is cut as soon as it contains n
   distinct samples, otherwise it ends with the last allowed batch. *)
Definition consumed (T : eqType) (n : nat) (max_steps : option nat) (batches : seq (seq (seq T))) (cons : seq T) : Prop :=
  exists m k, let bs := map (@flatten T) batches in
  [/\ cons = flatten (take m bs) ++ take k (nth [::] bs m),
      (m < size bs)%N && (k <= size (nth [::] bs m))%N,
      (forall j, (j < size cons)%N -> (size (undup (take j cons)) < n)%N) &
      size (undup cons) = n \/ (max_steps = Some m.+1 /\ k = size (nth [::] bs m))].

Section Dict.
Variable T : eqType.
Implicit Types (d : seq (T * nat)) (l : seq T).

Definition fill d l := foldl (@dict_incr T) d l.
(* d represents the multiset l *)
Definition counts_of d l : Prop :=
  [/\ uniq (map fst d), map fst d =i l & forall p, p \in d -> p.2 = count_mem p.1 l].

Lemma dict_incr_keys d s : map fst (dict_incr d s) = if s \in map fst d then map fst d else rcons (map fst d) s.
Proof.
elim: d => [|[a c] d IH] //=; rewrite inE [s == a]eq_sym.
case: (altP (a =P s)) => [->|Hne] /=; first by [].
by rewrite IH; case: (s \in _).
Qed.

Lemma dict_incr_in d s p : uniq (map fst d) -> p \in dict_incr d s ->
  (p.1 == s) && (p.2 == (if s \in map fst d then (nth 0%N (map snd d) (index s (map fst d))).+1 else 1%N)) || (p.1 != s) && (p \in d).
Proof.
elim: d => [|[a c] d IH] /=; first by rewrite inE => _ /eqP->; rewrite /= !eqxx.
case/andP=> Ha Hu.
case: (altP (a =P s)) => [<-|Hne] /=.
  rewrite !inE eqxx; case/orP => [/eqP->|Hp] /=; first by rewrite !eqxx.
  case: (altP (p.1 =P a)) => [E|Hn] /=; last by rewrite Hp orbT.
  by move: Ha; rewrite -E; rewrite map_f.
rewrite !inE [s == a]eq_sym (negbTE Hne) /=; case/orP => [/eqP->|Hp] /=.
  by rewrite Hne eqxx orbT.
have := IH Hu Hp.
case: (altP (p.1 =P s)) => [E|Hn] /=; first by move->.
by move->; rewrite orbT.
Qed.

Lemma counts_of_incr d l s : counts_of d l -> counts_of (dict_incr d s) (rcons l s).
Proof.
case=> Hu Hk Hc; split.
- rewrite dict_incr_keys; case: ifP => // Hn; by rewrite rcons_uniq Hn.
- move=> x; rewrite dict_incr_keys mem_rcons inE; case: ifP => Hs.
    by rewrite Hk; case: (altP (x =P s)) => [->|] //; rewrite -Hk Hs.
  by rewrite mem_rcons inE Hk.
move=> p Hp; have := dict_incr_in Hu Hp.
rewrite -cats1 count_cat /= addn0.
case: (altP (p.1 =P s)) => [E|Hn] /=; last by rewrite eq_sym (negbTE Hn) addn0; exact: Hc.
rewrite orbF E eqxx => /eqP->; case: ifP => Hs; last first.
  have/count_memPn->// : s \notin l by rewrite -Hk Hs.
have Hi : (index s (map fst d) < size d)%N by rewrite -(size_map fst) index_mem.
have Hin : nth (s, 0%N) d (index s (map fst d)) \in d by apply: mem_nth.
have := Hc _ Hin.
rewrite -(nth_map (s, 0%N) 0%N snd) // => ->.
by rewrite -(nth_map (s, 0%N) s fst) // nth_index // addn1.
Qed.

Lemma counts_of_fill d l l' : counts_of d l -> counts_of (fill d l') (l ++ l').
Proof.
elim: l' d l => [|s l' IH] d l H; first by rewrite cats0.
by rewrite -cat_rcons; apply: IH; apply: counts_of_incr.
Qed.

Lemma size_counts d l : counts_of d l -> size d = size (undup l).
Proof.
case=> Hu Hk _; rewrite -(size_map fst); apply/perm_size/uniq_perm => //; first exact: undup_uniq.
by move=> x; rewrite mem_undup Hk.
Qed.

(* the loop over one batch consumes a prefix *)
Lemma add_batch_spec n d l l' : counts_of d l -> (size d < n)%N ->
  exists k, [/\ (k <= size l')%N, add_batch n d l' = fill d (take k l'),
    (forall j, (j < k)%N -> (size (undup (l ++ take j l')) < n)%N) &
    (size (undup (l ++ take k l')) = n) \/ (k = size l' /\ (size (undup (l ++ l')) < n)%N)].
Proof.
elim: l' d l => [|s l' IH] d l H Hn /=.
  exists 0%N; split=> //; right; split=> //; by rewrite cats0 -(size_counts H).
have H' := counts_of_incr s H.
case: (leqP n (size (dict_incr d s))) => Hs.
  exists 1%N; rewrite /= take0 /=; split=> //.
    by case=> // _; rewrite cats0 -(size_counts H).
  left; rewrite cats1 -(size_counts H'); apply/eqP; rewrite eqn_leq Hs andbT.
  rewrite -(size_map fst) dict_incr_keys; case: ifP => _; first by rewrite size_map ltnW.
  by rewrite size_rcons size_map.
have [k [Hk E Hj Hend]] := IH _ _ H' Hs.
exists k.+1; split=> //=.
- case=> [|j] Hjk /=; first by rewrite cats0 -(size_counts H).
  by rewrite -cat_rcons; apply: Hj.
- by rewrite -cat_rcons; case: Hend => [->|[-> Hlt]]; [left | right; split=> //; rewrite -cat_rcons].
Qed.

Lemma counts_nil : counts_of [::] [::].
Proof. by split. Qed.

Lemma sample_loop_spec n max_steps d pre count batches d' last :
  counts_of d pre -> (forall j, (j <= size pre)%N -> (size (undup (take j pre)) < n)%N) ->
  ~~ max_reached max_steps count ->
  sample_loop n max_steps d count batches = Some (d', last) ->
  exists m k, let bs := map (@flatten T) batches in let cons := flatten (take m bs) ++ take k (nth [::] bs m) in
  [/\ [/\ (m < size bs)%N, last = nth [::] bs m & (k <= size (nth [::] bs m))%N],
      counts_of d' (pre ++ cons),
      (forall j, (j < size pre + size cons)%N -> (size (undup (take j (pre ++ cons))) < n)%N) &
      size (undup (pre ++ cons)) = n \/ (max_steps = Some (count + m).+1 /\ k = size (nth [::] bs m))].
Proof.
elim: batches d pre count => [|b batches IH] //= d pre count H Hpre Hmax.
have Hn : (size d < n)%N by have := Hpre _ (leqnn _); rewrite take_size -(size_counts H).
have [k [Hk E Hj Hend]] := add_batch_spec (flatten b) H Hn.
have Hall : forall j, (j < size pre + size (take k (flatten b)))%N -> (size (undup (take j (pre ++ take k (flatten b)))) < n)%N.
  move=> j Hlt; rewrite take_cat; case: (ltnP j (size pre)) => Hjp; first by apply: Hpre; apply: ltnW.
  rewrite take_take; first by apply: Hj; rewrite ltn_subLR //; rewrite size_takel in Hlt.
  by rewrite size_takel // in Hlt; rewrite leq_subLR ltnW.
have Hc := counts_of_fill (take k (flatten b)) H; rewrite -E in Hc.
case: ifP => [Hstop [<- <-]|].
  exists 0%N, k; rewrite /= addn0; split=> //.
  case: Hend => [->|[Hsz Hlt]]; [by left | right; split=> //].
  move: Hstop; rewrite (size_counts Hc) Hsz take_size leqNgt Hlt orbF.
  by case: (max_steps) Hmax => //= m; rewrite -ltnNge => H1 H2; congr Some; apply/eqP; rewrite eqn_leq H1 H2.
move/negbT; rewrite negb_or -ltnNge => /andP[Hm Hlt] Hloop.
have Ek : k = size (flatten b).
  case: Hend => [Hs|[]] //; by move: Hlt; rewrite (size_counts Hc) Hs ltnn.
rewrite Ek take_size in Hc Hall.
have Hpre' : forall j, (j <= size (pre ++ flatten b))%N -> (size (undup (take j (pre ++ flatten b))) < n)%N.
  move=> j; rewrite leq_eqVlt => /orP[/eqP->|Hlt']; first by rewrite take_size -(size_counts Hc).
  by apply: Hall; rewrite -size_cat.
have [m [k' /= [[H1 H2 H2'] H3 H4 H5]]] := IH _ _ _ Hc Hpre' Hm Hloop.
exists m.+1, k'; rewrite /= -!catA in H3 H4 H5 *; split=> //.
- by move=> j Hjj; apply: H4; move: Hjj; rewrite !size_cat !addnA.
-  case: H5 => [->|[-> ->]]; [by left | right; split=> //; by rewrite addSnnS].
Qed.
End Dict.

Section Weights.
Variables (T : eqType) (C : numFieldType) (per_rank n_nodes : nat) (max_steps : option nat).
Let n := (per_rank * n_nodes)%N.

(* all (sample, weight) pairs of all ranks *)
Definition all_pairs (ranks : seq (seq T * seq C)) : seq (T * C) := flatten [seq zip r.1 r.2 | r <- ranks].

Lemma weighted_pairs ranks (f : T -> C) : weighted ranks f = \sum_(p <- all_pairs ranks) p.2 * f p.1.
Proof. by rewrite /weighted /all_pairs big_flatten big_map. Qed.

Lemma flatten_slices (A : Type) (l : seq A) k : flatten [seq rank_slice per_rank l r | r <- iota 0 k] = take (k * per_rank) l.
Proof.
elim: k => [|k IH]; first by rewrite take0.
rewrite -addn1 iotaD map_cat flatten_cat IH /= cats0 add0n /rank_slice mulnDl mul1n.
by rewrite takeD.
Qed.

Lemma zip_slice (A B : Type) (l : seq A) (l' : seq B) r : size l = size l' ->
  zip (rank_slice per_rank l r) (rank_slice per_rank l' r) = rank_slice per_rank (zip l l') r.
Proof.
move=> H; rewrite /rank_slice; move: (r * per_rank)%N => i.
elim: i l l' H => [|i IH] [|a l] [|b l'] //= [H].
  have -> : (a, b) :: zip l l' = zip (a :: l) (b :: l') by [].
  by elim: (per_rank) (a :: l) (b :: l') => [|m IHm] [|a' k] [|b' k'] //=; rewrite IHm.
by apply: IH.
Qed.

Lemma sum_counts (d : seq (T * nat)) (l : seq T) (f : T -> C) : counts_of d l ->
  \sum_(p <- d) (p.2)%:R * f p.1 = \sum_(s <- l) f s.
Proof.
case=> Hu Hk Hc; rewrite -(big_undup_iterop_count _ l) /=.
rewrite (eq_big_seq (fun p => f p.1 *+ count_mem p.1 l)) => [|p Hp]; last by rewrite mulr_natl (Hc p Hp).
rewrite -(big_map fst xpredT (fun x => f x *+ count_mem x l)); apply: perm_big.
by apply: uniq_perm => //; [exact: undup_uniq | move=> x; rewrite mem_undup Hk].
Qed.

Lemma zip_map_r (A B D : Type) (g : B -> D) (l : seq A) (l' : seq B) :
  zip l (map g l') = [seq (p.1, g p.2) | p <- zip l l'].
Proof. by elim: l l' => [|a l IH] [|b l'] //=; rewrite IH. Qed.

Lemma map_slice (A B : Type) (g : A -> B) (l : seq A) r : map g (rank_slice per_rank l r) = rank_slice per_rank (map g l) r.
Proof. by rewrite /rank_slice map_take map_drop. Qed.

(* what every rank returns, put together: the dictionary entries divided by the number of
   samples, padded with weight 0 *)
Lemma all_pairs_swc (batches : seq (seq (seq T))) (ranks : seq (seq T * seq C)) :
  samples_with_counts C per_rank n_nodes max_steps batches = Some ranks -> (0 < n)%N ->
  exists d s0 cons, [/\ consumed n max_steps batches cons, counts_of d cons, (0 < size cons)%N &
   all_pairs ranks = [seq (p.1, (p.2)%:R / (size cons)%:R) | p <- d] ++ nseq (n - size d) (s0, 0)].
Proof.
rewrite /samples_with_counts /unique_and_counts -/n => H Hn.
case Em : (max_reached max_steps 0) H => //.
case El : (sample_loop n max_steps [::] 0 batches) => [[d [|s0 l]]|] //= [<-].
have H0 : forall j, (j <= @size T [::])%N -> (size (undup (take j [::] : seq T)) < n)%N by [].
have [m [k /= [[Hm Hl Hk] Hc Hj Hend]]] := sample_loop_spec (counts_nil T) H0 (negbT Em) El.
rewrite /= add0n in Hc Hj Hend.
set cons := (flatten _ ++ _) in Hc Hj Hend.
have Hpos : (0 < size cons)%N.
  case: Hend => [Hs|[_ Hk']]; first by rewrite (leq_trans _ (size_undup cons)) // Hs.
  by rewrite /cons size_cat Hk' take_size -Hl /= addnS.
have Hsz : (size d <= n)%N.
  rewrite (size_counts Hc); case: Hend => [->//|_].
  have := Hj (size cons).-1; rewrite prednK // => /(_ (leqnn _)) Hlt.
  apply: leq_trans Hlt; rewrite -{1}(cat_take_drop (size cons).-1 cons).
  have -> : drop (size cons).-1 cons = [:: last s0 cons].
    apply: (@eq_from_nth _ s0); first by rewrite size_drop /=; lia.
    rewrite size_drop => i Hi; have -> : i = 0%N by lia.
    by rewrite nth_drop addn0 nth_last /=.
  by rewrite undup_cat /= size_cat /= addn1 ltnS size_filter count_size.
exists d, s0, cons; split=> //.
  by exists m, k; split=> //; rewrite Hm Hk.
rewrite (minn_idPl Hsz) !take_oversize ?size_map //.
set us := (_ ++ nseq _ s0); set cs := (_ ++ nseq _ 0).
have Eu : size us = size cs by rewrite !size_cat !size_map !size_nseq.
have Ec : size us = n by rewrite size_cat size_map size_nseq subnKC.
pose total : C := \sum_(q <- iota 0 n_nodes) \sum_(c <- rank_slice per_rank cs q) c.
have Et : total = (size cons)%:R.
  rewrite /total -(big_map (rank_slice per_rank cs) xpredT (fun l => \sum_(c <- l) c)) -big_flatten.
  rewrite flatten_slices mulnC -/n take_oversize -?Eu ?Ec // /cs big_cat /= big_map.
  rewrite [X in _ + X]big1_seq ?addr0; last by move=> c /=; rewrite mem_nseq => /andP[_ /eqP].
  rewrite (eq_bigr (fun p => (p.2)%:R * 1)) => [|p _]; last by rewrite mulr1.
  by rewrite (sum_counts (fun _ => 1) Hc) big_const_seq count_predT iter_addr_0.
rewrite /all_pairs -map_comp.
rewrite (eq_map (f2 := fun r => rank_slice per_rank [seq (p.1, p.2 / (size cons)%:R) | p <- zip us cs] r)).
  rewrite flatten_slices mulnC -/n take_oversize ?size_map ?size_zip -?Eu ?minnn ?Ec //.
  rewrite /us /cs zip_cat ?size_map // map_cat.
  congr (_ ++ _); last by elim: (n - size d)%N => //= i ->; rewrite mul0r.
  by elim: (d) => //= [[a c] d' IH] /=; rewrite IH.
by move=> r /=; rewrite /rank_counts -/total Et zip_map_r zip_slice // map_slice.
Qed.

(* C43.  [cons]: the raw samples used (see [consumed]). *)
Theorem C43 (batches : seq (seq (seq T))) (ranks : seq (seq T * seq C)) :
  samples_with_counts C per_rank n_nodes max_steps batches = Some ranks -> (0 < n)%N ->
  exists cons : seq T,
  [/\ consumed n max_steps batches cons,
      (* the samples of non-zero weight are pairwise distinct and are those of [cons] *)
      uniq [seq p.1 | p <- all_pairs ranks & p.2 != 0] /\ [seq p.1 | p <- all_pairs ranks & p.2 != 0] =i cons,
      (* weights are relative frequencies *)
      (forall p, p \in all_pairs ranks -> p.2 != 0 -> p.2 = (count_mem p.1 cons)%:R / (size cons)%:R),
      \sum_(p <- all_pairs ranks) p.2 = 1 &
      (* weighted averages are plain averages *)
      forall f : T -> C, weighted ranks f = (\sum_(s <- cons) f s) / (size cons)%:R].
Proof.
move=> H Hn; have [d [s0 [cons [Hcons Hc Hpos E]]]] := all_pairs_swc H Hn.
have Hne : (size cons)%:R != 0 :> C by rewrite pnatr_eq0 -lt0n.
have Hw f : weighted ranks f = (\sum_(s <- cons) f s) / (size cons)%:R.
  rewrite weighted_pairs E big_cat /= [X in _ + X]big1_seq ?addr0; last first.
    by move=> p /=; rewrite mem_nseq => /andP[_ /eqP->]; rewrite mul0r.
  rewrite big_map -(sum_counts f Hc) mulr_suml; apply: eq_bigr => p _ /=.
  by rewrite mulrAC.
have Hf : [seq p <- all_pairs ranks | p.2 != 0] = [seq (p.1, (p.2)%:R / (size cons)%:R) | p <- d].
  rewrite E filter_cat [X in _ ++ X](_ : _ = [::]) ?cats0; last by elim: (n - _)%N => //= m ->; rewrite eqxx.
  apply/all_filterP/allP => q /mapP[p Hp ->] /=; rewrite mulf_neq0 ?invr_neq0 // pnatr_eq0 -lt0n.
  case: Hc => _ Hk Hc; by rewrite (Hc p Hp) -has_count has_pred1 -Hk map_f.
case: (Hc) => Hu Hk Hcc.
exists cons; split=> //.
- by rewrite Hf -map_comp; split=> //.
- move=> p Hp Hp0; have : p \in [seq p <- all_pairs ranks | p.2 != 0] by rewrite mem_filter Hp0.
  by rewrite Hf => /mapP[q Hq -> /=]; rewrite (Hcc q Hq).
- have := Hw (fun _ => 1); rewrite weighted_pairs big_const_seq count_predT iter_addr_0 divff // => <-.
  by apply: eq_bigr => p _; rewrite mulr1.
Qed.

(* expectation values, variances and gradients computed from the weights are the plain sample
   averages *)
Corollary C43_expect (conj : C -> C) (loc oks : T -> C) (batches : seq (seq (seq T))) (ranks : seq (seq T * seq C)) :
  samples_with_counts C per_rank n_nodes max_steps batches = Some ranks -> (0 < n)%N ->
  exists cons : seq T, let avg f := (\sum_(s <- cons) f s) / (size cons)%:R in
  [/\ consumed n max_steps batches cons, expect_mean loc ranks = avg loc,
      expect_variance loc ranks = avg (fun s => `|loc s - avg loc| ^+ 2) &
      expect_grad conj loc oks ranks = avg (fun s => (loc s - avg loc) * conj (oks s))].
Proof.
move=> H Hn; have [cons [H1 _ _ _ Hw]] := C43 H Hn.
by exists cons; rewrite /expect_variance /expect_grad /expect_mean !Hw.
Qed.

(* the state is defined when the number of steps is bounded (by a positive number) and the
   sampler delivers non-empty batches, or when the stream contains n distinct samples *)
Lemma sample_loop_defined (batches : seq (seq (seq T))) count d pre : counts_of d pre -> (size d < n)%N ->
  all (fun b => flatten b != [::] :> seq T) batches ->
  (exists2 m, max_steps = Some m & (count < m <= count + size batches)%N) \/
  (n <= size (undup (pre ++ flatten (map (@flatten T) batches))))%N ->
  exists d' s0 l, sample_loop n max_steps d count batches = Some (d', s0 :: l).
Proof.
elim: batches count d pre => [|b bs IH] /= count d pre Hc Hd Hall Hor.
  case: Hor => [[m _ /andP[H1 H2]]|]; first by rewrite addn0 leqNgt H1 in H2.
  by rewrite cats0 -(size_counts Hc) leqNgt Hd.
case/andP: Hall => Hb Hall.
have [k [Hk E Hj Hend]] := add_batch_spec (flatten b) Hc Hd.
case: ifP => [_|].
  by case: (flatten b) Hb => // s0 l _; exists (add_batch n d (s0 :: l)), s0, l.
move/negbT; rewrite negb_or -ltnNge => /andP[Hm Hlt].
have Hc' := counts_of_fill (take k (flatten b)) Hc; rewrite -E in Hc'.
have Ek : k = size (flatten b).
  case: Hend => [Hs|[]] //; by move: Hlt; rewrite (size_counts Hc') Hs ltnn.
rewrite Ek take_size in Hc'.
apply: (IH _ _ _ Hc' Hlt Hall).
case: Hor => [[m Em Hlm]|H]; last by right; rewrite -catA.
left; exists m => //; move: Hlm Hm; rewrite Em /= addnS -ltnNge; lia.
Qed.

Theorem C43_defined (batches : seq (seq (seq T))) : (0 < n)%N ->
  all (fun b => flatten b != [::] :> seq T) batches ->
  (exists2 m, max_steps = Some m & (0 < m <= size batches)%N) \/
  (max_steps = None /\ (n <= size (undup (flatten (map (@flatten T) batches))))%N) ->
  samples_with_counts C per_rank n_nodes max_steps batches <> None.
Proof.
move=> Hn Hall Hor; rewrite /samples_with_counts /unique_and_counts -/n.
have -> : max_reached max_steps 0 = false.
  case: Hor => [[m -> /andP[Hm _]]|[-> _]] //=; by rewrite leqNgt Hm.
have [|d [s0 [l ->]]] // := @sample_loop_defined batches 0 [::] [::] (counts_nil T) Hn Hall.
by case: Hor => [|[_ H]]; [left | right].
Qed.
End Weights.

(* two ranks, two samples per rank, batches of one sample per rank: the loop stops inside the
   third batch, 5 of whose 6 samples are used *)
Definition ex_batches : seq (seq (seq nat)) :=
  [:: [:: [:: 7]; [:: 3]]; [:: [:: 7]; [:: 5]]; [:: [:: 9]; [:: 7]]]%N.
Example C43_example :
  samples_with_counts rat_numFieldType 2 2 None ex_batches
  = Some [:: ([:: 7; 3]%N, [:: 2%:Q / 5%:Q; 1 / 5%:Q]); ([:: 5; 9]%N, [:: 1 / 5%:Q; 1 / 5%:Q])].
Proof. by rewrite /samples_with_counts /= /rank_counts unlock; vm_compute. Qed.
(* at most one step: padding with weight 0 *)
Example C43_example_padded :
  samples_with_counts rat_numFieldType 2 2 (Some 1%N) ex_batches
  = Some [:: ([:: 7; 3]%N, [:: 1 / 2%:Q; 1 / 2%:Q]); ([:: 7; 7]%N, [:: 0; 0])].
Proof. by rewrite /samples_with_counts /= /rank_counts unlock; vm_compute. Qed.
(* max_sampling_steps = 0 raises (all_samples is unbound) *)
Lemma C43_zero_steps (T : eqType) (C : numFieldType) per_rank n_nodes (batches : seq (seq (seq T))) :
  samples_with_counts C per_rank n_nodes (Some 0%N) batches = None.
Proof. by []. Qed.
