(* C26-C31, C61: autoregressive models and their direct sampler.
   [md] ranges over ARqGPS, ARqGPSFull (packed and per-site parameters) and ARPlaquetteqGPS;
   [wexp v] stands for exp(machine_pow * Re v) and is only assumed positive. *)
From Verif Require Import Base Choice_Model QGPS_Model AR_Model AR_Sym AR_Proofs AR_Lemmas AR_Site AR_Sector.
Import Num.Theory Order.TTheory.
Local Open Scope ring_scope.

Section Props.
Variables (V : comRingType) (R : realFieldType) (wexp : V -> R) (out : seq V -> V) (M L : nat).
Hypothesis wexp_pos : forall v, 0 < wexp v.
(* a model; the plaquette model needs masks that only select earlier sites *)
Variable md : model V.
Hypothesis md_ok : if md is ARPlaq masks plaquettes _ then
    forall i j, (i < L)%N -> (j < L)%N -> masks i j -> (plaquettes i j < i)%N else True.

Section Generic.
Variables (D : nat) (constrained : bool).
Variables (count_spins : nat -> seq nat) (renorm : seq nat -> nat -> seq bool).
Hypothesis size_count : forall k, size (count_spins k) = D.
Hypothesis size_renorm : forall ns i, size ns = D -> size (renorm ns i) = D.
Local Notation site := (model_site out D M L md).
Local Notation c0 := (cache0 V D M).
Local Notation conds := (conditionals wexp D L constrained count_spins renorm c0 site).
Local Notation logconds := (log_conditionals D L constrained count_spins renorm c0 site).
Local Notation pone := (prob_one wexp D L constrained count_spins renorm c0 site).

Definition config (x : seq nat) : Prop := size x = L /\ all (fun o => (o < D)%N) x.
Lemma config_okc x : config x -> okc D L x.
Proof. by case=> Hs Ha; rewrite /okc Hs eqxx. Qed.

(* C27: the conditionals at site i do not depend on the occupancies at sites >= i *)
Theorem C27_conditionals_causal x y i : config x -> config y -> (i < L)%N ->
  (forall j, (j < i)%N -> nth 0%N x j = nth 0%N y j) -> nth [::] (conds x) i = nth [::] (conds y) i.
Proof.
move=> /config_okc Hx /config_okc Hy Hi Ha; rewrite !conditionalsE // /pc.
by rewrite (@lp_causal _ D L _ _ _ _ _ _ (@model_site_causal _ out D M L md md_ok) x y i).
Qed.

(* C28: calling _conditional for the sites 0 .. L-1 from a fresh cache, on any buffers that
   agree with x on the sites already drawn, gives the conditionals of x *)
Fixpoint cached_calls (m : mstate (seq (seq V))) (bufs : nat -> seq nat) (is_ : seq nat) : seq (seq (V * bool)) :=
  if is_ is i :: is' then
    let: (m', lp) := log_conditional D constrained count_spins renorm site m (bufs i) i in
    lp :: cached_calls m' bufs is'
  else [::].
Theorem C28_cached_conditionals x bufs : config x ->
  (forall i, (i < L)%N -> config (bufs i) /\ forall j, (j < i)%N -> nth 0%N (bufs i) j = nth 0%N x j) ->
  cached_calls (init_mstate D c0) bufs (iota 0 L) = logconds x.
Proof.
move=> /config_okc Hx Hb; rewrite log_conditionalsE //.
have Hc := @model_site_causal _ out D M L md md_ok.
have -> : init_mstate D c0 = mst D constrained count_spins c0 site x 0 by rewrite /mst /=; case: constrained.
suff H n i : (i + n = L)%N -> cached_calls (mst D constrained count_spins c0 site x i) bufs (iota i n)
    = [seq lp_at D constrained count_spins renorm c0 site x j | j <- iota i n] by apply: H.
elim: n i => [//|n IH] i Hi /=.
have HiL : (i < L)%N by rewrite -Hi addnS ltnS leq_addr.
have [/config_okc Hbi Hag] := Hb i HiL.
rewrite (@mst_causal _ D L constrained count_spins _ c0 site Hc x (bufs i) i (ltnW HiL) Hx Hbi); last first.
  by move=> j Hj; rewrite Hag //; apply: leq_trans Hj (leq_pred _).
rewrite logcE; congr (_ :: _).
  by apply: (@lp_causal _ D L _ _ _ _ _ _ Hc) => // j Hj; apply: Hag.
rewrite -IH ?addSnnS //; congr (cached_calls _ _ _).
by apply: (@mst_causal _ D L _ _ _ _ _ Hc) => //= j Hj; apply: Hag.
Qed.

(* Every prefix of positive probability leaves a choice of positive probability.  (Otherwise
   the code divides by zero; C29, C61 and C30 prove it for the code's own functions.) *)
Hypothesis never_stuck : forall x i, config x -> (i < L)%N ->
  (forall j, (j < i)%N -> nth 0 (nth [::] (conds x) j) (nth 0%N x j) != 0) ->
  exists2 d, (d < D)%N & nth 0 (nth [::] (conds x) i) d != 0.
Hypothesis HD : (0 < D)%N.

Lemma alive_lemma x i : (i < L)%N -> okc D L x ->
  (forall j, (j < i)%N -> nth 0 (pc wexp D constrained count_spins renorm c0 site x j) (nth 0%N x j) != 0) ->
  \sum_(u <- wc wexp D constrained count_spins renorm c0 site x i) u != 0.
Proof.
move=> Hi Hx Hr; have Hcx : config x by case/andP: Hx => /eqP.
have [|d Hd] := never_stuck Hcx Hi.
  move=> j Hj; rewrite conditionalsE //; [exact: Hr|exact: ltn_trans Hi].
rewrite conditionalsE //; apply: contraNN => /eqP H0.
rewrite /pc /normalized -/(wc wexp D constrained count_spins renorm c0 site x i) H0.
case: (ltnP d (size (wc wexp D constrained count_spins renorm c0 site x i))) => Hdd.
  by rewrite (nth_map 0) // invr0 mulr0.
by rewrite nth_default // size_map.
Qed.

(* C26: without symmetries the sampler draws x with probability
   exp(machine_pow * Re log psi(x)), the product of the conditionals at x *)
Theorem C26_sampling_probability x : config x ->
  pr (sample_chain wexp D L constrained count_spins renorm c0 site (SymSet None false)) (pred1 x) = pone x /\
  pone x = \prod_(i < L) nth 0 (nth [::] (conds x) i) (nth 0%N x i) /\
  pone x = prob wexp D L constrained count_spins renorm c0 site (SymSet None false) x.
Proof.
move=> /config_okc Hx; have E : prob wexp D L constrained count_spins renorm c0 site (SymSet None false) x = pone x.
  by rewrite /prob /sym_copies /= big_seq1 divr1.
split; last by split.
rewrite -E; apply: chain_lemma => //.
- exact: model_site_causal.
- by move=> y i Hi Hy; apply: size_lp_at => // *; apply: size_model_site.
- exact: alive_lemma.
Qed.

(* with a group of symmetries: |psi|^machine_pow of the symmetrised model *)
Theorem C26_symmetrised_sampling s x : config x -> (sy_flip s -> D = 2%N) ->
  (if sy_perms s is Some ps then
     [&& uniq ps, all (fun p => perm_eq p (iota 0 L)) ps &
         all (fun p => all (fun q => [seq nth 0%N p j | j <- q] \in ps) ps) ps] else true) ->
  pr (sample_chain wexp D L constrained count_spins renorm c0 site s) (pred1 x)
  = prob wexp D L constrained count_spins renorm c0 site s x.
Proof.
move=> /config_okc Hx Hf Hg; apply: chain_lemma => //.
- exact: model_site_causal.
- by move=> y i Hi Hy; apply: size_lp_at => // *; apply: size_model_site.
- exact: alive_lemma.
Qed.

(* the probabilities of all configurations sum to one *)
Theorem C26_normalised : \sum_(t : L.-tuple 'I_D) pone (map val t) = 1.
Proof.
apply: total_lemma => //.
- exact: model_site_causal.
- by move=> y i Hi Hy; apply: size_lp_at => // *; apply: size_model_site.
- exact: alive_lemma.
Qed.
End Generic.

(* C29: constrained spin systems of even size with the default count_spins and
   renormalize_log_psi: exactly the zero-magnetisation configurations have positive
   probability, and no prefix at all gets stuck *)
Local Notation conds2 c := (conditionals wexp 2 L c count_spins2 (renorm2 L) (cache0 V 2 M) (model_site out 2 M L md)).
Local Notation pone2 c := (prob_one wexp 2 L c count_spins2 (renorm2 L) (cache0 V 2 M) (model_site out 2 M L md)).
Lemma sz2 k : size (count_spins2 k) = 2%N. Proof. by []. Qed.
Lemma szr2 ns i : size ns = 2%N -> size (renorm2 L ns i) = 2%N. Proof. by rewrite size_map. Qed.

Theorem C29_zero_magnetisation x : ~~ odd L -> size x = L -> all (fun o => (o < 2)%N) x ->
  [/\ 0 <= pone2 true x, (0 < pone2 true x) = (count_mem 0%N x == count_mem 1%N x) &
      forall i, (i < L)%N -> exists2 d, (d < 2)%N & 0 < nth 0 (nth [::] (conds2 true x) i) d].
Proof.
move=> HL Hs Ha; have Hx : okc 2 L x by rewrite /okc Hs eqxx.
have Hsite c z i : size (model_site out 2 M L md c z i).2 = 2%N by apply: size_model_site.
have := @pone_lemma _ _ wexp 2 L true count_spins2 (renorm2 L) _ (cache0 V 2 M) (model_site out 2 M L md) wexp_pos sz2 Hsite szr2 x Hx.
rewrite (sector2 Hx HL) => H; split.
- by move: H; case: ifP => _; [apply: ltW|move->].
- by move: H; case: ifP => _; [|move->; rewrite ltxx].
- move=> i Hi; have [d Hd Hal] := alive2 Hx HL Hi; exists d => //; rewrite conditionalsE //.
  by have := @nth_pc _ _ wexp 2 true count_spins2 (renorm2 L) _ (cache0 V 2 M) (model_site out 2 M L md) wexp_pos sz2 Hsite szr2 x i d Hd; rewrite Hal.
Qed.

(* C30, for at least four sites: every configuration has positive probability.  Missing: one,
   two and three sites (refuted below). *)
Theorem C30_unconstrained_positive_partial x : (4 <= L)%N -> size x = L -> all (fun o => (o < 2)%N) x ->
  0 < pone2 false x /\ forall i d, (i < L)%N -> (d < 2)%N -> 0 < nth 0 (nth [::] (conds2 false x) i) d.
Proof.
move=> HL Hs Ha; have Hx : okc 2 L x by rewrite /okc Hs eqxx.
have Hsite c z i : size (model_site out 2 M L md c z i).2 = 2%N by apply: size_model_site.
have Hal i d : (i < L)%N -> (d < 2)%N -> nth false (allowed 2 false count_spins2 (renorm2 L) x i) d.
  move=> Hi Hd; rewrite allowed2_free //.
  have H2 : (2 <= L %/ 2)%N by rewrite (@leq_div2r 2 4 L).
  by case: i Hi => [|i] _; apply: leq_trans H2 => //; case: (_ == _).
split.
  have := @pone_lemma _ _ wexp 2 L false count_spins2 (renorm2 L) _ (cache0 V 2 M) (model_site out 2 M L md) wexp_pos sz2 Hsite szr2 x Hx.
  rewrite ifT //; apply/allP => i; rewrite mem_iota add0n => /andP[_ Hi]; apply: Hal => //.
  by move/all_nthP: Ha; apply; rewrite Hs.
move=> i d Hi Hd; rewrite conditionalsE //.
by have := @nth_pc _ _ wexp 2 false count_spins2 (renorm2 L) _ (cache0 V 2 M) (model_site out 2 M L md) wexp_pos sz2 Hsite szr2 x i d Hd; rewrite Hal.
Qed.

(* below four sites, configurations with two equal neighbours (a single site: all) are
   impossible although the space is not constrained *)
Theorem C30_small_systems_refuted : (L = 1 \/ L = 2 \/ L = 3)%N -> exists x,
  [/\ size x = L, all (fun o => (o < 2)%N) x & pone2 false x = 0].
Proof.
move=> HL; exists (nseq L 0%N); split; [by rewrite size_nseq|by apply/allP => o /nseqP[-> _]|].
have Hx : okc 2 L (nseq L 0%N) by rewrite okc0.
have Hsite c z i : size (model_site out 2 M L md c z i).2 = 2%N by apply: size_model_site.
have := @pone_lemma _ _ wexp 2 L false count_spins2 (renorm2 L) _ (cache0 V 2 M) (model_site out 2 M L md) wexp_pos sz2 Hsite szr2 _ Hx.
rewrite ifN //; apply/allPn.
case: HL => [E|HL].
  exists 0%N; first by rewrite mem_iota E.
  by rewrite allowed2_free ?E // nth_nseq; case: ifP.
exists 1%N; first by rewrite mem_iota; case: HL => ->.
by rewrite allowed2_free //; case: HL => ->.
Qed.

(* C61: with the fermionic count_spins and renormalize_log_psi of the scripts exactly the
   configurations with nu up and nd down electrons have positive probability, and no prefix of
   positive probability gets stuck *)
Local Notation conds4 nu nd := (conditionals wexp 4 L true count_spins4 (renorm4 L nu nd) (cache0 V 4 M) (model_site out 4 M L md)).
Local Notation pone4 nu nd := (prob_one wexp 4 L true count_spins4 (renorm4 L nu nd) (cache0 V 4 M) (model_site out 4 M L md)).
Lemma sz4 k : size (count_spins4 k) = 4%N. Proof. by []. Qed.
Lemma szr4 nu nd ns i : size ns = 4%N -> size (renorm4 L nu nd ns i) = 4%N.
Proof.
by move=> _; rewrite /renorm4; case: (_ == nu); case: (_ == nd); case: (_ <= nu)%N; case: (_ <= nd)%N.
Qed.

Theorem C61_electron_sector nu nd x : (nu <= L)%N -> (nd <= L)%N -> size x = L -> all (fun o => (o < 4)%N) x ->
  [/\ 0 <= pone4 nu nd x,
      (0 < pone4 nu nd x) = (count odd x == nu) && (count (fun o => odd (o %/ 2)) x == nd) &
      forall i, (i < L)%N -> (forall j, (j < i)%N -> nth 0 (nth [::] (conds4 nu nd x) j) (nth 0%N x j) != 0) ->
        exists2 d, (d < 4)%N & 0 < nth 0 (nth [::] (conds4 nu nd x) i) d].
Proof.
move=> Hnu Hnd Hs Ha; have Hx : okc 4 L x by rewrite /okc Hs eqxx.
have Hsite c z i : size (model_site out 4 M L md c z i).2 = 4%N by apply: size_model_site.
have Hup : n_up x = count odd x.
  by rewrite /n_up; elim: (x) => [|o l IH]; rewrite ?big_nil // big_cons IH modn2.
have Hdn : n_dn x = count (fun o => odd (o %/ 2)) x.
  by rewrite /n_dn; elim: (x) => [|o l IH]; rewrite ?big_nil // big_cons IH modn2.
have := @pone_lemma _ _ wexp 4 L true count_spins4 (renorm4 L nu nd) _ (cache0 V 4 M) (model_site out 4 M L md) wexp_pos sz4 Hsite (@szr4 nu nd) x Hx.
have Hpc i d Hd := @nth_pc _ _ wexp 4 true count_spins4 (renorm4 L nu nd) _ (cache0 V 4 M) (model_site out 4 M L md) wexp_pos sz4 Hsite (@szr4 nu nd) x i d Hd.
rewrite (sector4 Hnu Hnd Hx) Hup Hdn => H; split.
- by move: H; case: ifP => _; [apply: ltW|move->].
- by move: H; case: ifP => _; [|move->; rewrite ltxx].
- move=> i Hi Hr; have [|d Hd Hal] := alive4 Hx Hi Hnu Hnd.
    move=> j Hj; have HjL := ltn_trans Hj Hi; have := Hr j Hj; rewrite conditionalsE //.
    have Hxj : (nth 0 x j < 4)%N by move/all_nthP: Ha; apply; rewrite Hs.
    by have := Hpc j _ Hxj; case: ifP => // _ ->; rewrite eqxx.
  by exists d => //; rewrite conditionalsE //; have := Hpc i d Hd; rewrite Hal.
Qed.
(* C26 for the code's own constraint functions, where no hypothesis about getting stuck is
   left: spins with zero magnetisation and spins without constraint (four sites or more) ... *)
Theorem C26_spin_sampler c x : (if c then ~~ odd L else (4 <= L)%N) -> size x = L -> all (fun o => (o < 2)%N) x ->
  pr (sample_chain wexp 2 L c count_spins2 (renorm2 L) (cache0 V 2 M) (model_site out 2 M L md) (SymSet None false)) (pred1 x)
    = pone2 c x /\
  \sum_(t : L.-tuple 'I_2) pone2 c (map val t) = 1.
Proof.
move=> HL Hs Ha.
have Hns y i : config 2 y -> (i < L)%N ->
    (forall j, (j < i)%N -> nth 0 (nth [::] (conds2 c y) j) (nth 0%N y j) != 0) ->
    exists2 d, (d < 2)%N & nth 0 (nth [::] (conds2 c y) i) d != 0.
  move=> [Hys Hya] Hi _; case: c HL => HL.
    by have [_ _ /(_ i Hi)[d Hd H]] := C29_zero_magnetisation HL Hys Hya; exists d => //; rewrite gt_eqF.
  by exists 0%N => //; have [_ /(_ i 0%N Hi isT) H] := C30_unconstrained_positive_partial HL Hys Hya; rewrite gt_eqF.
split; last exact: (C26_normalised sz2 szr2 Hns isT).
by have [] // := C26_sampling_probability sz2 szr2 Hns isT (conj Hs Ha).
Qed.

(* ... and electrons with nu up and nd down spins *)
Theorem C26_electron_sampler nu nd x : (nu <= L)%N -> (nd <= L)%N -> size x = L -> all (fun o => (o < 4)%N) x ->
  pr (sample_chain wexp 4 L true count_spins4 (renorm4 L nu nd) (cache0 V 4 M) (model_site out 4 M L md) (SymSet None false)) (pred1 x)
    = pone4 nu nd x /\
  \sum_(t : L.-tuple 'I_4) pone4 nu nd (map val t) = 1.
Proof.
move=> Hnu Hnd Hs Ha.
have Hns y i : config 4 y -> (i < L)%N ->
    (forall j, (j < i)%N -> nth 0 (nth [::] (conds4 nu nd y) j) (nth 0%N y j) != 0) ->
    exists2 d, (d < 4)%N & nth 0 (nth [::] (conds4 nu nd y) i) d != 0.
  move=> [Hys Hya] Hi Hr; have [_ _ /(_ i Hi Hr)[d Hd H]] := C61_electron_sector Hnu Hnd Hys Hya.
  by exists d => //; rewrite gt_eqF.
split; last exact: (C26_normalised sz4 (@szr4 nu nd) Hns isT).
by have [] // := C26_sampling_probability sz4 (@szr4 nu nd) Hns isT (conj Hs Ha).
Qed.
End Props.

(* C27, ARPlaquetteqGPS with the masks of the scripts, for any plaquettes and parameters *)
Theorem C27_script_plaquettes (V : comRingType) (R : realFieldType) (wexp : V -> R) (out : seq V -> V) (M L D : nat)
    (constrained : bool) (count_spins : nat -> seq nat) (renorm : seq nat -> nat -> seq bool)
    (plaquettes : nat -> nat -> nat) (eps : nat -> nat -> nat -> V) x y i :
  (forall k, size (count_spins k) = D) -> (forall ns j, size ns = D -> size (renorm ns j) = D) ->
  config L D x -> config L D y -> (i < L)%N ->
  (forall j, (j < i)%N -> nth 0%N x j = nth 0%N y j) ->
  let conds := conditionals wexp D L constrained count_spins renorm (cache0 V D M)
                 (model_site out D M L (ARPlaq (autoreg_masks plaquettes) plaquettes eps)) in
  nth [::] (conds x) i = nth [::] (conds y) i.
Proof. by move=> H1 H2 Hx Hy Hi Ha; apply: C27_conditionals_causal. Qed.

(* C31: packing of the parameters of ARqGPSFull for L sites: row i uses the slots
   lower_index i + j, j <= i.  The slices never run past the end (so never get clamped), and
   the slots are a bijection onto the whole array. *)
Theorem C31_triangular_packing L :
  [/\ (forall i, (i < L)%N -> (lower_index i + L <= n_packed L)%N /\ slice_start L (lower_index i) = lower_index i),
      (forall i j, (j <= i)%N -> (i < L)%N -> (lower_index i + j < n_packed L)%N),
      (forall i j i' j', (j <= i)%N -> (j' <= i')%N -> (lower_index i + j = lower_index i' + j')%N -> i = i' /\ j = j') &
      (forall k, (k < n_packed L)%N -> exists i j, [/\ (j <= i)%N, (i < L)%N & k = (lower_index i + j)%N])].
Proof.
split.
- by move=> i Hi; rewrite lower_bound // slice_startE.
- by move=> i j Hj Hi; apply: leq_trans (lower_bound Hi); rewrite ltn_add2l; apply: leq_ltn_trans Hj Hi.
- move=> i j i' j' Hj Hj' E.
  have H a b c e : (a < b)%N -> (c <= a)%N -> (lower_index a + c < lower_index b + e)%N.
    move=> Hab Hc; apply: leq_trans (leq_addr _ _); apply: leq_trans (lower_mono Hab).
    by rewrite lower_indexS ltn_add2l ltnS.
  case: (ltngtP i i') => Hi.
  + by have := H i i' j j' Hi Hj; rewrite E ltnn.
  + by have := H i' i j' j Hi Hj'; rewrite E ltnn.
  + by split=> //; move: E; rewrite Hi => /addnI.
- move=> k; rewrite n_packedE; elim: L => [//|L IH]; rewrite lower_indexS => Hk.
  case: (ltnP k (lower_index L)) => HkL.
    by have [i [j [H1 H2 ->]]] := IH HkL; exists i, j; split=> //; apply: ltnW.
  exists L, (k - lower_index L)%N; split=> //; last by rewrite subnKC.
  by rewrite leq_subLR -ltnS -addnS.
Qed.

Example C31_example : [seq lower_index i | i <- iota 0 5] = [:: 0; 1; 3; 6; 10]%N /\ n_packed 4 = 10%N.
Proof. by []. Qed.

(* four sites, one support dimension, all parameters 1, exp replaced by 1: the first two
   spins are free, afterwards the constraint fixes 0011 *)
Example C29_example :
  let md : model [comRingType of rat] := ARq (fun _ _ _ => 1) in
  let conds := conditionals (fun _ : rat => 1 : rat) 2 4 true count_spins2 (renorm2 4) (cache0 _ 2 1)
    (model_site (fun l => \sum_(v <- l) v) 2 1 4 md) in
  [seq [seq (0 < v) | v <- p] | p <- conds [:: 0; 0; 1; 1]%N]
  = [:: [:: true; true]; [:: true; true]; [:: false; true]; [:: false; true]].
Proof.
rewrite /conditionals /log_conditionals /= /weights /normalized /=.
by rewrite !big_cons !big_nil.
Qed.

Print Assumptions C26_sampling_probability.
Print Assumptions C26_symmetrised_sampling.
Print Assumptions C26_normalised.
Print Assumptions C26_spin_sampler.
Print Assumptions C26_electron_sampler.
Print Assumptions C27_conditionals_causal.
Print Assumptions C27_script_plaquettes.
Print Assumptions C28_cached_conditionals.
Print Assumptions C29_zero_magnetisation.
Print Assumptions C30_unconstrained_positive_partial.
Print Assumptions C30_small_systems_refuted.
Print Assumptions C31_triangular_packing.
Print Assumptions C61_electron_sector.
