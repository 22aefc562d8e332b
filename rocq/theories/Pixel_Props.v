(* C120: PixelCNN with a gauge constraint as a normalised wave function. *)
From Verif Require Import Base Choice_Model Choice_Proofs AR_Model AR_Proofs Causal_Model Causal_Props Pixel_Model.
Import Num.Theory Order.TTheory.
Local Open Scope ring_scope.

(* sums over tuples, first entry first *)
Lemma tuple_sum (R : ringType) (D m : nat) (f : seq nat -> R) :
  \sum_(t : m.+1.-tuple 'I_D) f (map val t) = \sum_(o < D) \sum_(t : m.-tuple 'I_D) f (val o :: map val t).
Proof.
rewrite pair_big /=.
rewrite (reindex (fun p : 'I_D * m.-tuple 'I_D => cons_tuple p.1 p.2)) //=.
exists (fun t : m.+1.-tuple 'I_D => (thead t, behead_tuple t)) => [[o t] _|t _] /=.
  by rewrite theadE; congr pair; apply: val_inj.
by rewrite [RHS]tuple_eta; apply: val_inj.
Qed.

Section C120.
Variables (F : comRingType) (R : realFieldType) (wexp : F -> R) (loc : nat -> F).
Variables (D L k n : nat) (act : F -> F).
Variables (wv : nat -> nat -> nat -> nat -> F) (bv : nat -> F) (wh : nat -> nat -> nat -> nat -> F) (bh : nat -> F).
Variables (layers : seq (layer F)) (wf : nat -> nat -> nat -> nat -> F) (bf : nat -> F).
Variables (G : Type) (gauge_fn : option ((nat -> F) -> G)) (constraint_fn : option (G -> nat -> nat -> bool)).
Hypothesis wexp_pos : forall v, 0 < wexp v.
Hypothesis Hk : odd k.
Hypothesis HL : (0 < L)%N.
Local Notation N := (L * L)%N.
Local Notation broken := (is_broken gauge_fn constraint_fn).
Local Notation wgt := (weight wexp L k n act wv bv wh bh layers wf bf gauge_fn constraint_fn).
Local Notation cond := (conditional wexp D L k n act wv bv wh bh layers wf bf gauge_fn constraint_fn true).
Local Notation psi := (abs_pow wexp loc D L k n act wv bv wh bh layers wf bf gauge_fn constraint_fn true).
Local Notation smp := (sample wexp loc D L k n act wv bv wh bh layers wf bf gauge_fn constraint_fn true).
Local Notation step := (sample_step wexp loc D L k n act wv bv wh bh layers wf bf gauge_fn constraint_fn true).
Local Notation ins := (inputs_of loc).

(* the constraint of a site reads earlier sites only *)
Hypothesis causal : forall s t i o, (forall j, (j < i)%N -> s j = t j) -> broken s i o = broken t i o.

Lemma weight_causal s t i o : (forall j, (j < i)%N -> s j = t j) -> wgt s i o = wgt t i o.
Proof.
move=> E; rewrite /weight (causal o E); case: ifP => // _; congr wexp.
exact: C42_pixelcnn_partial.
Qed.
(* then so do the conditionals *)
Theorem C120_causal s t i : (forall j, (j < i)%N -> s j = t j) -> cond s i = cond t i.
Proof.
move=> E; rewrite /conditional /=.
have -> : all (broken s i) (iota 0 D) = all (broken t i) (iota 0 D) by apply: eq_all => o; apply: causal.
by rewrite /site_weights (eq_map (fun o => weight_causal o E)).
Qed.

(* nothing broken in a beginning p of a configuration *)
Definition unbroken (p : seq nat) : Prop := forall j, (j < size p)%N -> ~~ broken (ins p) j (nth 0%N p j).
(* it can then be continued *)
Hypothesis never_stuck : forall p, (size p < N)%N -> all (fun o => o < D)%N p -> unbroken p ->
  exists2 o, (o < D)%N & ~~ broken (ins p) (size p) o.

Lemma ins_cat p s j : (j < size p)%N -> ins (p ++ s) j = ins p j.
Proof. by move=> Hj; rewrite /inputs_of map_cat nth_cat size_map Hj. Qed.
Lemma ins_take p s j : (j < size p)%N -> ins p j = ins (p ++ s) j.
Proof. by move=> Hj; rewrite ins_cat. Qed.

Definition q (x : seq nat) (i o : nat) : R := nth 0 (odflt [::] (cond (ins x) i)) o.

Lemma weight_ge0 s i o : 0 <= wgt s i o.
Proof. by rewrite /weight; case: ifP => // _; apply: ltW. Qed.
Lemma alive_cond s i o0 : (o0 < D)%N -> ~~ broken s i o0 ->
  0 < \sum_(u <- site_weights wexp D L k n act wv bv wh bh layers wf bf gauge_fn constraint_fn s i) u
  /\ cond s i = Some (normalized (site_weights wexp D L k n act wv bv wh bh layers wf bf gauge_fn constraint_fn s i)).
Proof.
move=> H0 Hb; split.
  rewrite /site_weights big_map (big_rem o0) ?mem_iota //=.
  have -> : wgt s i o0 = wexp (net L k n act wv bv wh bh layers wf bf s i o0) by rewrite /weight (negbTE Hb).
  by apply: ltr_paddr; rewrite ?wexp_pos //; apply: sumr_ge0 => o _; apply: weight_ge0.
rewrite /conditional /=; case: ifP => // /allP /(_ o0); rewrite mem_iota (negbTE Hb) => /(_ H0) //.
Qed.
Lemma q_sign x i o : (o < D)%N -> (exists2 o', (o' < D)%N & ~~ broken (ins x) i o') ->
  if broken (ins x) i o then q x i o = 0 else 0 < q x i o.
Proof.
move=> Ho [o' Ho' Hb]; have [S0 Ec] := alive_cond Ho' Hb.
rewrite /q Ec /= /normalized (nth_map 0) ?size_map ?size_iota // (nth_map 0%N) ?size_iota // nth_iota // add0n.
by case E: (broken _ _ _); rewrite /weight E ?mul0r // divr_gt0.
Qed.
Lemma q_sum x i : (exists2 o', (o' < D)%N & ~~ broken (ins x) i o') -> \sum_(o < D) q x i o = 1.
Proof.
case=> o' Ho' Hb; have [S0 Ec] := alive_cond Ho' Hb.
rewrite /q Ec /= -(normalized_sum (lt0r_neq0 S0)) (big_nth 0) size_map size_map size_iota.
by rewrite big_mkord.
Qed.
Lemma q_causal x y i o : (forall j, (j < i)%N -> ins x j = ins y j) -> q x i o = q y i o.
Proof. by move=> E; rewrite /q (C120_causal E). Qed.
Lemma broken_cat p s j : (j <= size p)%N -> broken (ins (p ++ s)) j =1 broken (ins p) j.
Proof. by move=> Hj o; apply: causal => j' Hj'; apply: ins_cat; apply: leq_trans Hj. Qed.
Lemma stuck_cat p s : (size p < N)%N -> all (fun o => o < D)%N p -> unbroken p ->
  exists2 o, (o < D)%N & ~~ broken (ins (p ++ s)) (size p) o.
Proof. by move=> H1 H2 H3; have [o Ho Hb] := never_stuck H1 H2 H3; exists o; rewrite // broken_cat. Qed.
Lemma unbroken_rcons p o : unbroken p -> ~~ broken (ins p) (size p) o -> unbroken (rcons p o).
Proof.
move=> Hp Hb j; rewrite size_rcons ltnS => Hj; rewrite -cats1 broken_cat // nth_cat.
case: (ltnP j (size p)) => Hj'; first exact: Hp.
have -> : j = size p by apply/eqP; rewrite eqn_leq Hj Hj'.
by rewrite subnn.
Qed.

Lemma psi_prod x : odflt 0 (psi x) = \prod_(i < N) q x i (nth 0%N x i).
Proof.
rewrite /abs_pow /Pixel_Model.N -(big_mkord predT (fun i => q x i (nth 0%N x i))) /index_iota subn0.
elim: (iota 0 _) => [|i l IH] /=; first by rewrite big_nil.
rewrite big_cons -IH {1}/q; case: (cond _ _) => [p|] /=; last by rewrite nth_nil mul0r.
by case: (foldr _ _ _) => //=; rewrite mulr0.
Qed.

Lemma total_from m p : (size p + m = N)%N -> all (fun o => o < D)%N p -> unbroken p ->
  \sum_(t : m.-tuple 'I_D) \prod_(j < m) q (p ++ map val t) (size p + j) (nth 0%N (map val t) j) = 1.
Proof.
elim: m p => [|m IH] p Hm Hp Ha.
  rewrite (eq_bigr (fun _ => 1)) => [|t _]; last by rewrite big_ord0.
  by rewrite sumr_const card_tuple expn0.
rewrite (tuple_sum D m (fun s => \prod_(j < m.+1) q (p ++ s) (size p + j) (nth 0%N s j))).
have Hlt : (size p < N)%N by lia.
have Hst := stuck_cat _ Hlt Hp Ha.
rewrite -[RHS](q_sum (x := p) (i := size p)); last by have := Hst [::]; rewrite cats0.
apply: eq_bigr => o _.
under eq_bigr => t _ do rewrite big_ord_recl /= addn0.
have Hq (t : m.-tuple 'I_D) : q (p ++ val o :: map val t) (size p) (val o) = q p (size p) o.
  by apply: q_causal => j Hj; rewrite ins_cat.
under eq_bigr => t _ do rewrite Hq.
rewrite -mulr_sumr.
have := q_sign (x := p) (i := size p) (ltn_ord o).
case E: (broken _ _ _) => H0; first by rewrite H0 ?mul0r //; have := Hst [::]; rewrite cats0.
rewrite -[RHS]mulr1; congr (_ * _).
have Hr : unbroken (rcons p o) by apply: unbroken_rcons; rewrite ?E.
rewrite -[RHS](IH (rcons p o)) ?size_rcons ?all_rcons ?ltn_ord ?Hp //; last by rewrite addSnnS.
apply: eq_bigr => t _; apply: eq_bigr => j _; by rewrite cat_rcons addSnnS.
Qed.

Lemma unbroken0 : unbroken [::]. Proof. by []. Qed.
(* |psi|^machine_pow sums to one *)
Theorem C120_normalised : \sum_(t : N.-tuple 'I_D) odflt 0 (psi (map val t)) = 1.
Proof.
rewrite -[RHS](@total_from N [::]) //; apply: eq_bigr => t _; rewrite psi_prod.
by apply: eq_bigr => j _; rewrite add0n.
Qed.

(* exactly the configurations without a broken site have a non-zero amplitude; the others have amplitude zero
   or nan, and zero if no site ever refuses all local states *)
Theorem C120_support x : size x = N -> all (fun o => o < D)%N x ->
  (unbroken x -> exists2 a, 0 < a & psi x = Some a) /\
  (~ unbroken x -> psi x = Some 0 \/ psi x = None) /\
  ((forall s i, exists2 o, (o < D)%N & ~~ broken s i o) -> psi x <> None).
Proof.
move=> Hs Ha.
have Hx (i : nat) : (i < N)%N -> (nth 0%N x i < D)%N by move=> Hi; move/all_nthP: Ha; apply; rewrite Hs.
have some_lemma l : (forall i, i \in l -> exists p, cond (ins x) i = Some p) ->
    exists a, foldr (fun i acc => match cond (ins x) i, acc with
      | Some p, Some a => Some (nth 0 p (nth 0%N x i) * a) | _, _ => None end) (Some 1) l = Some a.
  elim: l => [|i l IH] H; first by exists 1.
  have [p Ep] := H i (mem_head _ _); have [|a Ea] := IH; first by move=> j Hj; apply: H; rewrite inE Hj orbT.
  by rewrite /= Ep Ea; eexists.
have prefix (i : nat) : (i < N)%N -> (forall j, (j < i)%N -> ~~ broken (ins x) j (nth 0%N x j)) ->
    exists2 o, (o < D)%N & ~~ broken (ins x) i o.
  move=> Hi Hu; have Hsz : size (take i x) = i by rewrite size_takel // Hs ltnW.
  have := @stuck_cat (take i x) (drop i x); rewrite cat_take_drop Hsz; apply=> //.
    by apply/allP => o /mem_take /(allP Ha).
  move=> j; rewrite Hsz => Hj; rewrite nth_take // -(broken_cat (drop i x)) ?Hsz 1?ltnW // cat_take_drop.
  exact: Hu.
split; [|split].
- move=> Hu.
  have Hi (i : nat) : (i < N)%N -> exists2 o, (o < D)%N & ~~ broken (ins x) i o.
    by move=> Hi; exists (nth 0%N x i); [exact: Hx|apply: Hu; rewrite Hs].
  have [a Ea] : exists a, psi x = Some a.
    apply: some_lemma => i; rewrite mem_iota add0n => Hi'; have [o Ho Hb] := Hi i Hi'.
    by have [_ ->] := alive_cond Ho Hb; eexists.
  exists a => //; have -> : a = odflt 0 (psi x) by rewrite Ea.
  rewrite psi_prod; apply: prodr_gt0 => i _.
  have := q_sign (Hx i (ltn_ord i)) (Hi i (ltn_ord i)).
  by rewrite (negbTE (Hu _ _)) ?Hs.
- move=> Hu; case E: (psi x) => [a|]; [left|by right]; congr Some.
  have -> : a = odflt 0 (psi x) by rewrite E.
  case: (boolP [forall i : 'I_N, ~~ broken (ins x) i (nth 0%N x i)]) => [/forallP H|].
    by case: Hu => j; rewrite Hs => Hj; have := H (Ordinal Hj).
  rewrite negb_forall => /existsP[i0]; rewrite negbK => Hi0.
  have Hex : exists i, (i < N)%N && broken (ins x) i (nth 0%N x i) by exists i0; rewrite ltn_ord.
  case: (ex_minnP Hex) => i /andP[Hi Hb] Hmin.
  rewrite psi_prod (bigD1 (Ordinal Hi)) //=.
  have := q_sign (Hx i Hi) (prefix i Hi _); rewrite Hb => -> //; first by rewrite mul0r.
  move=> j Hj; apply/negP => Hbj; have := Hmin j; rewrite Hbj (ltn_trans Hj Hi) => /(_ isT); by rewrite leqNgt Hj.
- move=> Hall; have [a ->] : exists a, psi x = Some a; last by [].
  apply: some_lemma => i _; have [o Ho Hb] := Hall (ins x) i.
  by have [_ ->] := alive_cond Ho Hb; eexists.
Qed.

(* the sampler *)
Hypothesis loc_inj : forall o o', (o < D)%N -> (o' < D)%N -> loc o = loc o' -> o = o'.
Definition buffer (p : seq nat) : seq F := map loc p ++ nseq (N - size p) 0.
Lemma buffer_set p o : (size p < N)%N -> set_nth 0 (buffer p) (size p) (loc o) = buffer (rcons p o).
Proof.
move=> Hp; rewrite /buffer size_rcons map_rcons.
have -> : (N - size p = (N - (size p).+1).+1)%N by lia.
rewrite cat_rcons -[X in set_nth _ _ X _](size_map loc); elim: (map loc p) => [//|v l IH] /=.
by rewrite IH.
Qed.
Lemma buffer_ins p j : (j < size p)%N -> nth 0 (buffer p) j = ins p j.
Proof. by move=> Hj; rewrite /buffer nth_cat size_map Hj. Qed.

Lemma step_ex b i p0 (g : seq F -> R) : cond (nth 0 b) i = Some p0 ->
  ex (step b i) g = \sum_(o < size p0) choice_prob p0 o * g (set_nth 0 b i (loc o)).
Proof.
move=> E; rewrite /sample_step E ex_bind /draw -(sum_choice p0 (fun o => g (set_nth 0 b i (loc o)))) {1}/ex.
by apply: eq_bigr => a _; rewrite ex_ret.
Qed.
Lemma sampler_from m p x : (size p + m = N)%N -> all (fun o => o < D)%N p -> unbroken p ->
  size x = N -> all (fun o => o < D)%N x ->
  pr (foldl (fun d i => dbind d (fun b => step b i)) (dret R (buffer p)) (iota (size p) m)) (pred1 (map loc x))
  = if take (size p) x == p then \prod_(j < m) q x (size p + j) (nth 0%N x (size p + j)) else 0.
Proof.
elim: m p => [|m IH] p Hm Hp Ha Hs Hx.
  rewrite /= pr_ret big_ord0 /buffer; have -> : (N - size p = 0)%N by lia.
  rewrite cats0 take_oversize; last by rewrite Hs; lia.
  rewrite -[pred1 _ _]/(map loc p == map loc x); case: (x =P p) => [->|H]; first by rewrite eqxx.
  case: eqP => // E; case: H.
  have : size x = size p by rewrite Hs; lia.
  move: E Hp Hx; elim: p {Hm Ha Hs} x => [|a p IHp] [|b x] //= [E1 E2] /andP[Ha Hp] /andP[Hb Hx] [Es].
  by rewrite (loc_inj Hb Ha (esym E1)) (IHp x).
have Hlt : (size p < N)%N by lia.
have [o0 Ho0 Hb0] := never_stuck Hlt Hp Ha.
have Ec : cond (nth 0 (buffer p)) (size p) = cond (ins p) (size p) by apply: C120_causal => j; apply: buffer_ins.
have [S0 Es] := alive_cond Ho0 Hb0.
rewrite [LHS](_ : _ = \sum_(o < D) q p (size p) o *
   pr (foldl (fun d i => dbind d (fun b => step b i)) (dret R (buffer (rcons p o))) (iota (size p).+1 m)) (pred1 (map loc x))).
  have H0 (o : 'I_D) : q p (size p) o *
     pr (foldl (fun d i => dbind d (fun b => step b i)) (dret R (buffer (rcons p o))) (iota (size p).+1 m)) (pred1 (map loc x))
     = q p (size p) o * (if take (size p).+1 x == rcons p o then \prod_(j < m) q x ((size p).+1 + j) (nth 0%N x ((size p).+1 + j)) else 0).
    have := q_sign (x := p) (i := size p) (ltn_ord o); case E: (broken _ _ _) => H.
      by rewrite H ?mul0r //; exists o0.
    congr (_ * _); rewrite -[(size p).+1](size_rcons p (val o)) IH ?size_rcons //; first by lia.
      by rewrite all_rcons ltn_ord.
    by apply: unbroken_rcons; rewrite ?E.
  under eq_bigr => o _ do rewrite H0.
  have Hn : (nth 0%N x (size p) < D)%N by move/all_nthP: Hx; apply; rewrite Hs.
  rewrite (take_nth 0%N) ?Hs //.
  case: eqP => E; last first.
    by rewrite big1 // => o _; rewrite eqseq_rcons; case: eqP => //= _; rewrite mulr0.
  rewrite (bigD1 (Ordinal Hn)) //= E eqxx [X in _ + X]big1 => [|o Ho]; last first.
    rewrite eqseq_rcons eqxx /= eq_sym; case: eqP => [E'|_]; last by rewrite mulr0.
    by case/negP: Ho; apply/eqP/val_inj.
  rewrite addr0 big_ord_recl addn0; congr (_ * _).
    apply: q_causal => j Hj; by rewrite -(cat_take_drop (size p) x) ins_cat E.
  by apply: eq_bigr => j _; rewrite addSnnS.
rewrite [iota (size p) m.+1]/= [foldl _ (dret R _) _]/= pr_foldl.
rewrite -/(ex _ (fun b => pr (foldl (fun d i => dbind d (fun b => step b i)) (dret R b) (iota (size p).+1 m)) (pred1 (map loc x)))).
rewrite ex_bind ex_ret (step_ex _ (etrans Ec Es)) size_map size_map size_iota.
apply: eq_bigr => o _; rewrite buffer_set //; congr (_ * _).
by rewrite choice_normalized ?lt0r_neq0 // /q Es.
Qed.

(* drawing samples: every configuration is drawn with probability |psi|^machine_pow *)
Theorem C120_sampler x : size x = N -> all (fun o => o < D)%N x -> pr smp (pred1 (map loc x)) = odflt 0 (psi x).
Proof.
move=> Hs Hx; rewrite psi_prod.
have := @sampler_from N [::] x; rewrite take0 eqxx => H; rewrite -H //.
by rewrite /sample /Pixel_Model.N /buffer subn0.
Qed.
End C120.

(* without gauge_fn or without constraint_fn: a normalised state without zeros *)
Theorem C120_unconstrained (F : comRingType) (R : realFieldType) (wexp : F -> R) loc D L k n act wv bv wh bh layers wf bf
    (G : Type) (g : option ((nat -> F) -> G)) (c : option (G -> nat -> nat -> bool)) :
  (forall v, 0 < wexp v) -> odd k -> (0 < L)%N -> (0 < D)%N -> {in gtn D &, injective loc} -> g = None \/ c = None ->
  let psi := abs_pow wexp loc D L k n act wv bv wh bh layers wf bf g c true in
  let smp := sample wexp loc D L k n act wv bv wh bh layers wf bf g c true in
  \sum_(t : (L * L).-tuple 'I_D) odflt 0 (psi (map val t)) = 1 /\
  forall x, size x = (L * L)%N -> all (fun o => o < D)%N x ->
    pr smp (pred1 (map loc x)) = odflt 0 (psi x) /\ exists2 a, 0 < a & psi x = Some a.
Proof.
move=> Hw Hk HL HD Hl Hgc psi smp.
have Hb s i o : is_broken g c s i o = false.
  by rewrite /is_broken; move: Hgc; case: (g) => [g'|] //; case: (c) => [c'|] // -[].
have H1 (s t : nat -> F) i o : (forall j, (j < i)%N -> s j = t j) -> is_broken g c s i o = is_broken g c t i o by rewrite !Hb.
have H2 p : (size p < L * L)%N -> all (fun o => o < D)%N p -> unbroken loc g c p ->
  exists2 o, (o < D)%N & ~~ is_broken g c (inputs_of loc p) (size p) o by exists 0%N; rewrite ?Hb.
split; first exact: C120_normalised.
move=> x Hs Hx; split; first by apply: C120_sampler => // o o' Ho Ho'; apply: Hl.
have [S1 _] := @C120_support F R wexp loc D L k n act wv bv wh bh layers wf bf _ _ _ Hw H1 H2 x Hs Hx.
by apply: S1 => j _; rewrite Hb.
Qed.

(* the constraint of zero magnetisation: it is causal and never stuck for even L, and the configurations without
   a broken site are those with as many spins up as down *)
Section Magnetisation.
Variables (F : realFieldType) (L : nat).
Local Notation N := (L * L)%N.
Local Notation broken := (is_broken (Some (@mag_gauge F)) (Some (mag_constraint L))).
Local Notation unbr := (unbroken (@spin_loc F) (Some (@mag_gauge F)) (Some (mag_constraint L))).
Lemma mag_causal s t i o : (forall j, (j < i)%N -> s j = t j) -> broken s i o = broken t i o.
Proof.
move=> E; rewrite /is_broken /mag_constraint /mag_gauge.
by rewrite (eq_bigr (fun j : 'I_i => t j)) // => j _; apply: E.
Qed.
(* number of ups minus number of downs *)
Definition zmag (p : seq nat) : int := \sum_(o <- p) (if o == 0%N then -1 else 1).
Lemma gauge_zmag p i : (i <= size p)%N -> mag_gauge (inputs_of (@spin_loc F) p) i = (zmag (take i p))%:~R.
Proof.
move=> Hi; rewrite /mag_gauge /zmag rmorph_sum /= (big_nth 0%N) size_takel // big_mkord.
apply: eq_bigr => j _; rewrite /inputs_of (nth_map 0%N); last exact: leq_trans (ltn_ord j) Hi.
by rewrite nth_take // /spin_loc; case: ifP.
Qed.
Lemma broken_zmag p i o : (i <= size p)%N ->
  broken (inputs_of (@spin_loc F) p) i o = ~~ (absz (zmag (take i p) + (if o == 0%N then -1 else 1))%R <= N - i.+1)%N.
Proof.
move=> Hi; rewrite /is_broken /mag_constraint gauge_zmag //; congr (~~ _).
have -> : spin_loc F o = (if o == 0%N then -1 else 1 : int)%:~R by rewrite /spin_loc; case: ifP.
by rewrite -rmorphD /= -intr_norm [X in _ <= X]pmulrn ler_int -abszE lez_nat.
Qed.
Lemma zmag_parity p : exists u : nat, zmag p = (size p)%:Z - 2%:Z * u%:Z.
Proof.
elim: p => [|o p [u IH]]; first by exists 0%N; rewrite /zmag big_nil.
rewrite /zmag big_cons -/(zmag p) IH /=; case: ifP => _; [exists u.+1|exists u]; lia.
Qed.
Lemma unbroken_bound p : (size p <= N)%N -> unbr p -> (absz (zmag p) <= N - size p)%N.
Proof.
case/lastP: p => [|p o]; first by rewrite /zmag big_nil.
rewrite size_rcons => Hp /(_ (size p)); rewrite size_rcons => /(_ (ltnSn _)).
rewrite broken_zmag ?size_rcons // negbK nth_rcons ltnn eqxx -cats1 take_size_cat //.
by rewrite /zmag big_cat big_seq1.
Qed.
Theorem C120_magnetisation : ~~ odd L ->
  [/\ forall s t i o, (forall j, (j < i)%N -> s j = t j) -> broken s i o = broken t i o,
      forall p, (size p < N)%N -> unbr p -> exists2 o, (o < 2)%N & ~~ broken (inputs_of (@spin_loc F) p) (size p) o &
      forall x, size x = N -> all (fun o => o < 2)%N x -> (unbr x <-> count_mem 0%N x = count_mem 1%N x)].
Proof.
move=> Hodd; split; first exact: mag_causal.
- move=> p Hp Hu; have Hb := unbroken_bound (ltnW Hp) Hu; have [u Eu] := zmag_parity p.
  have HN : ~~ odd N by rewrite oddM negb_and Hodd.
  case: (lerP 0 (zmag p)) => Hz; [exists 0%N => //|exists 1%N => //]; rewrite broken_zmag // take_size negbK /=; lia.
- move=> x Hs Hx.
  have Hc : zmag x = (count_mem 1%N x)%:Z - (count_mem 0%N x)%:Z.
    rewrite /zmag; elim: x Hx {Hs} => [|o x IH] /=; first by rewrite big_nil.
    by case/andP=> Ho /IH; rewrite big_cons => ->; case: o Ho => [|[|o]] //= _; lia.
  split=> [Hu|E].
    have := unbroken_bound (eq_leq Hs) Hu; rewrite Hs subnn leqn0 absz_eq0 Hc => /eqP; lia.
  move=> j Hj; rewrite broken_zmag ?(ltnW Hj) // negbK.
  have : zmag x = 0 by rewrite Hc E subrr.
  rewrite -{1}(cat_take_drop j.+1 x) (take_nth 0%N) // -cats1 /zmag !big_cat big_seq1 /=.
  rewrite -/(zmag (take j x)) -/(zmag (drop j.+1 x)) => E0.
  have Hd : (absz (zmag (drop j.+1 x)) <= N - j.+1)%N.
    rewrite -Hs -size_drop; elim: (drop _ _) => [|o l IH]; first by rewrite /zmag big_nil.
    by rewrite /zmag big_cons -/(zmag l) /=; case: ifP => _; lia.
  lia.
Qed.
End Magnetisation.


(* PixelCNN with this constraint: a normalised state of zero magnetisation, sampled exactly *)
Theorem C120_zero_magnetisation (F R : realFieldType) (wexp : F -> R) L k n act wv bv wh bh layers wf bf :
  (forall v, 0 < wexp v) -> odd k -> (0 < L)%N -> ~~ odd L ->
  let psi := abs_pow wexp (@spin_loc F) 2 L k n act wv bv wh bh layers wf bf (Some (@mag_gauge F)) (Some (mag_constraint L)) true in
  let smp := sample wexp (@spin_loc F) 2 L k n act wv bv wh bh layers wf bf (Some (@mag_gauge F)) (Some (mag_constraint L)) true in
  \sum_(t : (L * L).-tuple 'I_2) odflt 0 (psi (map val t)) = 1 /\
  forall x, size x = (L * L)%N -> all (fun o => o < 2)%N x ->
    pr smp (pred1 (map (@spin_loc F) x)) = odflt 0 (psi x) /\
    (if count_mem 0%N x == count_mem 1%N x then exists2 a, 0 < a & psi x = Some a else psi x = Some 0 \/ psi x = None).
Proof.
move=> Hw Hk HL Ho psi smp; have [H1 H2 H3] := C120_magnetisation F Ho.
have H2' p : (size p < L * L)%N -> all (fun o => o < 2)%N p -> unbroken (@spin_loc F) (Some (@mag_gauge F)) (Some (mag_constraint L)) p ->
  exists2 o, (o < 2)%N & ~~ is_broken (Some (@mag_gauge F)) (Some (mag_constraint L)) (inputs_of (@spin_loc F) p) (size p) o.
  by move=> Hp _; apply: H2.
split; first exact: C120_normalised.
move=> x Hs Hx; split.
  apply: C120_sampler => // -[|[|o]] [|[|o']] // _ _ /eqP; rewrite /spin_loc /=.
    by rewrite -subr_eq0 -opprD oppr_eq0 -[1 + 1]/(2%:R) pnatr_eq0.
  by rewrite -subr_eq0 opprK -[1 + 1]/(2%:R) pnatr_eq0.
have [S1 [S2 _]] := @C120_support F R wexp (@spin_loc F) 2 L k n act wv bv wh bh layers wf bf _ _ _ Hw H1 H2' x Hs Hx.
by case: eqP => E; [apply: S1; apply/H3|apply: S2 => /(H3 x Hs Hx)].
Qed.

(* a gauge function that reads the whole configuration, "is the configuration in S", the same for all sites and
   local states: with a final layer of zeros the network has the norm |S| / D^N instead of one, and the
   amplitudes outside S are nan *)
Section Global.
Variables (F : comRingType) (R : realFieldType) (wexp : F -> R) (loc : nat -> F) (D L k n : nat) (act : F -> F).
Variables (wv : nat -> nat -> nat -> nat -> F) (bv : nat -> F) (wh : nat -> nat -> nat -> nat -> F) (bh : nat -> F).
Variables (layers : seq (layer F)) (S : (nat -> F) -> bool).
Hypothesis wexp_pos : forall v, 0 < wexp v.
Hypothesis HD : (0 < D)%N.
Hypothesis HL : (0 < L)%N.
Local Notation N := (L * L)%N.
Local Notation psi := (abs_pow wexp loc D L k n act wv bv wh bh layers (fun _ _ _ _ => 0) (fun _ => 0)
  (Some S) (Some (fun b _ _ => ~~ b)) true).
Lemma net0 s i o : net L k n act wv bv wh bh layers (fun _ _ _ _ => 0) (fun _ => 0) s i o = 0.
Proof.
rewrite /net /pixelcnn /conv_1x1 /conv addr0.
by rewrite big1 // => a _; rewrite big1 // => b _; rewrite big1 // => c _; rewrite mul0r mulr0.
Qed.
Lemma global_psi x : size x = N -> all (fun o => o < D)%N x ->
  psi x = if S (inputs_of loc x) then Some ((D%:R ^+ N)^-1) else None.
Proof.
move=> Hs Hx; rewrite /abs_pow /Pixel_Model.N; case E: (S _); last first.
  have : (0 < N)%N by rewrite muln_gt0 HL.
  case: N Hs => // m _ _ /=; rewrite /conditional /= /is_broken E /=.
  by have -> : all (fun _ => true) (iota 0 D) by apply/allP.
have Hc i o : (o < D)%N -> exists2 p, conditional wexp D L k n act wv bv wh bh layers (fun _ _ _ _ => 0) (fun _ => 0)
     (Some S) (Some (fun b _ _ => ~~ b)) true (inputs_of loc x) i = Some p & nth 0 p o = D%:R^-1.
  move=> Ho; rewrite /conditional /= /is_broken E /=.
  have -> : all (fun _ => false) (iota 0 D) = false by case: D HD.
  eexists; first by [].
  have Hw o' : weight wexp L k n act wv bv wh bh layers (fun _ _ _ _ => 0) (fun _ => 0)
     (Some S) (Some (fun b _ _ => ~~ b)) (inputs_of loc x) i o' = wexp 0.
    by rewrite /weight /is_broken E /= net0.
  rewrite /normalized (nth_map 0) ?size_map ?size_iota // (nth_map 0%N) ?size_iota // nth_iota // Hw.
  rewrite /site_weights big_map (eq_bigr (fun _ => wexp 0)) => [|o' _]; last exact: Hw.
  rewrite big_const_seq count_predT size_iota iter_addr_0 -[wexp 0 *+ D]mulr_natl invfM mulrCA divff ?mulr1 //.
  by rewrite lt0r_neq0.
have Hi : all (fun i => nth 0%N x i < D)%N (iota 0 N).
  by apply/allP => i; rewrite mem_iota -Hs => Hi; move/all_nthP: Hx; apply.
rewrite -[in RHS](size_iota 0 N); elim: (iota 0 N) Hi => [|i l IH] /=; first by rewrite expr0 invr1.
case/andP=> Hi /IH ->; have [p -> ->] := Hc i _ Hi; congr Some.
by rewrite exprS invfM.
Qed.
Theorem C120_global : \sum_(t : N.-tuple 'I_D) odflt 0 (psi (map val t))
    = #|[set t : N.-tuple 'I_D | S (inputs_of loc (map val t))]|%:R / D%:R ^+ N
  /\ forall x, size x = N -> all (fun o => o < D)%N x -> S (inputs_of loc x) = false -> psi x = None.
Proof.
split; last by move=> x Hs Hx E; rewrite global_psi // E.
have Ht (t : N.-tuple 'I_D) : odflt 0 (psi (map val t)) = if S (inputs_of loc (map val t)) then (D%:R ^+ N)^-1 else 0.
  rewrite global_psi; first by case: ifP.
    by rewrite size_map size_tuple.
  by apply/allP => o /mapP[o' _ ->]; apply: ltn_ord.
rewrite (eq_bigr _ (fun t _ => Ht t)) -big_mkcond /= sumr_const -[RHS]mulrC mulr_natr; congr (_ *+ _).
by apply: eq_card => t; rewrite !inE.
Qed.
End Global.
Theorem C120_global_refuted (R : realFieldType) (wexp : R -> R) : (forall v, 0 < wexp v) ->
  exists (gauge_fn : option ((nat -> R) -> R)) (constraint_fn : option (R -> nat -> nat -> bool)) layers w b,
  let psi := abs_pow wexp (@spin_loc R) 2 2 3 1 id w b w b layers w b gauge_fn constraint_fn true in
  [/\ exists2 a, 0 < a & psi [:: 0; 1; 1; 0]%N = Some a, psi [:: 0; 1; 1; 1]%N = None &
      \sum_(t : (2 * 2).-tuple 'I_2) odflt 0 (psi (map val t)) <> 1].
Proof.
move=> Hw; pose g (s : nat -> R) := s 0%N + s 1%N + s 2%N + s 3%N; pose c (v : R) (_ _ : nat) := v != 0.
exists (Some g), (Some c), [::], (fun _ _ _ _ => 0), (fun _ => 0); set psi := abs_pow _ _ _ _ _ _ _ _ _ _ _ _ _ _ _ _ _.
pose S (s : nat -> R) := g s == 0.
have Ep : psi = abs_pow wexp (@spin_loc R) 2 2 3 1 id (fun _ _ _ _ => 0) (fun _ => 0) (fun _ _ _ _ => 0) (fun _ => 0) [::]
   (fun _ _ _ _ => 0) (fun _ => 0) (Some S) (Some (fun b _ _ => ~~ b)) true by [].
have [H1 H2] := C120_global (@spin_loc R) 3 1 id (fun _ _ _ _ => 0) (fun _ => 0) (fun _ _ _ _ => 0) (fun _ => 0) [::] S Hw (isT : 0 < 2)%N (isT : 0 < 2)%N.
have S1 : S (inputs_of (@spin_loc R) [:: 0; 1; 1; 0]%N) by rewrite /S /g /inputs_of /= /spin_loc /= addNr add0r subrr.
have S2 : S (inputs_of (@spin_loc R) [:: 0; 1; 1; 1]%N) = false.
  by rewrite /S /g /inputs_of /= /spin_loc /= addNr add0r -[1 + 1]/(2%:R : R) pnatr_eq0.
split.
- exists ((2%:R ^+ 4)^-1); first by rewrite invr_gt0 exprn_gt0 // ltr0n.
  by rewrite Ep global_psi // S1.
- by rewrite Ep H2.
have E1 : (2%:R ^+ (2 * 2) : R) != 0 by rewrite expf_neq0 // pnatr_eq0.
rewrite Ep H1; move/eqP; rewrite (can2_eq (mulfVK E1) (mulfK E1)) mul1r -natrX eqr_nat => /eqP E.
pose t : (2 * 2).-tuple 'I_2 := [tuple of [:: inord 0; inord 1; inord 1; inord 1]].
have : t \in [set t : (2 * 2).-tuple 'I_2 | S (inputs_of (@spin_loc R) (map val t))].
  have -> : [set t : (2 * 2).-tuple 'I_2 | S (inputs_of (@spin_loc R) (map val t))] = setT.
    by apply/eqP; rewrite eqEcard subsetT cardsT card_tuple card_ord E.
  by rewrite inE.
by rewrite inE /= !inordK // S2.
Qed.

(* four sites and a network of zeros: only the second of two equal spins is free, the others follow *)
Example C120_example :
  let psi := abs_pow (fun v : rat => v ^+ 2 + 1) (@spin_loc rat_realFieldType) 2 2 3 1 id (fun _ _ _ _ => 0) (fun _ => 0) (fun _ _ _ _ => 0)
     (fun _ => 0) [::] (fun _ _ _ _ => 0) (fun _ => 0) (Some (@mag_gauge rat_realFieldType)) (Some (mag_constraint 2)) true in
  [/\ psi [:: 0; 0; 1; 1]%N = Some (1 / 4%:R), psi [:: 0; 1; 1; 0]%N = Some (1 / 8%:R) & psi [:: 0; 0; 1; 0]%N = Some 0].
Proof.
move=> psi.
pose br (x : seq nat) (i o : nat) := ~~ (absz (foldr (fun o z => (if o == 0%N then -1 else 1) + z) 0 (take i x) + (if o == 0%N then -1 else 1))%R <= 4 - i.+1)%N.
have Hb x i o : size x = 4%N -> (i < 4)%N ->
    is_broken (Some (@mag_gauge rat_realFieldType)) (Some (mag_constraint 2)) (inputs_of (@spin_loc rat_realFieldType) x) i o = br x i o.
  move=> Hx Hi; rewrite broken_zmag; last by rewrite Hx ltnW.
  have -> // : zmag (take i x) = foldr (fun o z => (if o == 0%N then -1 else 1) + z) 0 (take i x).
  by rewrite /zmag; elim: (take i x) => [|a l IH] /=; rewrite ?big_nil // big_cons IH.
have Hc x i : size x = 4%N -> (i < 4)%N ->
    conditional (fun v : rat => v ^+ 2 + 1) 2 2 3 1 id (fun _ _ _ _ => 0) (fun _ => 0) (fun _ _ _ _ => 0)
     (fun _ => 0) [::] (fun _ _ _ _ => 0) (fun _ => 0) (Some (@mag_gauge rat_realFieldType)) (Some (mag_constraint 2)) true (inputs_of (@spin_loc rat_realFieldType) x) i
    = if br x i 0%N && br x i 1%N then None else
      let w := [:: if br x i 0%N then 0 else 1; if br x i 1%N then 0 else 1] in Some [seq v / (nth 0 w 0 + nth 0 w 1) | v <- w].
  move=> Hx Hi; have Ha : all (is_broken (Some (@mag_gauge rat_realFieldType)) (Some (mag_constraint 2)) (inputs_of (@spin_loc rat_realFieldType) x) i) (iota 0 2) = br x i 0%N && br x i 1%N.
    by rewrite (eq_all (fun o => Hb x i o Hx Hi)) -[br x i 1%N]andbT.
  rewrite /conditional Ha; cbv zeta; case: ifP => // _; rewrite /normalized /site_weights.
  have Hw o : weight (fun v : rat => v ^+ 2 + 1) 2 3 1 id (fun _ _ _ _ => 0) (fun _ => 0) (fun _ _ _ _ => 0)
     (fun _ => 0) [::] (fun _ _ _ _ => 0) (fun _ => 0) (Some (@mag_gauge rat_realFieldType)) (Some (mag_constraint 2)) (inputs_of (@spin_loc rat_realFieldType) x) i o
    = if br x i o then 0 else 1 by rewrite /weight Hb // net0 expr0n add0r.
  by rewrite (eq_map Hw) !big_cons big_nil addr0.
by split; rewrite /psi /abs_pow [iota 0 _]/= [foldr _ _ _]/= !Hc //; apply/eqP; vm_compute.
Qed.

Print Assumptions C120_causal.
Print Assumptions C120_normalised.
Print Assumptions C120_support.
Print Assumptions C120_sampler.
Print Assumptions C120_unconstrained.
Print Assumptions C120_magnetisation.
Print Assumptions C120_zero_magnetisation.
Print Assumptions C120_global.
Print Assumptions C120_global_refuted.
