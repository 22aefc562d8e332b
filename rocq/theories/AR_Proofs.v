From Verif Require Import Base Choice_Model Choice_Proofs QGPS_Model AR_Model.
Import Num.Theory Order.TTheory.
Local Open Scope ring_scope.

Section Dist.
Variable R : realFieldType.
Implicit Types A B : Type.

Lemma pr_bind A B (d : dist R A) (f : A -> dist R B) (P : pred B) :
  pr (dbind d f) P = \sum_(a <- d) a.2 * pr (f a.1) P.
Proof.
rewrite /pr /dbind; elim: d => [|a d IH] /=; first by rewrite !big_nil.
rewrite big_cat /= big_cons IH; congr (_ + _).
by rewrite big_map mulr_sumr.
Qed.
Lemma pr_ret A (a : A) (P : pred A) : pr (dret R a) P = (P a)%:R.
Proof. by rewrite /pr /dret big_mkcond big_seq1 /=; case: (P a). Qed.
Lemma pr_foldl A I (g : A -> I -> dist R A) (is_ : seq I) (d : dist R A) (P : pred A) :
  pr (foldl (fun d i => dbind d (fun a => g a i)) d is_) P
  = \sum_(a <- d) a.2 * pr (foldl (fun d i => dbind d (fun a => g a i)) (dret R a.1) is_) P.
Proof.
elim: is_ d P => [|i is_ IH] d P /=.
  by rewrite /pr big_mkcond; apply: eq_bigr => a _; rewrite -/(pr _ P) pr_ret; case: (P a.1); rewrite ?mulr1 ?mulr0.
rewrite IH /dbind; elim: d => [|a d IHd] /=; first by rewrite !big_nil.
rewrite big_cat /= IHd big_cons; congr (_ + _); rewrite IH big_map /= cats0 big_map mulr_sumr.
by apply: eq_bigr => b _; rewrite mul1r mulrA.
Qed.

(* expectations *)
Definition ex A (d : dist R A) (f : A -> R) : R := \sum_(a <- d) a.2 * f a.1.
Lemma pr_ex A (d : dist R A) (P : pred A) : pr d P = ex d (fun a => (P a)%:R).
Proof. by rewrite /pr /ex big_mkcond; apply: eq_bigr => a _; case: (P a.1); rewrite ?mulr1 ?mulr0. Qed.
Lemma ex_bind A B (d : dist R A) (f : A -> dist R B) (h : B -> R) :
  ex (dbind d f) h = ex d (fun a => ex (f a) h).
Proof.
rewrite /ex /dbind; elim: d => [|a d IH] /=; first by rewrite !big_nil.
rewrite big_cat /= big_cons IH; congr (_ + _).
by rewrite big_map mulr_sumr; apply: eq_bigr => b _; rewrite mulrA.
Qed.
Lemma ex_ret A (a : A) (h : A -> R) : ex (dret R a) h = h a.
Proof. by rewrite /ex /dret big_seq1 mul1r. Qed.
Lemma ex_foldl A I (g : A -> I -> dist R A) (is_ : seq I) (d : dist R A) (h : A -> R) :
  ex (foldl (fun d i => dbind d (fun a => g a i)) d is_) h
  = ex d (fun a => ex (foldl (fun d i => dbind d (fun a => g a i)) (dret R a) is_) h).
Proof.
elim: is_ d h => [|i is_ IH] d h /=; first by rewrite /ex; apply: eq_bigr => a _; rewrite -/(ex _ h) ex_ret.
rewrite IH ex_bind; rewrite /ex; apply: eq_bigr => a _; congr (_ * _); rewrite -!/(ex _ _) IH ex_bind ex_ret //.
Qed.

Lemma sum_choice (p : seq R) (f : nat -> R) :
  \sum_(a <- draw_index p) a.2 * f a.1 = \sum_(k < size p) choice_prob p k * f k.
Proof. by rewrite /draw_index big_map -[size p]subn0 -/(index_iota 0 (size p)) big_mkord subn0. Qed.

Lemma normalized_sum (w : seq R) : \sum_(u <- w) u != 0 -> \sum_(u <- normalized w) u = 1.
Proof. by move=> Hw; rewrite /normalized big_map -mulr_suml divff. Qed.
Lemma choice_normalized (w : seq R) k : \sum_(u <- w) u != 0 ->
  choice_prob (normalized w) k = nth 0 (normalized w) k.
Proof. by move=> Hw; rewrite /choice_prob last_cumsum normalized_sum // oner_eq0 divr1. Qed.
Lemma choice_sum (p : seq R) : (0 < size p)%N -> \sum_(k < size p) choice_prob p k = 1.
Proof.
move=> Hp; rewrite /choice_prob last_cumsum; case: (altP eqP) => H.
  by case: (size p) Hp => // n _; rewrite big_ord_recl /= big1 ?addr0 // => i _.
rewrite -mulr_suml; set S := \sum_(j <- p) j.
by rewrite (_ : \sum_(k < size p) nth 0 p k = S) ?divff // /S (big_nth 0) big_mkord.
Qed.
End Dist.

Section AR.
Variables (V : comRingType) (R : realFieldType) (wexp : V -> R).
Variables (D L : nat) (constrained : bool).
Variables (count_spins : nat -> seq nat) (renorm : seq nat -> nat -> seq bool).
Variables (C : Type) (c0 : C) (site : C -> seq nat -> nat -> C * seq V).
Hypothesis size_count : forall k, size (count_spins k) = D.

Definition okc (x : seq nat) : bool := (size x == L) && all (fun o => (o < D)%N) x.
Definition agree (i : nat) (x y : seq nat) : Prop := forall j, (j < i)%N -> nth 0%N x j = nth 0%N y j.

(* carried cache and spin counts after i sites *)
Fixpoint carry (x : seq nat) (i : nat) : C := if i is i'.+1 then (site (carry x i') x i').1 else c0.
Definition spin_step (ns x : seq nat) (i : nat) : seq nat :=
  if (0 < i)%N then [seq p.1 + p.2 | p <- zip ns (count_spins (prev_site x i))]%N else ns.
Fixpoint spins (x : seq nat) (i : nat) : seq nat :=
  if i is i'.+1 then (if constrained then spin_step (spins x i') x i' else nseq D 0%N) else nseq D 0%N.
Definition lp_at (x : seq nat) (i : nat) : seq (V * bool) :=
  zip (site (carry x i) x i).2 (renorm (spin_step (spins x i) x i) i).

Local Notation compute := (compute_conditional count_spins renorm site).
Local Notation logc := (log_conditional D constrained count_spins renorm site).
Local Notation logcs := (log_conditionals D L constrained count_spins renorm c0 site).

Lemma computeE c ns x i :
  compute c ns x i = ((site c x i).1, spin_step ns x i, zip (site c x i).2 (renorm (spin_step ns x i) i)).
Proof. by rewrite /compute_conditional; case: (site c x i). Qed.

Lemma size_spin_step ns x i : size ns = D -> size (spin_step ns x i) = D.
Proof. by rewrite /spin_step; case: ifP => // _ H; rewrite size_map size_zip size_count H minnn. Qed.
Lemma size_spins x i : size (spins x i) = D.
Proof.
elim: i => [|i IH] /=; first by rewrite size_nseq.
by case: constrained; [apply: size_spin_step|rewrite size_nseq].
Qed.

Lemma scanE x n i :
  scan_conditionals constrained count_spins renorm site (iota i n) (carry x i) (spins x i) x
  = [seq lp_at x j | j <- iota i n].
Proof.
elim: n i => [//|n IH] i /=; rewrite computeE; congr (_ :: _).
rewrite -IH size_spin_step ?size_spins //; congr (scan_conditionals _ _ _ _ _ _ _ _).
Qed.
Lemma log_conditionalsE x : logcs x = [seq lp_at x j | j <- iota 0 L].
Proof. exact: (scanE x L 0). Qed.

(* the mutable state after i cached calls *)
Definition mst (x : seq nat) (i : nat) : mstate C := (carry x i, if constrained then spins x i else nseq D 0%N).
Lemma logcE x i : logc (mst x i) x i = (mst x i.+1, lp_at x i).
Proof.
have H0 : constrained = false -> spins x i = nseq D 0%N by case: i => //= i ->.
rewrite /log_conditional /mst computeE /lp_at /=.
have [E|E] : constrained = true \/ constrained = false by case: constrained; [left|right].
  by rewrite !E.
by rewrite !E H0.
Qed.

Hypothesis site_causal : forall x y i, (i < L)%N -> okc x -> okc y -> agree i x y ->
  site (carry x i) x i = site (carry y i) y i.

Lemma agreeW i j x y : (j <= i)%N -> agree i x y -> agree j x y.
Proof. by move=> H Ha k Hk; apply: Ha; apply: leq_trans H. Qed.

Lemma carry_causal x y i : (i <= L)%N -> okc x -> okc y -> agree i.-1 x y -> carry x i = carry y i.
Proof. by case: i => //= i Hi Hx Hy Ha; rewrite (site_causal Hi Hx Hy Ha). Qed.
Lemma prev_causal x y i : (0 < i)%N -> agree i x y -> prev_site x i = prev_site y i.
Proof. by case: i => // i _ Ha; rewrite /prev_site Ha. Qed.
Lemma spins_causal x y i : agree i.-1 x y -> spins x i = spins y i.
Proof.
elim: i => //= i IH Ha; case: constrained => //.
rewrite IH; last by apply: agreeW Ha; apply: leq_pred.
by rewrite /spin_step; case: ifP => // Hi; rewrite (prev_causal Hi Ha).
Qed.
Lemma mst_causal x y i : (i <= L)%N -> okc x -> okc y -> agree i.-1 x y -> mst x i = mst y i.
Proof. by move=> Hi Hx Hy Ha; rewrite /mst (carry_causal Hi Hx Hy Ha) (spins_causal Ha). Qed.
Lemma lp_causal x y i : (i < L)%N -> okc x -> okc y -> agree i x y -> lp_at x i = lp_at y i.
Proof.
move=> Hi Hx Hy Ha; rewrite /lp_at (site_causal Hi Hx Hy Ha) (@spins_causal x y); last exact: agreeW (leq_pred i) Ha.
congr (zip _ (renorm _ _)); rewrite /spin_step; case: ifP => // Hi0.
by rewrite (prev_causal Hi0 Ha).
Qed.

(* conditional probabilities of site i *)
Definition pc (x : seq nat) (i : nat) : seq R := normalized (weights wexp (lp_at x i)).
Definition wc (x : seq nat) (i : nat) : seq R := weights wexp (lp_at x i).
Lemma conditionalsE x i : (i < L)%N ->
  nth [::] (conditionals wexp D L constrained count_spins renorm c0 site x) i = pc x i.
Proof.
by move=> Hi; rewrite /conditionals log_conditionalsE -map_comp (nth_map 0%N) ?size_iota //= nth_iota.
Qed.
Lemma prob_oneE x : prob_one wexp D L constrained count_spins renorm c0 site x
  = \prod_(i < L) nth 0 (pc x i) (nth 0%N x i).
Proof. by rewrite /prob_one; apply: eq_bigr => i _; rewrite conditionalsE. Qed.

(* shapes: one conditional per local state *)
Hypothesis size_lp : forall x i, (i < L)%N -> okc x -> size (lp_at x i) = D.
(* every reachable prefix has a choice of non-zero weight *)
Hypothesis alive : forall x i, (i < L)%N -> okc x ->
  (forall j, (j < i)%N -> nth 0 (pc x j) (nth 0%N x j) != 0) -> \sum_(u <- wc x i) u != 0.

Local Notation step := (sample_step wexp D constrained count_spins renorm site).
Local Notation ssites := (sample_sites wexp D constrained count_spins renorm site).

Lemma okc_set x i k : (i < L)%N -> (k < D)%N -> okc x -> okc (set_nth 0%N x i k).
Proof.
move=> Hi Hk /andP[/eqP Hs Ha]; apply/andP; split.
  by rewrite size_set_nth Hs (maxn_idPr Hi).
apply/(all_nthP 0%N) => j; rewrite size_set_nth Hs (maxn_idPr Hi) nth_set_nth /= => Hj.
by case: eqP => // _; move/all_nthP: Ha; apply; rewrite Hs.
Qed.

Lemma size_pc x i : (i < L)%N -> okc x -> size (pc x i) = D.
Proof. by move=> Hi Hx; rewrite !size_map size_lp. Qed.

Lemma step_ex x i h : ex (step (x, mst x i) i) h
  = \sum_(k < size (pc x i)) choice_prob (pc x i) k * h (set_nth 0%N x i k, mst x i.+1).
Proof.
rewrite /sample_step logcE ex_bind -/(pc x i).
rewrite -(sum_choice (pc x i) (fun k => h (set_nth 0%N x i k, mst x i.+1))).
by rewrite {1}/ex; apply: eq_bigr => a _; rewrite ex_ret.
Qed.
Lemma ssites_ex x i n h :
  ex (ssites (iota i n.+1) (x, mst x i)) h
  = \sum_(k < size (pc x i)) choice_prob (pc x i) k * ex (ssites (iota i.+1 n) (set_nth 0%N x i k, mst x i.+1)) h.
Proof.
rewrite /sample_sites [iota i n.+1]/= [foldl _ _ _]/= ex_foldl ex_bind ex_ret.
exact: step_ex.
Qed.
Lemma ssites_step x i n P :
  pr (ssites (iota i n.+1) (x, mst x i)) P
  = \sum_(k < size (pc x i)) choice_prob (pc x i) k * pr (ssites (iota i.+1 n) (set_nth 0%N x i k, mst x i.+1)) P.
Proof. by rewrite pr_ex ssites_ex; apply: eq_bigr => k _; rewrite pr_ex. Qed.

Lemma loop_lemma y n : okc y -> forall i x, okc x -> (i + n = L)%N ->
  (forall j, (j < i)%N -> nth 0 (pc x j) (nth 0%N x j) != 0) ->
  pr (ssites (iota i n) (x, mst x i)) (fun st => st.1 == y)
  = if take i x == take i y then \prod_(j <- iota i n) nth 0 (pc y j) (nth 0%N y j) else 0.
Proof.
move=> Hy; elim: n => [|n IH] i x Hx Hin Hreach.
  rewrite /sample_sites /= pr_ret big_nil /=.
  case/andP: Hx => /eqP Hx _; case/andP: Hy => /eqP Hyy _.
  by rewrite !take_oversize ?Hx ?Hyy -?Hin ?addn0 //; case: (_ == _).
have HiL : (i < L)%N by rewrite -Hin addnS ltnS leq_addr.
have [/eqP HxL _] := andP Hx; have [/eqP HyL HyD] := andP Hy.
rewrite ssites_step size_pc //.
have Hal := alive HiL Hx Hreach.
have Hch k : choice_prob (pc x i) k = nth 0 (pc x i) k by rewrite choice_normalized.
have Hyi : (nth 0%N y i < D)%N by move/all_nthP: HyD; apply; rewrite HyL.
have Hset k j : (j < i)%N -> nth 0%N (set_nth 0%N x i k) j = nth 0%N x j.
  by move=> Hj; rewrite nth_set_nth /= ltn_eqF.
have Hag k : agree i x (set_nth 0%N x i k) by move=> j Hj; rewrite Hset.
have Htake k : take i (set_nth 0%N x i k) = take i x.
  apply: (@eq_from_nth _ 0%N); rewrite !size_take size_set_nth HxL (maxn_idPr HiL) HiL // => j Hj.
  by rewrite !nth_take // Hset.
have HIH k : (k < D)%N -> nth 0 (pc x i) k != 0 ->
    pr (ssites (iota i.+1 n) (set_nth 0%N x i k, mst x i.+1)) (fun st => st.1 == y)
    = if (take i x == take i y) && (k == nth 0%N y i) then \prod_(j <- iota i.+1 n) nth 0 (pc y j) (nth 0%N y j) else 0.
  move=> Hk Hne; have Hxk := okc_set HiL Hk Hx.
  rewrite (@mst_causal x (set_nth 0%N x i k) i.+1 HiL Hx Hxk (Hag k)).
  rewrite IH ?addSnnS //; last first.
    move=> j; rewrite ltnS leq_eqVlt => /orP[/eqP->|Hj].
      by rewrite nth_set_nth /= eqxx /pc -(lp_causal HiL Hx Hxk (Hag k)).
    have HjL : (j < L)%N := ltn_trans Hj HiL.
    by rewrite Hset // /pc -(lp_causal HjL Hx Hxk (agreeW (ltnW Hj) (Hag k))); apply: Hreach.
  rewrite !(take_nth 0%N) ?size_set_nth ?HxL ?HyL ?(maxn_idPr HiL) // nth_set_nth /= eqxx Htake.
  by rewrite eqseq_rcons.
have Hterm (k : 'I_D) : choice_prob (pc x i) k * pr (ssites (iota i.+1 n) (set_nth 0%N x i k, mst x i.+1)) (fun st => st.1 == y)
   = if (take i x == take i y) && (k == nth 0%N y i :> nat)
     then nth 0 (pc x i) k * \prod_(j <- iota i.+1 n) nth 0 (pc y j) (nth 0%N y j) else 0.
  rewrite Hch; case: (altP (nth 0 (pc x i) k =P 0)) => [->|Hne].
    by rewrite !mul0r; case: ifP.
  by rewrite HIH //; case: ifP; rewrite ?mulr0.
rewrite (eq_bigr _ (fun k _ => Hterm k)).
case: (altP (take i x =P take i y)) => Ht; last by rewrite big1.
rewrite (bigD1 (Ordinal Hyi)) //= eqxx [X in _ + X]big1 ?addr0; last first.
  by move=> k Hk; rewrite ifN.
rewrite big_cons /=; congr (_ * _).
have Ha : agree i x y by move=> j Hj; rewrite -(nth_take _ Hj) Ht nth_take.
by rewrite /pc (lp_causal HiL Hx Hy Ha).
Qed.

Lemma okc0 : (0 < D)%N -> okc (nseq L 0%N).
Proof. by move=> HD; rewrite /okc size_nseq eqxx /=; apply/allP => o /nseqP[-> _]. Qed.

Lemma sites_lemma y : (0 < D)%N -> okc y ->
  pr (ssites (iota 0 L) (nseq L 0%N, init_mstate D c0)) (fun st => st.1 == y)
  = prob_one wexp D L constrained count_spins renorm c0 site y.
Proof.
move=> HD Hy; have -> : init_mstate D c0 = mst (nseq L 0%N) 0 by rewrite /mst /=; case: constrained.
rewrite (loop_lemma Hy) ?okc0 // !take0 eqxx prob_oneE.
by rewrite -[X in iota 0 X]subn0 -/(index_iota 0 L) big_mkord.
Qed.

(* total probability and support of the sampler *)
Lemma loop_total n : (0 < D)%N -> forall i x, okc x -> (i + n = L)%N ->
  pr (ssites (iota i n) (x, mst x i)) (fun st => okc st.1) = 1.
Proof.
move=> HD; elim: n => [|n IH] i x Hx Hin.
  by rewrite /sample_sites /= pr_ret /= Hx.
have HiL : (i < L)%N by rewrite -Hin addnS ltnS leq_addr.
rewrite ssites_step -[RHS](@choice_sum R (pc x i)) ?size_pc //; apply: eq_bigr => k _.
have Hxk := okc_set HiL (ltn_ord k) Hx.
have Hag : agree i x (set_nth 0%N x i k) by move=> j Hj; rewrite nth_set_nth /= ltn_eqF.
rewrite (@mst_causal x (set_nth 0%N x i k) i.+1 HiL Hx Hxk Hag).
by rewrite IH ?addSnnS // mulr1.
Qed.

(* only admissible configurations occur *)
Lemma loop_support n (f g : seq nat -> R) : (forall y, okc y -> f y = g y) -> forall i x, okc x -> (i + n = L)%N ->
  ex (ssites (iota i n) (x, mst x i)) (fun st => f st.1) = ex (ssites (iota i n) (x, mst x i)) (fun st => g st.1).
Proof.
move=> Hfg; elim: n => [|n IH] i x Hx Hin; first by rewrite /sample_sites /= !ex_ret /= Hfg.
have HiL : (i < L)%N by rewrite -Hin addnS ltnS leq_addr.
rewrite !ssites_ex size_pc //; apply: eq_bigr => k _.
have Hxk := okc_set HiL (ltn_ord k) Hx.
have Hag : agree i x (set_nth 0%N x i k) by move=> j Hj; rewrite nth_set_nth /= ltn_eqF.
by rewrite (@mst_causal x (set_nth 0%N x i k) i.+1 HiL Hx Hxk Hag) IH ?addSnnS.
Qed.

Lemma pr_partition A (T : eqType) (d : dist R A) (f : A -> T) (ys : seq T) : uniq ys ->
  \sum_(y <- ys) pr d (fun a => f a == y) = pr d (fun a => f a \in ys).
Proof.
move=> Hu; rewrite /pr; elim: d => [|a d IH].
  by rewrite big_nil big1 // => y _; rewrite big_nil.
under eq_bigr do rewrite big_cons.
rewrite big_cons -IH; case: ifP => Ha.
  rewrite (perm_big _ (perm_to_rem Ha)) /= big_cons eqxx [X in _ = _ + X](perm_big _ (perm_to_rem Ha)) /= big_cons addrA.
  congr (_ + _); rewrite big_seq_cond [RHS]big_seq_cond; apply: eq_bigr => y /andP[Hy _].
  by rewrite ifN //; apply/eqP => E; move: Hy; rewrite -E (mem_rem_uniq _ Hu) inE eqxx.
rewrite big_seq_cond [RHS]big_seq_cond; apply: eq_bigr => y /andP[Hy _].
by rewrite ifN //; apply/eqP => E; rewrite E Hy in Ha.
Qed.
End AR.
