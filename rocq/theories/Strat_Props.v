(* C44: the stratified-sampling state *)
From Verif Require Import Base Split_Model Split_Props Strat_Model.
Import Num.Theory Order.TTheory.
Local Open Scope ring_scope.

Section Chain.
Variables (T : eqType) (Rng : Type) (mc_step : Rng -> seq T -> Rng * seq T) (det : seq T).
Definition outside (l : seq T) : bool := all (fun x => x \notin det) l.

(* every initial chain is in the complement *)
Lemma initial_outside n cands l : initial_chains det n cands = Some l -> outside l /\ size l = n.
Proof.
elim: n cands l => [|n IH] cands l /=; first by case=> <-.
case Ed : (draw_valid det cands) => [[c cs]|] //.
case Ei : (initial_chains det n cs) => [l'|] //= [<-] /=.
have [-> ->] := IH _ _ Ei; split=> //; rewrite andbT.
by elim: cands Ed => //= a cands IHc; case: ifP => [_|Ha [<- _]]; [exact: IHc | rewrite Ha].
Qed.

Lemma step_outside st : outside st.2 -> outside (sample_step mc_step det st).2.
Proof.
case: st => rng l /=; rewrite /sample_step /=; case: (mc_step rng l) => rng' l' /= H.
elim: l l' H => [|x l IH] [|y l'] //= /andP[Hx Hl]; rewrite IH // andbT /reject_det.
by case: ifP => // ->.
Qed.

Lemma iter_outside n st : outside st.2 -> outside (iter n (sample_step mc_step det) st).2.
Proof. by elim: n => //= n IH H; apply: step_outside; apply: IH. Qed.

Lemma collect_outside n_sweeps n st : outside st.2 ->
  all outside (collect mc_step det n_sweeps n st).1 /\ outside (collect mc_step det n_sweeps n st).2.2.
Proof.
elim: n st => [|n IH] st H //=.
have H' : outside (sweep mc_step det n_sweeps st).2 by apply: iter_outside.
by have := IH _ H'; case: (collect _ _ _ _ _) => l st' [/= -> ->]; rewrite H'.
Qed.

Lemma flatten_outside (ls : seq (seq T)) : all outside ls -> outside (flatten ls).
Proof. by elim: ls => //= l ls IH /andP[H /IH H']; rewrite /outside all_cat; apply/andP. Qed.

(* C44, chain: whatever the sampler proposes, for any number of calls of samples_with_counts in
   a row (histories), the samples taken from the complement are outside the deterministic set *)
Definition history (args : seq (nat * nat * nat)) (st : Rng * seq T) : seq (seq T) * (Rng * seq T) :=
  foldl (fun acc a => let: (l, st') := complement_samples mc_step det a.1.1 a.1.2 a.2 acc.2 in (rcons acc.1 l, st')) ([::], st) args.
Theorem C44_complement rng n cands l args :
  initial_chains det n cands = Some l ->
  all (all (fun x => x \notin det)) (history args (rng, l)).1.
Proof.
move=> Hi; have [Hl _] := initial_outside Hi.
suff : forall acc : seq (seq T) * (Rng * seq T), all outside acc.1 -> outside acc.2.2 ->
    all outside (foldl (fun acc a => let: (l, st') := complement_samples mc_step det a.1.1 a.1.2 a.2 acc.2 in (rcons acc.1 l, st')) acc args).1
    by move/(_ ([::], (rng, l)) isT Hl).
elim: args => [|[[nd ns] cl] args IH] //= [ls st] /= H1 H2.
rewrite /complement_samples /=.
have H3 : outside (sweep mc_step det (nd * ns) st).2 by apply: iter_outside.
have := collect_outside ns cl H3; case: (collect _ _ _ _ _) => c st' [/= H4 H5].
by apply: IH => //=; rewrite all_rcons H1 flatten_outside.
Qed.

(* the uniformly drawn configurations for the norm are outside too *)
Theorem C44_random k cands l : random_samples det k cands = Some l -> all (fun x => x \notin det) l /\ size l = k.
Proof.
rewrite /random_samples; case: ifP => // Hk [<-]; split; last by rewrite size_takel.
apply/allP => x /mem_take; by rewrite mem_filter => /andP[].
Qed.

(* number of samples: chain_length per chain *)
Lemma size_step st : (forall rng l, size (mc_step rng l).2 = size l) -> size (sample_step mc_step det st).2 = size st.2.
Proof.
case: st => rng l Hs; rewrite /sample_step /=; have := Hs rng l; case: (mc_step rng l) => r l' /= E.
by rewrite size_map size_zip E minnn.
Qed.
End Chain.

(* The kernel of one chain.  [P x z]: probability that one step of the underlying sampler goes
   from x to z; sample_step maps z to [reject_det det x z]. *)
Section Kernel.
Variables (F : realFieldType) (T : finType) (P : T -> T -> F) (det : seq T) (w : T -> F).
Definition kernel (x y : T) : F := \sum_(z | reject_det det x z == y) P x z.

Lemma kernel_in x y : y \notin det -> x != y -> kernel x y = P x y.
Proof.
move=> Hy Hxy; rewrite /kernel (bigD1 y) /=; last by rewrite /reject_det (negbTE Hy).
rewrite big1 ?addr0 // => z /andP[]; rewrite /reject_det; case: ifP => [_|_ /eqP->]; last by rewrite eqxx.
by rewrite (negbTE Hxy).
Qed.

(* if the underlying sampler satisfies detailed balance with respect to w, the restricted chain
   does so on the complement, is a probability kernel and leaves w restricted to the complement
   invariant *)
Theorem C44_kernel : (forall x y, w x * P x y = w y * P y x) -> (forall x, \sum_z P x z = 1) ->
  (forall x z, 0 <= P x z) ->
  [/\ (forall x y, x \notin det -> y \notin det -> w x * kernel x y = w y * kernel y x),
      (forall x y, x \notin det -> y \in det -> kernel x y = 0),
      (forall x, \sum_y kernel x y = 1) /\ (forall x y, 0 <= kernel x y) &
      (forall y, y \notin det -> \sum_(x | x \notin det) w x * kernel x y = w y)].
Proof.
move=> Hdb H1 H0.
have Hb x y : x \notin det -> y \notin det -> w x * kernel x y = w y * kernel y x.
  move=> Hx Hy; case: (altP (x =P y)) => [->//|Hne].
  by rewrite !kernel_in // 1?eq_sym.
have Hz x y : x \notin det -> y \in det -> kernel x y = 0.
  move=> Hx Hy; rewrite /kernel big1 // => z; rewrite /reject_det; case: ifP => [_|Hz] /eqP E.
    by rewrite E Hy in Hx.
  by rewrite E Hy in Hz.
have Hs x : \sum_y kernel x y = 1.
  rewrite -(H1 x) /kernel (exchange_big_dep xpredT) //=; apply: eq_bigr => z _.
  by rewrite (big_pred1 (reject_det det x z)) // => y; rewrite eq_sym.
split=> //; first by split=> // x y; apply: sumr_ge0.
move=> y Hy; rewrite (eq_bigr (fun x => w y * kernel y x)) => [|x Hx]; last exact: Hb.
rewrite -mulr_sumr -[RHS]mulr1 -(Hs y); congr (_ * _).
rewrite [RHS](bigID (fun x => x \notin det)) /= [X in _ + X]big1 ?addr0 // => x; rewrite negbK => Hx.
exact: Hz.
Qed.
End Kernel.

Section Weights.
Variables (T : eqType) (F : realFieldType) (prob : T -> F) (det : seq T) (N_total : nat) (renormalize rand_norm : bool).
Variable ranks : seq (rank_data T).
Notation weights := (strat_weights det prob N_total renormalize rand_norm ranks).
Notation Z := (norm_estimate det prob N_total renormalize rand_norm ranks).

(* the ranks' deterministic parts put together are the deterministic set *)
Lemma det_split n : (0 < n)%N -> map (@rd_det T) ranks = array_split det n -> flatten (map (@rd_det T) ranks) = det.
Proof. by move=> Hn ->; have [] := C58_partition_partial det Hn. Qed.

(* C44, weights: they sum to one over all ranks *)
Theorem C44_sum : Z != 0 -> (0 < size (flatten (map (@rd_comp T) ranks)))%N ->
  \sum_(r <- ranks) \sum_(p <- weights r) p.2 = 1.
Proof.
move=> HZ Hpos.
have Ht : total_samples F ranks != 0.
  rewrite /total_samples /rsum -natr_sum pnatr_eq0 -lt0n; congr (0 < _)%N: Hpos.
  by elim: (ranks) => [|r rs IH]; rewrite ?big_nil // big_cons /= size_cat IH.
rewrite (eq_bigr (fun r => (\sum_(x <- rd_det r) prob x / scale prob renormalize ranks) / Z
   + (size (rd_comp r))%:R * ((1 - norm_deterministic prob renormalize ranks / Z) / total_samples F ranks))) => [|r _].
  rewrite big_split /= -!mulr_suml -/(norm_deterministic _ _ _) -/(total_samples _ _).
  by rewrite mulrCA mulfV // mulr1 addrC subrK.
rewrite /strat_weights big_cat /= !big_map /=; congr (_ + _); first by rewrite mulr_suml.
by rewrite big_const_seq count_predT iter_addr_0 mulr_natl.
Qed.

(* the weights of the deterministic samples are proportional to their probabilities; when the
   norm estimate is exact, they are their probabilities, and the samples from the complement
   share the remaining probability equally *)
Theorem C44_exact (Ztot : F) r : Ztot != 0 -> scale prob renormalize ranks != 0 ->
  Z * scale prob renormalize ranks = Ztot ->
  weights r = [seq (x, prob x / Ztot) | x <- rd_det r]
    ++ [seq (x, (1 - (\sum_(x <- flatten (map (@rd_det T) ranks)) prob x) / Ztot) / total_samples F ranks) | x <- rd_comp r].
Proof.
move=> HZ Hs E; rewrite /strat_weights; congr (_ ++ _).
  by apply: eq_map => x; rewrite -E invfM mulrAC -mulrA.
apply: eq_map => x; congr (_, (1 - _) / _).
rewrite /norm_deterministic /rsum big_flatten big_map -E mulrC invfM mulr_sumr mulr_suml.
by apply: eq_bigr => q _; rewrite -mulr_suml mulrCA.
Qed.

(* positivity *)
Hypothesis Hprob : forall x, 0 < prob x.
Lemma scale_ge0 : 0 <= scale prob renormalize ranks.
Proof.
rewrite /scale; case: renormalize; last exact: ler01.
rewrite /max_prob; elim: (flatten _) => //= a l IH; by rewrite le_maxr IH orbT.
Qed.
Lemma ndet_ge0 : 0 <= norm_deterministic prob renormalize ranks.
Proof.
by rewrite /norm_deterministic /rsum; apply: sumr_ge0 => r _; apply: sumr_ge0 => x _; rewrite divr_ge0 ?scale_ge0 // ltW.
Qed.
Lemma rsum_ge0 (f : rank_data T -> F) : (forall r, 0 <= f r) -> 0 <= rsum ranks f.
Proof. by move=> H; apply: sumr_ge0 => r _. Qed.
Lemma nsam_ge0 : (size det <= N_total)%N -> 0 <= norm_sampled det prob N_total renormalize rand_norm ranks.
Proof.
move=> HN; have Hc : 0 <= N_complement det F N_total by rewrite /N_complement subr_ge0 ler_nat.
rewrite /norm_sampled; case: rand_norm.
  apply: divr_ge0; last by apply: rsum_ge0 => r; rewrite ler0n.
  apply: mulr_ge0 => //; apply: rsum_ge0 => r; apply: sumr_ge0 => x _; by rewrite divr_ge0 ?scale_ge0 // ltW.
apply: divr_ge0.
  by apply: mulr_ge0 => //; apply: rsum_ge0 => r; rewrite ler0n.
by apply: rsum_ge0 => r; apply: sumr_ge0 => x _; rewrite invr_ge0 divr_ge0 ?scale_ge0 // ltW.
Qed.

Theorem C44_nonneg : (size det <= N_total)%N -> renormalize -> forall r p, p \in weights r -> 0 <= p.2.
Proof.
move=> HN Hr r p; have Ez : Z = norm_deterministic prob renormalize ranks + norm_sampled det prob N_total renormalize rand_norm ranks.
  by rewrite /norm_estimate Hr.
have HZ : 0 <= Z by rewrite Ez addr_ge0 ?ndet_ge0 ?nsam_ge0.
rewrite mem_cat => /orP[] /mapP[x _ ->] /=.
  by rewrite !divr_ge0 ?scale_ge0 // ltW.
apply: divr_ge0; last by apply: rsum_ge0 => q; rewrite ler0n.
rewrite subr_ge0; case: (altP (Z =P 0)) => [->|Hne]; first by rewrite invr0 mulr0 ler01.
rewrite ler_pdivr_mulr ?mul1r; last by rewrite lt_def Hne HZ.
by rewrite Ez ler_addl nsam_ge0.
Qed.
End Weights.

(* two ranks; deterministic configurations 0 and 1 with probabilities 1 and 2, samples 5 and 6
   from the complement (probabilities 3 and 1) of a space with 4 configurations *)
Definition ex_prob (x : nat) : rat := nth 0 [:: 1; 2%:R; 0; 0; 0; 3%:R; 1] x.
Definition ex_ranks := [:: RankData [:: 0%N] [:: 5%N; 6%N] [:: 5%N]; RankData [:: 1%N] [:: 5%N] [:: 6%N]].
Example C44_example :
  [seq strat_weights [:: 0; 1]%N ex_prob 4 true true ex_ranks r | r <- ex_ranks]
  = [:: [:: (0%N, 1 / 7%:R); (5%N, 4%:R / 21%:R); (6%N, 4%:R / 21%:R)]; [:: (1%N, 2%:R / 7%:R); (5%N, 4%:R / 21%:R)]].
Proof. by rewrite /strat_weights /norm_estimate /norm_sampled /norm_deterministic /total_samples /rsum /= unlock; vm_compute. Qed.
Example C44_chain_example :
  (complement_samples (fun r l => (r.+1, [seq (x + r)%N | x <- l])) [:: 3; 4]%N 1 1 3 (1%N, [:: 2; 0]%N)).1
  = [:: 2; 1; 5; 1; 9; 5]%N.
Proof. by []. Qed.
