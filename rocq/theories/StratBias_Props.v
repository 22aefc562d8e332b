(* C129: expectation of the estimates of stratified sampling, state_stratified_sampling.py L108-220
   (Strat_Model) with expect of state_unique_samples.py (Unique_Model, weighted).

   The samples are random variables on a finite probability space Om, w: R ranks, m samples from the
   complement and k random samples per rank; only the distribution of every single sample is fixed
   (samples may depend on each other, as those of a Markov chain do). *)
From Verif Require Import Base Numq Unique_Model Strat_Model.
Import Order.Theory Num.Theory GRing.Theory.
Local Open Scope ring_scope.

Section C129.
Variables (F : realFieldType) (X Om : finType) (w : Om -> F) (prob : X -> F).
Variables (det : seq X) (R m k : nat).
Variables (det_of : 'I_R -> seq X) (comp : Om -> 'I_R -> 'I_m -> X) (rnd : Om -> 'I_R -> 'I_k -> X).
Hypotheses (w1 : \sum_o w o = 1) (udet : uniq det)
  (* array_split of the deterministic samples, L45-47 *)
  (split_det : flatten [seq det_of r | r <- enum 'I_R] = det).

Definition ranks_of (o : Om) : seq (rank_data X) :=
  [seq RankData (det_of r) [seq comp o r j | j <- enum 'I_m] [seq rnd o r j | j <- enum 'I_k]
  | r <- enum 'I_R].
(* the mean of a local estimator over the samples and weights of all ranks *)
Definition strat_mean (renormalize rand_norm : bool) (f : X -> F) (o : Om) : F :=
  weighted [seq (unzip1 (strat_weights det prob #|X| renormalize rand_norm (ranks_of o) r),
                 unzip2 (strat_weights det prob #|X| renormalize rand_norm (ranks_of o) r))
           | r <- ranks_of o] f.
(* every sample from the complement has the probabilities prob restricted to the complement *)
Definition complement_sampled : Prop := forall r j (g : X -> F),
  \sum_o w o * g (comp o r j) = (\sum_(x | x \notin det) prob x * g x) / \sum_(x | x \notin det) prob x.
(* every random sample is uniform in the complement *)
Definition uniform_sampled : Prop := forall r j (g : X -> F),
  \sum_o w o * g (rnd o r j) = (\sum_(x | x \notin det) g x) / #|[pred x | x \notin det]|%:R.

Lemma ranks_sum (A : rank_data X -> F) o : \sum_(r <- ranks_of o) A r =
  \sum_(r < R) A (RankData (det_of r) [seq comp o r j | j <- enum 'I_m] [seq rnd o r j | j <- enum 'I_k]).
Proof. by rewrite big_map big_enum. Qed.

Lemma det_sum (g : X -> F) : \sum_(r < R) \sum_(x <- det_of r) g x = \sum_(x in det) g x.
Proof.
by rewrite -big_uniq // -split_det big_flatten big_map big_enum.
Qed.

Lemma strat_meanE rn rd f o : strat_mean rn rd f o =
  (\sum_(x in det) prob x * f x) / scale prob rn (ranks_of o) / norm_estimate det prob #|X| rn rd (ranks_of o)
  + (1 - norm_deterministic prob rn (ranks_of o) / norm_estimate det prob #|X| rn rd (ranks_of o))
    / total_samples F (ranks_of o) * \sum_(r < R) \sum_(j < m) f (comp o r j).
Proof.
rewrite /strat_mean /weighted big_map.
set sc := scale _ _ _; set ne := norm_estimate _ _ _ _ _ _; set nd := norm_deterministic _ _ _.
set tt := total_samples _ _.
transitivity (\sum_(r <- ranks_of o) (\sum_(x <- rd_det r) prob x / sc / ne * f x
    + \sum_(x <- rd_comp r) (1 - nd / ne) / tt * f x)).
  by apply: eq_bigr => r _; rewrite zip_unzip big_cat /= !big_map.
rewrite big_split /= !ranks_sum; congr (_ + _).
  rewrite !mulr_suml -(det_sum (fun x => _)); apply: eq_bigr => r _ /=.
  by apply: eq_bigr => x _; rewrite mulrAC [prob x / sc * _]mulrAC.
rewrite mulr_sumr; apply: eq_bigr => r _ /=; rewrite big_map big_enum mulr_sumr.
by apply: eq_bigr.
Qed.

Lemma total_samplesE o : total_samples F (ranks_of o) = (R * m)%:R.
Proof.
rewrite /total_samples /rsum ranks_sum /= (eq_bigr (fun _ => m%:R)); last first.
  by move=> r _; rewrite size_map size_enum_ord.
by rewrite sumr_const card_ord -mulrnA mulnC.
Qed.

Lemma norm_deterministicE rn o :
  norm_deterministic prob rn (ranks_of o) = (\sum_(x in det) prob x) / scale prob rn (ranks_of o).
Proof.
rewrite /norm_deterministic /rsum ranks_sum /= (det_sum (fun x => prob x / _)).
by rewrite mulr_suml.
Qed.

Lemma sum_split (g : X -> F) : \sum_x g x = \sum_(x in det) g x + \sum_(x | x \notin det) g x.
Proof. by rewrite (bigID (mem det)). Qed.

Lemma ex_sum n (g : Om -> 'I_R -> 'I_n -> F) a : (forall r j, \sum_o w o * g o r j = a) ->
  \sum_o w o * (\sum_(r < R) \sum_(j < n) g o r j) = (R * n)%:R * a.
Proof.
move=> h; under eq_bigr do rewrite mulr_sumr; rewrite exchange_big /=.
rewrite (eq_bigr (fun _ => n%:R * a)); last first.
  move=> r _; under eq_bigr do rewrite mulr_sumr; rewrite exchange_big /=.
  by rewrite (eq_bigr (fun _ => a)) // sumr_const card_ord mulr_natl.
by rewrite sumr_const card_ord -mulr_natl mulrA -natrM.
Qed.

(* C129, what holds: for normalised models (renormalize = False) the mean is unbiased *)
Theorem C129_normalised_partial rd f : (0 < R * m)%N -> \sum_x prob x = 1 ->
  \sum_(x | x \notin det) prob x != 0 -> complement_sampled ->
  \sum_o w o * strat_mean false rd f o = \sum_x prob x * f x.
Proof.
move=> n0 hp hc hs.
have nz : (R * m)%:R != 0 :> F by rewrite pnatr_eq0 -lt0n.
have e1 : 1 - \sum_(x in det) prob x = \sum_(x | x \notin det) prob x.
  by rewrite -hp sum_split addrC addKr.
transitivity (\sum_o (w o * (\sum_(x in det) prob x * f x) +
   (\sum_(x | x \notin det) prob x) / (R * m)%:R * (w o * \sum_(r < R) \sum_(j < m) f (comp o r j)))).
  apply: eq_bigr => o _; rewrite strat_meanE norm_deterministicE total_samplesE /norm_estimate /scale.
  by rewrite !divr1 e1 mulrDr; congr (_ + _); rewrite mulrCA.
rewrite big_split /= -mulr_suml w1 mul1r -mulr_sumr [RHS]sum_split; congr (_ + _).
rewrite (ex_sum (fun r j => hs r j f)).
by rewrite mulrA mulfVK // mulrC mulfVK.
Qed.

Lemma scale_gt0 o : (forall x, 0 < prob x) -> (0 < R * m)%N -> 0 < scale prob true (ranks_of o).
Proof.
move=> p0 n0; rewrite /scale /max_prob.
have hm (l : seq F) y : y \in l -> y <= foldr Num.max 0 l.
  by elim: l => //= z l IH; rewrite inE le_maxr => /orP[/eqP ->|/IH ->]; rewrite ?lexx ?orbT.
have [R0 m0] : (0 < R)%N /\ (0 < m)%N by apply/andP; rewrite -muln_gt0.
pose r := Ordinal R0; pose j := Ordinal m0.
apply: lt_le_trans (p0 (comp o r j)) _; apply: hm; apply/flattenP.
exists (map prob (det_of r ++ [seq comp o r j | j <- enum 'I_m])).
  by rewrite /ranks_of -map_comp; apply/mapP; exists r; rewrite ?mem_enum.
by apply: map_f; rewrite mem_cat; apply/orP; right; apply/mapP; exists j; rewrite ?mem_enum.
Qed.

Lemma N_complementE : N_complement det F #|X| = #|[pred x | x \notin det]|%:R.
Proof.
rewrite /N_complement; have <- : (size det + #|[pred x | x \notin det]| = #|X|)%N.
  by rewrite -(card_uniqP udet) -(cardC (mem det)); congr addn; apply: eq_card.
by rewrite natrD addrAC subrr add0r.
Qed.

(* C129, what holds: with rand_norm the estimate of the norm of the complement is unbiased (scale:
   exp(rescale_shift)), whatever the dependence of the random samples on each other ... *)
Theorem C129_rand_norm : (0 < R * k)%N -> (0 < R * m)%N -> (forall x, 0 < prob x) ->
  (0 < #|[pred x | x \notin det]|)%N -> uniform_sampled ->
  \sum_o w o * (norm_sampled det prob #|X| true true (ranks_of o) * scale prob true (ranks_of o))
  = \sum_(x | x \notin det) prob x.
Proof.
move=> k0 n0 p0 c0 hu.
have kz : (R * k)%:R != 0 :> F by rewrite pnatr_eq0 -lt0n.
have cz : #|[pred x | x \notin det]|%:R != 0 :> F by rewrite pnatr_eq0 -lt0n.
transitivity (\sum_o #|[pred x | x \notin det]|%:R / (R * k)%:R *
    (w o * \sum_(r < R) \sum_(j < k) prob (rnd o r j))).
  apply: eq_bigr => o _; have sz := lt0r_neq0 (scale_gt0 o p0 n0).
  rewrite /norm_sampled /rsum !ranks_sum N_complementE /=.
  have -> : \sum_(i < R) (size [seq rnd o i j | j <- enum 'I_k])%:R = (R * k)%:R :> F.
    rewrite (eq_bigr (fun _ => k%:R)); last by move=> r _; rewrite size_map size_enum_ord.
    by rewrite sumr_const card_ord -mulrnA mulnC.
  have -> : \sum_(r < R) \sum_(x <- [seq rnd o r j | j <- enum 'I_k]) prob x / scale prob true (ranks_of o)
     = (\sum_(r < R) \sum_(j < k) prob (rnd o r j)) / scale prob true (ranks_of o).
    rewrite mulr_suml; apply: eq_bigr => r _; rewrite big_map big_enum mulr_suml.
    by apply: eq_bigr.
  rewrite [RHS]mulrCA; congr (_ * _).
  change (max_prob prob (ranks_of o)) with (scale prob true (ranks_of o)).
  set S := \sum_(r < R) _; set sc := scale _ _ _ in sz *.
  by rewrite mulrAC -!mulrA; congr (_ * _); rewrite [sc^-1 * _]mulrA mulVf // mul1r mulrC.
rewrite -mulr_sumr (ex_sum (a := (\sum_(x | x \notin det) prob x) / #|[pred x | x \notin det]|%:R)).
  by rewrite -mulrA mulKf // mulrCA divff // mulr1.
by move=> r j; rewrite hu.
Qed.

(* ... and without rand_norm its reciprocal is *)
Theorem C129_harmonic_norm : (0 < R * m)%N -> (forall x, 0 < prob x) ->
  (0 < #|[pred x | x \notin det]|)%N -> complement_sampled ->
  \sum_o w o * (norm_sampled det prob #|X| true false (ranks_of o) * scale prob true (ranks_of o))^-1
  = (\sum_(x | x \notin det) prob x)^-1.
Proof.
move=> n0 p0 c0 hs.
have nz : (R * m)%:R != 0 :> F by rewrite pnatr_eq0 -lt0n.
have cz : #|[pred x | x \notin det]|%:R != 0 :> F by rewrite pnatr_eq0 -lt0n.
transitivity (\sum_o (#|[pred x | x \notin det]|%:R)^-1 / (R * m)%:R *
    (w o * \sum_(r < R) \sum_(j < m) (prob (comp o r j))^-1)).
  apply: eq_bigr => o _; have sz := lt0r_neq0 (scale_gt0 o p0 n0).
  rewrite /norm_sampled /rsum !ranks_sum N_complementE total_samplesE /=.
  have -> : \sum_(r < R) \sum_(x <- [seq comp o r j | j <- enum 'I_m]) (prob x / scale prob true (ranks_of o))^-1
     = scale prob true (ranks_of o) * (\sum_(r < R) \sum_(j < m) (prob (comp o r j))^-1).
    rewrite mulr_sumr; apply: eq_bigr => r _; rewrite big_map big_enum mulr_sumr.
    by apply: eq_bigr => j _; rewrite invf_div.
  rewrite [RHS]mulrCA; congr (_ * _).
  change (max_prob prob (ranks_of o)) with (scale prob true (ranks_of o)).
  set S := \sum_(r < R) _; set sc := scale _ _ _ in sz *.
  by rewrite [sc * S]mulrC (invfM S sc) [_ * (S^-1 * _)]mulrA divfK // !invfM invrK.
rewrite -mulr_sumr (ex_sum (a := #|[pred x | x \notin det]|%:R / \sum_(x | x \notin det) prob x)).
  by rewrite -mulrA mulKf // mulKf.
move=> r j; rewrite (hs r j (fun x => (prob x)^-1)); congr (_ / _).
rewrite (eq_bigr (fun _ => 1)); last by move=> x _; rewrite divff // lt0r_neq0.
by rewrite sumr_const.
Qed.
End C129.

(* One rank, three configurations, deterministic one 0, probabilities 1, 1, 3; one random sample, uniform
   in the complement {1, 2}, and one sample from the complement with probabilities 1/4, 3/4. *)
Section Witness.
Variable F : realFieldType.
Definition wprob (x : 'I_3) : F := if x == 2%N :> nat then 3%:R else 1.
Definition wdet : seq 'I_3 := [:: ord0].
Definition wOm : finType := [finType of bool * bool].
Definition wpr (o : wOm) : F := (if o.1 then 3%:R / 4%:R else 1 / 4%:R) / 2%:R.
Definition wx (b : bool) : 'I_3 := if b then inord 2 else inord 1.
Definition wcomp (o : wOm) (r : 'I_1) (j : 'I_1) := wx o.1.
Definition wrnd (o : wOm) (r : 'I_1) (j : 'I_1) := wx o.2.

Lemma wsum (g : wOm -> F) : \sum_o g o = g (true, true) + g (true, false) + g (false, true) + g (false, false).
Proof.
rewrite (eq_bigr (fun o => g (o.1, o.2))); last by case.
rewrite -(pair_bigA _ (fun a b => g (a, b))) /= big_bool !big_bool /=.
by rewrite addrA.
Qed.
Lemma w3 (g : 'I_3 -> F) : \sum_(x | x \notin wdet) g x = g (inord 1) + g (inord 2).
Proof.
rewrite big_mkcond !big_ord_recl big_ord0 /= add0r addr0.
by congr (g _ + g _); apply: val_inj; rewrite /= inordK.
Qed.
Lemma wcard : #|[pred x | x \notin wdet]| = 2%N.
Proof. by rewrite -sum1_card big_mkcond !big_ord_recl big_ord0. Qed.
Lemma wcomplement : complement_sampled wpr wprob wdet wcomp.
Proof.
move=> r j g; rewrite wsum !w3 /wpr /wcomp /wx /wprob !inordK //=.
rewrite -addrA -!mulrDl addrC [RHS]mulrDl.
by congr (_ + _); rewrite [RHS]mulrAC; congr (_ * _); numq F.
Qed.
Lemma wuniform : uniform_sampled wpr wdet wrnd.
Proof.
move=> r j g; rewrite wsum !w3 wcard /wpr /wrnd /wx /=.
rewrite -addrA addrACA -(mulrDl _ _ (g (inord 2))) -(mulrDl _ _ (g (inord 1))) addrC [RHS]mulrDl.
by rewrite ![g _ / _]mulrC; congr (_ * _ + _ * _); numq F.
Qed.
Lemma wranks : flatten [seq wdet | r <- enum 'I_1] = wdet.
Proof. by rewrite enum_ordS enum_ord0. Qed.

Lemma wmean rd o : strat_mean wprob wdet (fun _ : 'I_1 => wdet) wcomp wrnd true rd (fun x => (x == ord0)%:R) o
  = (1 + 2%:R * wprob (wx (if rd then o.2 else o.1)))^-1.
Proof.
have wd (g : 'I_3 -> F) : \sum_(x in wdet) g x = g ord0 by rewrite -big_uniq // big_seq1.
rewrite strat_meanE //; last exact: wranks.
rewrite [X in _ + X](_ : _ = 0) ?addr0; last first.
  rewrite !big_ord_recl !big_ord0 !addr0 /wcomp.
  by rewrite (_ : (_ == _) = false) ?mulr0 //; case: o.1; rewrite /wx -val_eqE /= inordK.
rewrite wd eqxx mulr1 /norm_estimate (norm_deterministicE _ _ _ _ wranks) // wd.
rewrite /norm_sampled /rsum !ranks_sum N_complementE // wcard total_samplesE.
rewrite !big_ord_recl !big_ord0 !addr0 !enum_ordS !enum_ord0 /= !big_seq1 /=.
have p0 x : 0 < wprob x by rewrite /wprob; case: ifP; rewrite ?ltr0n ?ltr01.
have := @scale_gt0 F _ _ wprob 1 1 1 (fun _ => wdet) wcomp wrnd o p0 isT.
rewrite /scale; set M := max_prob _ _ => M0; have Mz := lt0r_neq0 M0.
rewrite (_ : wprob ord0 = 1) // mul1r.
rewrite [X in _ / (_ + X)](_ : _ = 2%:R * wprob (wx (if rd then o.2 else o.1)) / M); last first.
  by case: rd; rewrite /wrnd /wcomp ?divr1 ?invrK ?mulr1 mulrA.
by rewrite -[X in _ / (X + _)]mul1r -mulrDl invfM invrK mulrC mulfK.
Qed.

(* the assumptions of the theorems above can be met, on the same samples *)
Definition wprobn (x : 'I_3) : F := wprob x / 5%:R.
Lemma w_pos x : 0 < wprob x.
Proof. by rewrite /wprob; case: ifP; rewrite ?ltr0n ?ltr01. Qed.
Lemma w1sum : \sum_o wpr o = 1.
Proof. by rewrite wsum /wpr /=; numq F. Qed.
Example C129_example_norms :
  \sum_o wpr o * (norm_sampled wdet wprob #|'I_3| true true (ranks_of (fun _ : 'I_1 => wdet) wcomp wrnd o)
                  * scale wprob true (ranks_of (fun _ : 'I_1 => wdet) wcomp wrnd o)) = 4%:R
  /\ \sum_o wpr o * (norm_sampled wdet wprob #|'I_3| true false (ranks_of (fun _ : 'I_1 => wdet) wcomp wrnd o)
                  * scale wprob true (ranks_of (fun _ : 'I_1 => wdet) wcomp wrnd o))^-1 = 4%:R^-1.
Proof.
have e : \sum_(x | x \notin wdet) wprob x = 4%:R by rewrite w3 /wprob !inordK //=; numq F.
split.
  by rewrite C129_rand_norm ?e ?wcard //; [exact: w_pos | exact: wuniform].
by rewrite C129_harmonic_norm ?e ?wcard //; [exact: w_pos | exact: wcomplement].
Qed.
Example C129_example_normalised rd (f : 'I_3 -> F) :
  \sum_o wpr o * strat_mean wprobn wdet (fun _ : 'I_1 => wdet) wcomp wrnd false rd f o
  = (f ord0 + f (inord 1) + 3%:R * f (inord 2)) / 5%:R.
Proof.
rewrite C129_normalised_partial //.
- rewrite !big_ord_recl big_ord0 addr0 /wprobn /wprob /=.
  have -> : lift ord0 ord0 = inord 1 :> 'I_3 by apply: val_inj; rewrite /= inordK.
  have -> : lift ord0 (lift ord0 ord0) = inord 2 :> 'I_3 by apply: val_inj; rewrite /= inordK.
  by rewrite !mulrDl -addrA ![_ / _ * _]mulrAC !mul1r.
- exact: w1sum.
- exact: wranks.
- by rewrite !big_ord_recl big_ord0 /wprobn /wprob /=; numq F.
- by rewrite w3 /wprobn /wprob !inordK //=; numq F.
move=> r j g; rewrite wcomplement !w3 /wprobn.
rewrite ![_ / 5%:R * _]mulrAC -!mulrDl -[RHS]mulf_div.
by rewrite divff ?mulr1 // invr_neq0 // pnatr_eq0.
Qed.
End Witness.

(* C129 is false with renormalize = True, whatever rand_norm: the ratio of the estimates is biased *)
Theorem C129_unbiased_refuted (F : realFieldType) (rd : bool) :
  exists (X Om : finType) (w : Om -> F) (prob : X -> F) (det : seq X) (R m k : nat)
    (det_of : 'I_R -> seq X) (comp : Om -> 'I_R -> 'I_m -> X) (rnd : Om -> 'I_R -> 'I_k -> X) (f : X -> F),
  [/\ (forall o, 0 <= w o) /\ \sum_o w o = 1, uniq det /\ flatten [seq det_of r | r <- enum 'I_R] = det,
      (forall x, 0 < prob x) /\ ((0 < R * m)%N /\ (0 < R * k)%N),
      complement_sampled w prob det comp /\ uniform_sampled w det rnd &
      \sum_o w o * strat_mean prob det det_of comp rnd true rd f o <> (\sum_x prob x * f x) / \sum_x prob x].
Proof.
exists [finType of 'I_3], wOm, (@wpr F), (@wprob F), wdet, 1%N, 1%N, 1%N, (fun _ => wdet), wcomp, wrnd,
  (fun x => (x == ord0)%:R); split.
- split; first by move=> [[] b] /=; rewrite /wpr /= !divr_ge0 ?ler0n ?ler01.
  by rewrite wsum /wpr /=; numq F.
- by split=> //; exact: wranks.
- by split=> // x; rewrite /wprob; case: ifP; rewrite ?ltr0n ?ltr01.
- by split; [exact: wcomplement | exact: wuniform].
- apply/eqP; rewrite wsum !wmean /wpr /= !big_ord_recl !big_ord0 /wprob /=.
  by case: rd; rewrite /wx /= !inordK //=; numq F.
Qed.
