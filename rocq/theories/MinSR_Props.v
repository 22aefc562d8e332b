(* C45: minSR uses every sample of every rank exactly once and pairs every jacobian row with
   its own local energy, for any number of ranks, chunks and samples per chunk -- if
   local_estimators returns the transposed array; false otherwise. *)
From Verif Require Import Base MinSR_Model MinSR_Proofs.
Local Open Scope ring_scope.

(* matrices spelled out over a list of weighted samples *)
Section Spec.
Variables (C : fieldType) (conj sqrt : C -> C) (T : Type) (P : nat).
Variables (jac : T -> C -> 'rV[C]_P) (eloc : T -> C).
Variables (N : nat) (rs : N.-tuple (T * C)).
Definition all_mean_O : 'rV[C]_P := \sum_k (tnth rs k).2 *: jac (tnth rs k).1 (tnth rs k).2.
Definition all_mean_E : C := \sum_k (tnth rs k).2 * eloc (tnth rs k).1.
Definition centred_rows : 'M[C]_(N, P) :=
  \matrix_(k, a) (jac (tnth rs k).1 (tnth rs k).2 - all_mean_O) 0 a.
Definition centred_energies : 'cV[C]_N :=
  \col_k ((eloc (tnth rs k).1 - all_mean_E) * sqrt (tnth rs k).2).
Definition adjoint m n (A : 'M[C]_(m, n)) : 'M[C]_(n, m) := map_mx conj (A^T).
End Spec.

(* the weighted samples of all ranks *)
Definition weighted_samples (C : fieldType) (T : Type) (ranks : seq (rank_state C T)) : seq (T * C) :=
  flatten [seq zip (flatten (samples rk)) (counts rk) | rk <- ranks].

(* the shapes: c chunks of s samples on every rank, samples a rectangular array *)
Definition well_shaped (C : fieldType) (T : Type) (ranks : seq (rank_state C T)) (c s : nat) : bool :=
  all (fun rk => [&& size (flatten (samples rk)) == (c * s)%N, size (counts rk) == (c * s)%N &
                     all (fun row => size row == size (head [::] (samples rk))) (samples rk)]) ranks.

Lemma zip_map2 (A B A' B' : Type) (f : A -> A') (g : B -> B') s t :
  zip (map f s) (map g t) = map (fun p => (f p.1, g p.2)) (zip s t).
Proof. by elim: s t => [|x s IH] [|y t] //=; rewrite IH. Qed.
Lemma map_zip1 (A B : Type) (s : seq A) (t : seq B) : size s = size t -> map fst (zip s t) = s.
Proof. by move=> H; rewrite -/(unzip1 _) unzip1_zip // H. Qed.
Lemma map_zip2 (A B : Type) (s : seq A) (t : seq B) : size s = size t -> map snd (zip s t) = t.
Proof. by move=> H; rewrite -/(unzip2 _) unzip2_zip // H. Qed.
Lemma zip_flatten (A B : Type) (I : eqType) (F : I -> seq A) (G : I -> seq B) (l : seq I) :
  (forall i, i \in l -> size (F i) = size (G i)) ->
  zip (flatten (map F l)) (flatten (map G l)) = flatten [seq zip (F i) (G i) | i <- l].
Proof.
elim: l => [|i l IH] //= H; rewrite zip_cat ?H ?mem_head // IH // => j Hj.
by apply: H; rewrite inE Hj orbT.
Qed.

Section Order.
Variables (C : fieldType) (conj sqrt : C -> C) (T : eqType) (P : nat).
Variables (jac : T -> C -> 'rV[C]_P) (eloc : T -> C).
Variables (ranks : seq (rank_state C T)) (c s : nat).
Hypothesis Hs : (0 < s)%N.
Hypothesis Hw : well_shaped ranks c s.
Let R := size ranks.

Lemma shape_nth r rk0 : (r < R)%N ->
  [/\ size (flat (nth rk0 ranks r)) = (c * s)%N, size (counts (nth rk0 ranks r)) = (c * s)%N &
      all (fun row => size row == size (head [::] (samples (nth rk0 ranks r)))) (samples (nth rk0 ranks r))].
Proof.
move=> Hr; have /and3P[/eqP H1 /eqP H2 H3] := all_nthP rk0 Hw _ Hr.
by split.
Qed.

Lemma loc_ensE rk : all (fun row => size row == size (head [::] (samples rk))) (samples rk) ->
  loc_ens eloc true rk = map eloc (flat rk).
Proof.
move=> H; rewrite /loc_ens /local_estimators /flat map_flatten.
case: (posnP (size (head [::] (samples rk)))) => Hb; last first.
  rewrite (@transposeK _ _ (size (head [::] (samples rk)))) // all_map.
  by apply: sub_all H => row /=; rewrite size_map.
have E : flatten (map (map eloc) (samples rk)) = [::].
  move: H; rewrite Hb; elim: (samples rk) => //= row l IH /andP[/eqP Hr Hl].
  by rewrite IH // (size0nil Hr).
have -> : transpose (map (map eloc) (samples rk)) = [::].
  by rewrite /transpose; case: (samples rk) Hb => //= r l; rewrite size_map => ->.
by rewrite E.
Qed.

(* reindexing the ranks by their number *)
Variable rk0 : rank_state C T.
Lemma map_ranks (A : Type) (f : rank_state C T -> A) : map f ranks = [seq f (nth rk0 ranks r) | r <- iota 0 R].
Proof. by rewrite -{1}(mkseq_nth rk0 ranks) /mkseq -map_comp. Qed.
Lemma zip_ranks : zip (iota 0 R) ranks = [seq (r, nth rk0 ranks r) | r <- iota 0 R].
Proof.
rewrite -{1}(mkseq_nth rk0 ranks) /mkseq -/R.
by elim: (iota 0 R) => //= r l ->.
Qed.

Let pairs (rk : rank_state C T) : seq (T * C) := zip (flat rk) (counts rk).
Definition order : seq (T * C) :=
  flatten [seq flatten [seq chunk s i (pairs rk) | rk <- ranks] | i <- iota 0 c].

Lemma size_pairs r : (r < R)%N -> size (pairs (nth rk0 ranks r)) = (c * s)%N.
Proof. by move=> Hr; have [H1 H2 _] := shape_nth rk0 Hr; rewrite /pairs size_zip H1 H2 minnn. Qed.

Lemma order_perm : perm_eq order (weighted_samples ranks).
Proof.
rewrite /order; apply: perm_trans (perm_flatten_swap _ _ _) _.
rewrite /weighted_samples !map_ranks.
have -> : [seq flatten [seq chunk s i (pairs (nth rk0 ranks r)) | i <- iota 0 c] | r <- iota 0 R] =
          [seq zip (flatten (samples (nth rk0 ranks r))) (counts (nth rk0 ranks r)) | r <- iota 0 R].
  by apply/eq_in_map => r; rewrite mem_iota add0n => /andP[_ Hr]; rewrite flatten_chunks // size_pairs.
by [].
Qed.

Lemma size_order : size order = (c * (R * s))%N.
Proof.
apply: size_flatten_blocks => i; rewrite add0n => /andP[_ Hi].
rewrite map_ranks; apply: size_flatten_blocks => r; rewrite add0n => /andP[_ Hr].
by rewrite (size_chunk (n := c)) // size_pairs.
Qed.

(* any sum over chunks and ranks is a sum over [order] *)
Lemma sum_order (V : zmodType) (F : T * C -> V) (S : rank_state C T -> nat -> V) :
  (forall r i, (r < R)%N -> (i < c)%N ->
     S (nth rk0 ranks r) i = \sum_(p <- chunk s i (pairs (nth rk0 ranks r))) F p) ->
  \sum_(i <- iota 0 c) \sum_(rk <- ranks) S rk i = \sum_(p <- order) F p.
Proof.
move=> H; rewrite /order big_flatten; apply: eq_big_seq => i; rewrite mem_iota add0n => /andP[_ Hi].
rewrite map_ranks big_flatten -{1}(mkseq_nth rk0 ranks) /mkseq big_map.
by apply: eq_big_seq => r; rewrite mem_iota add0n => /andP[_ Hr]; rewrite H.
Qed.

Lemma jac_rowsE rk i : jac_rows jac s rk i = [seq jac p.1 p.2 | p <- chunk s i (pairs rk)].
Proof. by rewrite /jac_rows /pairs chunk_zip. Qed.

Lemma zip_jac_rows rk i : size (flat rk) = size (counts rk) ->
  zip (jac_rows jac s rk i) (chunk s i (counts rk)) = [seq (jac p.1 p.2, p.2) | p <- chunk s i (pairs rk)].
Proof.
move=> H; rewrite jac_rowsE -{1}(map_zip2 H) chunk_map zip_map2 -/(pairs rk).
by elim: (chunk s i (pairs rk)) => //= p l ->.
Qed.

Lemma O_avgE : O_avg jac ranks c s = \sum_(p <- order) p.2 *: jac p.1 p.2.
Proof.
rewrite /O_avg; apply: (sum_order (S := fun rk i => \sum_(p <- zip (jac_rows jac s rk i) (chunk s i (counts rk))) p.2 *: p.1)).
move=> r i Hr Hi.
have [H1 H2 _] := shape_nth rk0 Hr.
by rewrite zip_jac_rows ?H1 ?H2 // big_map.
Qed.

Lemma zip_loc_ens r : (r < R)%N ->
  zip (loc_ens eloc true (nth rk0 ranks r)) (counts (nth rk0 ranks r)) =
  [seq (eloc p.1, p.2) | p <- pairs (nth rk0 ranks r)].
Proof.
move=> Hr; have [H1 H2 H3] := shape_nth rk0 Hr; rewrite loc_ensE // /pairs.
have H : size (flat (nth rk0 ranks r)) = size (counts (nth rk0 ranks r)) by rewrite H1 H2.
by rewrite -{1}[counts _]map_id zip_map2.
Qed.

Lemma e_meanE : e_mean eloc true ranks = \sum_(p <- order) p.2 * eloc p.1.
Proof.
rewrite (perm_big _ order_perm) /= /weighted_samples big_flatten /e_mean.
rewrite -{1 2}(mkseq_nth rk0 ranks) /mkseq !big_map.
apply: eq_big_seq => r; rewrite mem_iota add0n => /andP[_ Hr].
by rewrite zip_loc_ens // big_map; apply: eq_bigr => p _; rewrite mulrC.
Qed.

Lemma restackedE : restacked sqrt eloc true ranks c s =
  [seq (eloc p.1 - e_mean eloc true ranks) * sqrt p.2 | p <- order].
Proof.
rewrite /restacked /order map_flatten -map_comp; congr (flatten _).
apply/eq_in_map => i; rewrite mem_iota add0n => /andP[_ Hi] /=.
rewrite map_flatten -map_comp !map_ranks; congr (flatten _).
apply/eq_in_map => r; rewrite mem_iota add0n => /andP[_ Hr] /=.
by rewrite /loc_ens_centered zip_loc_ens // -chunk_map -map_comp.
Qed.

Lemma all_rowsE : flatten [seq rows_gathered jac ranks c s i | i <- iota 0 c] =
  [seq jac p.1 p.2 - O_avg jac ranks c s | p <- order].
Proof.
rewrite /order map_flatten -map_comp; congr (flatten _).
apply/eq_in_map => i; rewrite mem_iota add0n => /andP[_ Hi] /=.
rewrite /rows_gathered !map_flatten -!map_comp; congr (flatten _); apply: eq_map => rk /=.
by rewrite jac_rowsE -map_comp.
Qed.

Lemma chunk_chunk (A : Type) (l : seq A) i r : (r < R)%N ->
  chunk s r (chunk (R * s) i l) = take s (drop ((i * R + r) * s) l).
Proof.
move=> Hr; have H : (r.+1 * s <= R * s)%N by rewrite leq_mul2r Hr orbT.
rewrite /chunk take_drop take_take; last by rewrite mulSn in H.
by rewrite -take_drop drop_drop mulnDl mulnA addnC.
Qed.

Lemma loss_gradE : loss_grad sqrt jac eloc true ranks c s =
  \sum_(p <- order) ((eloc p.1 - e_mean eloc true ranks) * sqrt p.2) *: jac p.1 p.2.
Proof.
rewrite /loss_grad; apply: (sum_order (S := fun rk i => \sum_(p <- zip (jac_rows jac s rk i) (chunk s i (loc_ens_centered sqrt eloc true ranks rk))) p.2 *: p.1)).
move=> r i Hr Hi; rewrite jac_rowsE /loc_ens_centered zip_loc_ens // -map_comp chunk_map zip_map2 big_map.
by elim: (chunk s i _) => [|p l IH] /=; rewrite ?big_nil // !big_cons IH.
Qed.

Section Update.
Variables (N : nat) (solver : 'M[C]_N -> 'cV[C]_N -> 'cV[C]_N).
Hypothesis HN : N = (R * (c * s))%N.
Let HN' : N = (c * (R * s))%N. Proof. by rewrite HN mulnCA. Qed.
Let xs := [seq OO_epsilon conj sqrt jac eloc true ranks c s solver p 0 | p <- enum 'I_N].

Lemma updateE : dense_update conj sqrt jac eloc true ranks c s solver =
  \sum_(p <- zip order xs) p.2 *: map_mx conj (jac p.1.1 p.1.2 - O_avg jac ranks c s).
Proof.
have Hxs : size xs = N by rewrite /xs size_map size_enum_ord.
case: (posnP (c * R)) => [H0|HcR].
  have HN0 : N = 0%N by rewrite HN mulnA (mulnC R) H0.
  have -> : xs = [::] by apply/nilP; rewrite /nilp Hxs HN0.
  rewrite (_ : zip order [::] = [::]); last by case: (order).
  rewrite big_nil /dense_update.
  move/eqP: H0; rewrite muln_eq0 => /orP[/eqP ->|/eqP HR]; first by rewrite big_nil.
  by rewrite big1_seq // => i _; rewrite (size0nil HR) /= big_nil.
have Hlen : (N %/ (c * R))%N = s by rewrite HN' mulnA mulKn.
have Ex : xs = flatten [seq flatten [seq eps_received conj sqrt jac eloc true ranks c s solver r i | r <- iota 0 R] | i <- iota 0 c].
  rewrite -{1}(@flatten_chunks _ c (R * s) xs) ?Hxs //; congr (flatten _).
  apply/eq_in_map => i; rewrite mem_iota add0n => /andP[_ Hi].
  rewrite -{1}(@flatten_chunks _ R s (chunk (R * s) i xs)) ?(size_chunk (n := c)) ?Hxs //.
  congr (flatten _); apply/eq_in_map => r; rewrite mem_iota add0n => /andP[_ Hr].
  by rewrite chunk_chunk // /eps_received -/R Hlen.
have Hsz r i : (r < R)%N -> (i < c)%N -> size (eps_received conj sqrt jac eloc true ranks c s solver r i) = s.
  move=> Hr Hi; rewrite /eps_received -/R Hlen -/xs -chunk_chunk //.
  by rewrite (size_chunk (n := R)) ?(size_chunk (n := c)) // Hxs.
rewrite Ex /order zip_flatten; last first.
  move=> i; rewrite mem_iota add0n => /andP[_ Hi]; rewrite map_ranks.
  rewrite (@size_flatten_blocks _ _ s) ?(@size_flatten_blocks _ _ s) //.
    by move=> r; rewrite add0n => /andP[_ Hr]; apply: Hsz.
  by move=> r; rewrite add0n => /andP[_ Hr]; rewrite (size_chunk (n := c)) // size_pairs.
rewrite big_flatten /dense_update; apply: eq_big_seq => i; rewrite mem_iota add0n => /andP[_ Hi].
rewrite map_ranks zip_flatten; last first.
  move=> r; rewrite mem_iota add0n => /andP[_ Hr].
  by rewrite Hsz // (size_chunk (n := c)) // size_pairs.
rewrite big_flatten -/R zip_ranks big_map; apply: eq_big_seq => r; rewrite mem_iota add0n => /andP[_ Hr] /=.
rewrite jac_rowsE -{1}[eps_received _ _ _ _ _ _ _ _ _ _ _]map_id zip_map2 big_map.
by [].
Qed.
End Update.
End Order.

(* C45 *)
Theorem C45_partial (C : fieldType) (conj sqrt : C -> C) (T : eqType) (P : nat)
    (jac : T -> C -> 'rV[C]_P) (eloc : T -> C) (ranks : seq (rank_state C T)) (c s N : nat)
    (solver : 'M[C]_N -> 'cV[C]_N -> 'cV[C]_N) :
  (0 < s)%N -> well_shaped ranks c s -> N = (size ranks * (c * s))%N ->
  exists rs : N.-tuple (T * C),
    perm_eq rs (weighted_samples ranks) /\
    let A := centred_rows jac rs in
    [/\ loss_grad sqrt jac eloc true ranks c s =
          \sum_(p <- weighted_samples ranks)
             ((eloc p.1 - \sum_(q <- weighted_samples ranks) q.2 * eloc q.1) * sqrt p.2) *: jac p.1 p.2,
        tangent_kernel conj jac ranks c s N = A *m adjoint conj A,
        \col_p nth 0 (restacked sqrt eloc true ranks c s) (val p) = centred_energies sqrt eloc rs &
        (dense_update conj sqrt jac eloc true ranks c s solver)^T =
          adjoint conj A *m solver (A *m adjoint conj A) (centred_energies sqrt eloc rs)].
Proof.
move=> Hs Hw HN; pose rk0 := RankState (@nil (seq T)) (@nil C).
have Hsz : size (order ranks c s) == N by rewrite (size_order Hw rk0) HN mulnCA.
exists (Tuple Hsz); split; first exact: (order_perm Hw rk0).
move=> A.
have Hsamp i : (i < size ranks)%N -> forall rk, size (flat (nth rk ranks i)) = (c * s)%N.
  by move=> Hi rk; have [] := shape_nth Hw rk Hi.
have Hcnt i : (i < size ranks)%N -> forall rk, size (counts (nth rk ranks i)) = (c * s)%N.
  by move=> Hi rk; have [] := shape_nth Hw rk Hi.
have HN' : N = (c * (size ranks * s))%N by rewrite HN mulnCA.
have nth_o x0 (k : 'I_N) : nth x0 (order ranks c s) k = tnth (Tuple Hsz) k.
  by rewrite (tnth_nth x0).
have EO : O_avg jac ranks c s = all_mean_O jac (Tuple Hsz).
  rewrite (O_avgE _ Hw rk0) /all_mean_O -[order ranks c s]/(tval (Tuple Hsz)).
  by rewrite big_tuple.
have EE : e_mean eloc true ranks = all_mean_E eloc (Tuple Hsz).
  rewrite (e_meanE _ Hw rk0) /all_mean_E -[order ranks c s]/(tval (Tuple Hsz)).
  by rewrite big_tuple.
have Erow (k : 'I_N) : nth 0 (flatten [seq rows_gathered jac ranks c s i | i <- iota 0 c]) k = row k A.
  have Hk : (k < size (order ranks c s))%N by rewrite (eqP Hsz).
  rewrite all_rowsE (nth_map (tnth (Tuple Hsz) k)) // nth_o EO.
  by apply/rowP => a; rewrite !mxE.
have EK : tangent_kernel conj jac ranks c s N = A *m adjoint conj A.
  apply/matrixP => p q; rewrite (kernelE conj jac Hs Hsamp Hcnt HN') /dot_conj !Erow mxE.
  by apply: eq_bigr => a _; rewrite /adjoint !mxE.
have Een : \col_p nth 0 (restacked sqrt eloc true ranks c s) (val p) = centred_energies sqrt eloc (Tuple Hsz).
  apply/matrixP => k j; rewrite !mxE (restackedE _ _ Hw rk0).
  have Hk : (k < size (order ranks c s))%N by rewrite (eqP Hsz).
  by rewrite (nth_map (tnth (Tuple Hsz) k)) // nth_o EE.
split=> //.
  have Hp := order_perm Hw rk0.
  by rewrite (loss_gradE _ _ _ Hw rk0) -!(perm_big _ Hp) /= -(e_meanE _ Hw rk0).
rewrite (updateE conj sqrt jac eloc Hw rk0 solver HN) /OO_epsilon EK Een.
set x := solver _ _; apply/matrixP => a j; rewrite !mxE summxE.
have -> : zip (order ranks c s) [seq x p 0 | p <- enum 'I_N] =
          [seq (tnth (Tuple Hsz) k, x k 0) | k <- enum 'I_N].
  rewrite -[order ranks c s]/(tval (Tuple Hsz)) -{1}(map_tnth_enum (Tuple Hsz)) zip_map2.
  by elim: (enum 'I_N) => //= k l ->.
rewrite big_map big_enum; apply: eq_bigr => k _ /=.
by rewrite !mxE EO (ord1 j) mulrC.
Qed.

(* with a single chain per rank (or chains of length one) the layout does not matter *)
Definition one_chain (C : fieldType) (T : Type) (rk : rank_state C T) : bool :=
  (size (samples rk) <= 1)%N || all (fun row => size row == 1%N) (samples rk).

Lemma loc_ens_one_chain (C : fieldType) (T : Type) (eloc : T -> C) (rk : rank_state C T) :
  one_chain rk -> loc_ens eloc false rk = map eloc (flat rk).
Proof.
rewrite /loc_ens /local_estimators /flat /one_chain map_flatten.
case/orP; last first.
  case: (samples rk) => [|r l] //= /andP[/eqP Hr Hl]; rewrite /transpose /= size_map Hr /= cats0.
  case: r Hr => [|x [|y r]] //= _; congr (_ :: _).
  by elim: l Hl => //= row l IH /andP[/eqP H1 /IH ->]; case: row H1 => [|z [|]].
case: (samples rk) => [|r [|]] //= _; rewrite /transpose /= cats0 size_map.
rewrite -[RHS](mkseq_nth 0) size_map /mkseq.
by elim: (iota 0 (size r)) => //= k l ->.
Qed.

Theorem C45_one_chain (C : fieldType) (sqrt : C -> C) (T : eqType) (P : nat) (eloc : T -> C)
    (ranks : seq (rank_state C T)) (c s : nat) :
  well_shaped ranks c s -> all (@one_chain C T) ranks ->
  e_mean eloc false ranks = e_mean eloc true ranks /\
  forall r rk0, (r < size ranks)%N ->
    loc_ens_centered sqrt eloc false ranks (nth rk0 ranks r) =
    loc_ens_centered sqrt eloc true ranks (nth rk0 ranks r).
Proof.
move=> Hw Ho.
have E r rk0 : (r < size ranks)%N -> loc_ens eloc false (nth rk0 ranks r) = loc_ens eloc true (nth rk0 ranks r).
  move=> Hr; have [_ _ H3] := shape_nth Hw rk0 Hr.
  by rewrite loc_ens_one_chain ?loc_ensE //; apply: (all_nthP rk0 Ho).
have Em : e_mean eloc false ranks = e_mean eloc true ranks.
  rewrite /e_mean; case El : ranks => [|rk l]; first by rewrite !big_nil.
  rewrite -El -(mkseq_nth rk ranks) /mkseq !big_map.
  by apply: eq_big_seq => r; rewrite mem_iota add0n => /andP[_ Hr]; rewrite E.
by split=> // r rk0 Hr; rewrite /loc_ens_centered E // Em.
Qed.

(* two chains of two samples on one rank, local_estimators not transposed: the energies of
   samples 1 and 2 are exchanged *)
Definition two_chains (F : fieldType) (w : F) : seq (rank_state F nat_eqType) :=
  [:: RankState [:: [:: 0; 1]; [:: 2; 3]]%N (nseq 4 w)].
Definition id_row (F : fieldType) (o : nat -> F) (x : nat) (w : F) : 'rV[F]_1 := \row_a o x.

Lemma two_chains_grad (F : fieldType) (w : F) (o e : nat -> F) (transposed : bool) :
  let m := w * e 0%N + w * e 1%N + w * e 2%N + w * e 3%N in
  loss_grad id (id_row o) e transposed (two_chains w) 2 2 0 0 =
  \sum_(p <- zip (if transposed then iota 0 4 else [:: 0; 2; 1; 3]%N) (iota 0 4)) (e p.1 - m) * w * o p.2.
Proof.
move=> m; have Em : e_mean e transposed (two_chains w) = m.
  rewrite /e_mean /two_chains big_seq1 /m; case: transposed;
  rewrite /loc_ens /= !(big_cons, big_nil) /= addr0 ![w * _]mulrC.
    by rewrite !addrA.
  by rewrite !addrA; congr (_ + _); rewrite -!addrA; congr (_ + _); rewrite addrC.
rewrite /loss_grad /loc_ens_centered Em; case: transposed Em => _;
rewrite /loc_ens /jac_rows /two_chains /= !(big_cons, big_nil) /= !mxE !(addr0, addrA); by [].
Qed.

Lemma weighted_two_chains (F : fieldType) (w : F) : weighted_samples (two_chains w) = [seq (x, w) | x <- iota 0 4].
Proof. by []. Qed.

Theorem C45_refuted : exists (ranks : seq (rank_state [fieldType of rat] nat_eqType)) (c s : nat)
    (o e : nat -> rat),
  [/\ (0 < s)%N, well_shaped ranks c s &
      loss_grad id (id_row (F := [fieldType of rat]) o) e false ranks c s <>
      \sum_(p <- weighted_samples ranks)
         ((e p.1 - \sum_(q <- weighted_samples ranks) q.2 * e q.1) * p.2) *: id_row o p.1 p.2].
Proof.
exists (two_chains (1 / 4%:R : rat)), 2%N, 2%N, (fun x => x%:R), (fun x => x%:R).
split; [by []|by []|move=> /matrixP /(_ 0 0)].
rewrite (@two_chains_grad [fieldType of rat]) summxE weighted_two_chains big_map.
under [RHS]eq_bigr do rewrite !mxE.
by rewrite unlock => /eqP; vm_compute.
Qed.

(* the same input with transposed estimators *)
Example C45_example :
  loss_grad id (id_row (F := [fieldType of rat]) (fun x => x%:R)) (fun x => x%:R) true (two_chains (1 / 4%:R : rat)) 2 2 =
  const_mx (5%:R / 4%:R).
Proof.
apply/matrixP => i j; rewrite !ord1 (@two_chains_grad [fieldType of rat]) mxE.
by rewrite unlock; apply/eqP; vm_compute.
Qed.
(* two ranks of two chunks of one sample: the order in which samples enter the kernel *)
Example C45_shape_example (w : rat) :
  let ranks := [:: RankState [:: [:: 5]; [:: 6]]%N [:: w; w]; RankState [:: [:: 7]; [:: 8]]%N [:: w; w]] in
  well_shaped (C := [fieldType of rat]) ranks 2 1 /\ [seq p.1 | p <- order (T := nat_eqType) ranks 2 1] = [:: 5; 7; 6; 8]%N.
Proof. by []. Qed.
