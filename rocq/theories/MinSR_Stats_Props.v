(* C122: the statistics the minSR driver reports.  Mean and variance are the weighted ones of its
   samples; the error of the mean is not: the local energies are flattened before _statistics takes
   the number of rows as the number of samples, so that the squared error is the variance over the
   number of ranks. *)
From Verif Require Import Base Expect_Model Expect_Props MinSR_Model MinSR_Proofs MinSR_Props MinSR_SR MinSR_Stats_Model.
Import Num.Theory.
Local Open Scope ring_scope.

Section General.
Variables (C : numFieldType) (T : eqType) (eloc : T -> C).

Lemma statisticsE (ranks : seq (seq C * seq C)) :
  let mean := \sum_(r <- ranks) \sum_(p <- zip r.1 r.2) p.1 * p.2 in
  let var := \sum_(r <- ranks) \sum_(p <- zip r.1 r.2) `|p.1 - mean| ^+ 2 * p.2 in
  MinSR_Stats_Model.statistics ranks = (mean, var, var / (size ranks)%:R).
Proof.
move=> mean var; rewrite /MinSR_Stats_Model.statistics.
have Es : forall g : C -> C -> C, \sum_(r <- [seq (as_rows r.1, r.2) | r <- ranks]) \sum_(row <- r.1) \sum_(p <- zip row r.2) g p.1 p.2
   = \sum_(r <- ranks) \sum_(p <- zip r.1 r.2) g p.1 p.2.
  by move=> g; rewrite big_map; apply: eq_bigr => r _; rewrite big_seq1.
have Em : \sum_(r <- [seq (as_rows r.1, r.2) | r <- ranks]) \sum_(row <- r.1) \sum_(p <- zip row r.2) p.1 * p.2 = mean.
  exact: (Es (fun a b => a * b)).
rewrite Em (Es (fun a b => `|a - mean| ^+ 2 * b)) -/var; congr (_, _, _ / _%:R).
by rewrite big_map sum1_size.
Qed.

(* weighted samples, layout of the local energies as the driver expects it *)
Theorem C122_weighted (ranks : seq (rank_state C T)) c s : well_shaped ranks c s ->
  let ws := weighted_samples ranks in
  let mean := \sum_(p <- ws) p.2 * eloc p.1 in
  (loss_stats eloc true ranks).1 = (mean, \sum_(p <- ws) p.2 * `|eloc p.1 - mean| ^+ 2).
Proof.
move=> Hw ws mean; rewrite /loss_stats statisticsE.
have Es : forall g : C -> C -> C, \sum_(r <- [seq (loc_ens eloc true rk, counts rk) | rk <- ranks]) \sum_(p <- zip r.1 r.2) g p.1 p.2
   = \sum_(p <- ws) g (eloc p.1) p.2.
  move=> g; rewrite /ws /weighted_samples big_flatten big_map; move: Hw; rewrite /well_shaped.
  elim: (ranks) => [|rk l IH] /=; first by rewrite !big_nil.
  case/andP=> /and3P[_ _ Hr] Hl; rewrite !big_cons IH //; congr (_ + _).
  rewrite loc_ensE // /flat; elim: (flatten (samples rk)) (counts rk) => [|x xs IHx] [|w cs] /=; rewrite ?big_nil // !big_cons IHx //.
have Em : \sum_(r <- [seq (loc_ens eloc true rk, counts rk) | rk <- ranks]) \sum_(p <- zip r.1 r.2) p.1 * p.2 = mean.
  by rewrite (Es (fun a b => a * b)); apply: eq_bigr => p _; rewrite mulrC.
rewrite /= Em (Es (fun a b => `|a - mean| ^+ 2 * b)); congr (_, _).
by apply: eq_bigr => p _; rewrite mulrC.
Qed.

(* plain samples: n_ranks ranks with m chains of w samples; both layouts *)
Lemma sum_transpose (g : C -> C) (M : seq (seq C)) b : all (fun row => size row == b) M ->
  \sum_(x <- flatten (transpose M)) g x = \sum_(x <- flatten M) g x.
Proof.
move=> HM; rewrite /transpose big_flatten; case: M HM => [|r0 M] HM; first by rewrite /= !big_nil.
have Hb : size (head [::] (r0 :: M)) = b by case/andP: HM => /eqP.
rewrite Hb; under eq_bigr do rewrite big_map.
rewrite exchange_big -[r0 :: M in RHS]map_id [RHS]big_flatten /=.
elim: (r0 :: M) HM => [|row l IH] /=; first by rewrite !big_nil.
case/andP=> /eqP Hr Hl; rewrite !big_cons IH //; congr (_ + _).
by rewrite -[in RHS](mkseq_nth 0 row) /mkseq big_map Hr.
Qed.

Lemma sum_zip_nseq (g : C -> C -> C) (w : C) (l : seq C) n : size l = n ->
  \sum_(p <- zip l (nseq n w)) g p.1 p.2 = \sum_(x <- l) g x w.
Proof. by move <-; elim: l => [|x l IH] /=; rewrite ?big_nil // !big_cons IH. Qed.

Lemma size_transpose_flatten (M : seq (seq C)) b : all (fun row => size row == b) M ->
  size (flatten (transpose M)) = size (flatten M).
Proof.
move=> HM; rewrite (size_flatten_rect HM) /transpose; case: M HM => [|r0 M] HM //.
have Hb : size (head [::] (r0 :: M)) = b by case/andP: HM => /eqP.
rewrite Hb (size_flatten_rect (w := (size M).+1)) ?size_map ?size_iota; first by rewrite mulnC.
by rewrite all_map; apply/allP => j _ /=; rewrite size_map.
Qed.

Theorem C122_plain (transposed : bool) (ls : seq (seq (seq T))) m w : (0 < w)%N -> rect m w ls ->
  let xs := flatten (map flatten ls) in
  let N := (size ls * (m * w))%N in
  let mean := (\sum_(x <- xs) eloc x) / N%:R in
  let var := (\sum_(x <- xs) `|eloc x - mean| ^+ 2) / N%:R in
  loss_stats eloc transposed (plain_counts C ls) = (mean, var, var / (size ls)%:R).
Proof.
move=> w0 Hr xs N mean var.
have Hsz : (\sum_(s <- ls) size (flatten s))%N = N.
  move: Hr; rewrite /rect /N; elim: (ls) => [|a l IH] /=; first by rewrite big_nil.
  by case/andP=> /andP[/eqP Ha Hw] Hl; rewrite big_cons IH // (size_flatten_rect Hw) Ha mulSn.
rewrite /loss_stats statisticsE /plain_counts Hsz.
set R := map _ _.
have Es : forall g : C -> C -> C, \sum_(r <- R) \sum_(p <- zip r.1 r.2) g p.1 p.2 = \sum_(x <- xs) g (eloc x) (1 / N%:R).
  move=> g; rewrite /R /xs big_flatten !big_map; move: Hr; rewrite /rect; elim: (ls) => [|a l IH] /=; first by rewrite !big_nil.
  case/andP=> /andP[/eqP Ha Hw] Hl; rewrite !big_cons IH //; congr (_ + _).
  have Hw' : all (fun row => size row == w) (map (map eloc) a).
    by rewrite all_map; apply: sub_all Hw => row /=; rewrite size_map.
  rewrite /loc_ens /local_estimators /=; case: (transposed).
    rewrite (transposeK w0 Hw') sum_zip_nseq; last by rewrite -map_flatten size_map.
    by rewrite -map_flatten big_map.
  rewrite sum_zip_nseq; last by rewrite (size_transpose_flatten Hw') -map_flatten size_map.
  by rewrite (sum_transpose _ Hw') -map_flatten big_map.
have Em : \sum_(r <- R) \sum_(p <- zip r.1 r.2) p.1 * p.2 = mean.
  by rewrite (Es (fun a b => a * b)) -mulr_suml mul1r.
have Ev : \sum_(r <- R) \sum_(p <- zip r.1 r.2) `|p.1 - mean| ^+ 2 * p.2 = var.
  by rewrite (Es (fun a b => `|a - mean| ^+ 2 * b)) -mulr_suml mul1r.
by rewrite Em Ev /R !size_map.
Qed.

(* the reported error is not the standard error of the mean *)
Theorem C122_error_wrong (transposed : bool) (ls : seq (seq (seq T))) m w : (0 < size ls)%N -> (0 < w)%N -> (1 < m * w)%N ->
  rect m w ls -> let st := loss_stats eloc transposed (plain_counts C ls) in
  st.1.2 != 0 -> st.2 = (m * w)%:R * (st.1.2 / (size ls * (m * w))%:R) /\ st.2 != st.1.2 / (size ls * (m * w))%:R.
Proof.
move=> l0 w0 mw Hr; rewrite (C122_plain _ w0 Hr) /=; set var := _ / _ => Hv.
have L0 : ((size ls)%:R : C) != 0 by rewrite pnatr_eq0 -lt0n.
have MW : ((m * w)%N%:R : C) != 0 by rewrite pnatr_eq0 -lt0n; lia.
have E1 : var / (size ls)%:R = (m * w)%N%:R * (var / (size ls * (m * w))%:R).
  by rewrite (natrM _ (size ls) (m * w)) invfM [_^-1 * _^-1 in RHS]mulrC mulrCA mulVKf.
split=> //; rewrite E1 -subr_eq0 -[X in _ - X]mul1r -mulrBl mulf_neq0 //.
  by rewrite -[X in _ - X]/(1%N%:R) subr_eq0 eqr_nat; lia.
by rewrite mulf_neq0 // invr_eq0 natrM mulf_neq0.
Qed.
End General.
Print Assumptions C122_weighted.
Print Assumptions C122_plain.
Print Assumptions C122_error_wrong.

(* independent samples: the expected squared error against the actual spread of the mean (C121_spread) *)
Theorem C122_error_expected (X : finType) (C : numClosedFieldType) (p loc : X -> C) R m w (transposed : bool) :
  \sum_x p x = 1 -> (0 < R)%N -> (0 < m)%N -> (0 < w)%N ->
  let mu := \sum_x p x * loc x in
  let var := \sum_x p x * `|loc x - mu| ^+ 2 in
  let N := (R * (m * w))%N in
  let st (s : {ffun 'I_R * 'I_m * 'I_w -> X}) := loss_stats loc transposed (plain_counts C (arrays s)) in
  [/\ ex_iid p (fun s => (st s).1.1) = mu,
      ex_iid p (fun s => `|(st s).1.1 - mu| ^+ 2) = var / N%:R &
      ex_iid p (fun s => (st s).2) = (1 - N%:R^-1) * var / R%:R].
Proof.
move=> p1 R0 m0 w0 mu var N st.
have Est : forall s, st s = ((expect 0 loc None [seq Chains c | c <- arrays s]).1,
    (expect 0 loc None [seq Chains c | c <- arrays s]).1.2 / R%:R).
  move=> s; rewrite /st (C122_plain _ _ w0 (rect_arrays s)) (C121_statistics _ _ _ m0 (rect_arrays s)) /=.
  have Et : forall f : X -> C, \sum_(x <- flatten [seq flatten c | c <- arrays s]) f x = total f (arrays s).
    by move=> f; rewrite big_flatten /total; apply: eq_bigr => c _; rewrite sum_flatten.
  by rewrite !Et size_arrays.
have E1 := C121_unbiased p1 R0 m0 w0 loc 0 None.
have E2 := C121_spread p1 R0 m0 w0 loc 0 None.
have E3 := C121_variance p1 R0 m0 w0 loc 0 None.
split.
- by rewrite /mu -E1; apply: ex_iid_eq => s; rewrite Est.
- by rewrite /var /N /mu -E2; apply: ex_iid_eq => s; rewrite Est.
- rewrite /var /N /mu -E3 mulrC -ex_iid_scale; apply: ex_iid_eq => s; by rewrite Est mulrC.
Qed.
Print Assumptions C122_error_expected.

(* one rank, one chain with the local energies 1 and -1: the standard error is 1/2 of the variance,
   the driver reports the variance itself *)
Theorem C122_error_refuted : exists (ls : seq (seq (seq nat))) (eloc : nat -> rat),
  let st := loss_stats (C := rat_numFieldType) eloc true (plain_counts rat_numFieldType ls) in
  [/\ rect 1 2 ls, st.1.1 = 0, st.1.2 = 1 & st.2 <> st.1.2 / 2%:R].
Proof.
exists [:: [:: [:: 0; 1]]]%N, (fun x => if x == 0%N then 1 else -1).
have H := @C122_plain rat_numFieldType nat_eqType (fun x : nat => if x == 0%N then 1 else -1) true [:: [:: [:: 0; 1]]]%N 1 2 isT isT.
by rewrite H /= !big_cons !big_nil; split=> //; apply/eqP; vm_compute.
Qed.
Print Assumptions C122_error_refuted.
