(* Index arithmetic of MinSR_Model: blocks, gathered indices, the filled tangent kernel. *)
From Verif Require Import Base MinSR_Model.
Local Open Scope ring_scope.

(* lists cut into blocks of equal length *)
Lemma size_flatten_blocks (A : Type) (B : nat -> seq A) b n m :
  (forall i, (m <= i < m + n)%N -> size (B i) = b) -> size (flatten [seq B i | i <- iota m n]) = (n * b)%N.
Proof.
elim: n m => [|n IH] m H //=; rewrite size_cat H ?IH ?mulSn //; last by lia.
by move=> i Hi; apply: H; lia.
Qed.
Lemma nth_flatten_blocks (A : Type) (x0 : A) (B : nat -> seq A) b n m i k :
  (forall i, (m <= i < m + n)%N -> size (B i) = b) -> (i < n)%N -> (k < b)%N ->
  nth x0 (flatten [seq B i | i <- iota m n]) (i * b + k) = nth x0 (B (m + i)%N) k.
Proof.
elim: n m i => [|n IH] m i H //= Hi Hk.
have Hm : size (B m) = b by apply: H; lia.
rewrite nth_cat Hm; case: i Hi => [|i] Hi; first by rewrite mul0n add0n Hk addn0.
have -> : (i.+1 * b + k < b)%N = false by rewrite mulSn; lia.
have -> : (i.+1 * b + k - b)%N = (i * b + k)%N by rewrite mulSn; lia.
rewrite IH // ?addSnnS //; first by move=> j Hj; apply: H; lia.
Qed.
Lemma flatten_iota (b n m : nat) : flatten [seq iota (m + i * b) b | i <- iota 0 n] = iota m (n * b).
Proof.
elim: n => [|n IH] //; rewrite -addn1 iotaD map_cat flatten_cat IH /= cats0 add0n mulnDl mul1n.
by rewrite iotaD.
Qed.

Lemma drop_zip (A B : Type) n (s : seq A) (t : seq B) : drop n (zip s t) = zip (drop n s) (drop n t).
Proof. by elim: n s t => [|n IH] [|x s] [|y t] //=; [case: (drop n t)|case: (drop n s)]. Qed.
Lemma take_zip (A B : Type) n (s : seq A) (t : seq B) : take n (zip s t) = zip (take n s) (take n t).
Proof. by elim: n s t => [|n IH] [|x s] [|y t] //=; rewrite ?IH //; case: (take n t). Qed.
Lemma chunk_zip (A B : Type) s i (l : seq A) (m : seq B) : chunk s i (zip l m) = zip (chunk s i l) (chunk s i m).
Proof. by rewrite /chunk drop_zip take_zip. Qed.
Lemma chunk_map (A B : Type) (f : A -> B) s i (l : seq A) : chunk s i (map f l) = map f (chunk s i l).
Proof. by rewrite /chunk map_take map_drop. Qed.
Lemma size_chunk (A : Type) n s i (l : seq A) : size l = (n * s)%N -> (i < n)%N -> size (chunk s i l) = s.
Proof.
move=> Hl Hi; rewrite /chunk size_takel // size_drop Hl.
have: (i.+1 * s <= n * s)%N by rewrite leq_mul2r Hi orbT.
by rewrite mulSn; lia.
Qed.
Lemma flatten_chunks (A : Type) n s (l : seq A) : size l = (n * s)%N ->
  flatten [seq chunk s i l | i <- iota 0 n] = l.
Proof.
elim: n l => [|n IH] l Hl; first by case: l Hl.
rewrite /= {1}/chunk mul0n drop0 -[RHS](cat_take_drop s); congr (_ ++ _).
have Hd : size (drop s l) = (n * s)%N by rewrite size_drop Hl mulSn; lia.
rewrite -[RHS](IH _ Hd) (iotaDl 1 0) -map_comp; congr (flatten _); apply: eq_map => i /=.
by rewrite /chunk drop_drop add1n mulSn addnC.
Qed.

(* swapping the order of two concatenations *)
Lemma perm_flatten_swap (A : eqType) (I J : Type) (F : I -> J -> seq A) (s : seq I) (t : seq J) :
  perm_eq (flatten [seq flatten [seq F i j | j <- t] | i <- s])
          (flatten [seq flatten [seq F i j | i <- s] | j <- t]).
Proof.
apply/seq.permP => p; elim: s => [|i s IH] /=.
  by elim: t => //= j t <-.
rewrite count_cat IH {IH}; elim: t => //= j t IHt; rewrite !count_cat -IHt; lia.
Qed.

Lemma big_flatten (V : zmodType) (A I : Type) (F : A -> V) (B : I -> seq A) (s : seq I) :
  \sum_(x <- flatten (map B s)) F x = \sum_(i <- s) \sum_(x <- B i) F x.
Proof. by elim: s => [|i s IH] /=; rewrite ?big_nil // big_cat big_cons IH. Qed.

(* transposing twice *)
Lemma transposeK (C : fieldType) (m : seq (seq C)) b : (0 < b)%N -> all (fun r => size r == b) m ->
  transpose (transpose m) = m.
Proof.
move=> Hb Hall; case: m Hall => [|r0 m] // Hall.
have Hh : size (head [::] (r0 :: m)) = b by case/andP: Hall => /eqP.
have Hsz : size (head [::] (transpose (r0 :: m))) = size (r0 :: m).
  by rewrite /transpose Hh; case: (b) Hb => //= ? _; rewrite size_map.
rewrite /transpose -/(transpose (r0 :: m)) Hsz.
apply: (@eq_from_nth _ [::]); first by rewrite size_map size_iota.
move=> i; rewrite size_map size_iota => Hi.
rewrite (nth_map 0%N) ?size_iota // nth_iota // add0n.
have Hr : size (nth [::] (r0 :: m) i) = b by apply/eqP; apply: (all_nthP [::] Hall).
rewrite /transpose Hh -map_comp; apply: (@eq_from_nth _ 0); first by rewrite size_map size_iota Hr.
move=> k; rewrite size_map size_iota => Hk.
rewrite (nth_map 0%N) ?size_iota // nth_iota // add0n /=.
by rewrite -[LHS]/(nth 0 (map (fun row => nth 0 row k) (r0 :: m)) i) (nth_map [::]).
Qed.

Section Fill.
Variables (C : fieldType) (conj sqrt : C -> C) (T : Type) (P : nat).
Variables (jac : T -> C -> 'rV[C]_P) (eloc : T -> C) (transposed : bool).
Variables (ranks : seq (rank_state C T)) (n_chunks s : nat).
Hypothesis Hs : (0 < s)%N.
Hypothesis Hsamples : forall i, (i < size ranks)%N -> forall rk0, size (flat (nth rk0 ranks i)) = (n_chunks * s)%N.
Hypothesis Hcounts : forall i, (i < size ranks)%N -> forall rk0, size (counts (nth rk0 ranks i)) = (n_chunks * s)%N.
Let R := size ranks.

Lemma idx_gatheredE i : idx_gathered ranks s i = iota (i * (R * s)) (R * s).
Proof.
rewrite -flatten_iota /idx_gathered -/R; congr (flatten _).
apply/eq_in_map => r; rewrite mem_iota add0n => /andP[_ Hr].
rewrite /idx_rank -/R; have -> : (i * (R * s) + r * s = (r * s + i * s * (R - 1)) + i * s)%N.
  have: (R = (R - 1) + 1)%N by lia.
  move: (R - 1)%N => R1 ->; rewrite mulnDl mul1n mulnDr (mulnC R1 s) mulnA; lia.
rewrite iotaDl; apply: eq_map => k; lia.
Qed.

Lemma mem_idx i p : (p \in idx_gathered ranks s i) = (i * (R * s) <= p < i.+1 * (R * s))%N.
Proof. by rewrite idx_gatheredE mem_iota mulSn; congr (_ && _); rewrite addnC. Qed.
Lemma index_idx i p : p \in idx_gathered ranks s i -> index p (idx_gathered ranks s i) = (p - i * (R * s))%N.
Proof.
rewrite idx_gatheredE mem_iota => /andP[H1 H2].
have Hlt : (p - i * (R * s) < R * s)%N by lia.
rewrite -{1}(subnKC H1) -(@nth_iota 0%N (i * (R * s)) (R * s)) //.
by rewrite index_uniq ?iota_uniq ?size_iota.
Qed.

Let rows i := rows_gathered jac ranks n_chunks s i.
Let all_rows := flatten [seq rows i | i <- iota 0 n_chunks].

Lemma size_jac_rows rk i : size (flat rk) = (n_chunks * s)%N -> size (counts rk) = (n_chunks * s)%N ->
  (i < n_chunks)%N -> size (jac_rows jac s rk i) = s.
Proof. by move=> H1 H2 Hi; rewrite /jac_rows size_map size_zip !(size_chunk (n := n_chunks)) // minnn. Qed.

Lemma size_rows i : (i < n_chunks)%N -> size (rows i) = (R * s)%N.
Proof.
move=> Hi; rewrite /rows /rows_gathered size_map.
case E : ranks => [|rk0 l]; first by rewrite /R E.
rewrite -E.
have -> : [seq jac_rows jac s rk i | rk <- ranks] = [seq jac_rows jac s (nth rk0 ranks r) i | r <- iota 0 R].
  by rewrite -{1}(mkseq_nth rk0 ranks) /mkseq -map_comp.
apply: size_flatten_blocks => r; rewrite add0n => /andP[_ Hr].
by apply: size_jac_rows; rewrite ?Hsamples ?Hcounts.
Qed.

Lemma nth_all_rows i p : (i < n_chunks)%N -> p \in idx_gathered ranks s i ->
  nth 0 (rows i) (index p (idx_gathered ranks s i)) = nth 0 all_rows p.
Proof.
move=> Hi Hp; rewrite index_idx //.
move: Hp; rewrite mem_idx mulSn => /andP[H1 H2].
rewrite -{2}(subnKC H1) /all_rows (@nth_flatten_blocks _ 0 rows (R * s)) //; last by lia.
by move=> j; rewrite add0n => /andP[_ Hj]; rewrite size_rows.
Qed.

Variables (N : nat).
Hypothesis HN : N = (n_chunks * (R * s))%N.
Let kernel := tangent_kernel conj jac ranks n_chunks s N.
Let G (p q : 'I_N) : C := dot_conj conj (nth 0 all_rows p) (nth 0 all_rows q).
Let fill i (OO : 'M[C]_N) js := foldl (fun OO j => at_set conj OO (idx_gathered ranks s i) (idx_gathered ranks s j) (rows i) (rows j)) OO js.

Lemma fill_inner i (OO : 'M[C]_N) js p q : (i < n_chunks)%N -> all (fun j => j < n_chunks)%N js ->
  fill i OO js p q = if (val p \in idx_gathered ranks s i) && has (fun j => val q \in idx_gathered ranks s j) js
                     then G p q else OO p q.
Proof.
move=> Hi; elim: js OO => [|j js IH] OO; first by rewrite andbF.
move=> /= /andP[Hj Hjs]; rewrite -/(fill i _ js) IH // !mxE.
case Ep : (val p \in _) => //=; case Eq : (val q \in idx_gathered ranks s j) => //=.
by rewrite !nth_all_rows //; case: ifP.
Qed.
Lemma fill_outer (OO : 'M[C]_N) il p q : all (fun j => j < n_chunks)%N il ->
  foldl (fun OO i => fill i OO (iota 0 n_chunks)) OO il p q =
  if has (fun i => val p \in idx_gathered ranks s i) il &&
     has (fun j => val q \in idx_gathered ranks s j) (iota 0 n_chunks)
  then G p q else OO p q.
Proof.
elim: il OO => [|i il IH] OO //= /andP[Hi His]; rewrite IH // fill_inner //; last first.
  by apply/allP => j; rewrite mem_iota.
by case Ep : (val p \in _) => //=; case: ifP => //; case: ifP => //; rewrite ?andbF // => ->; case: (has _ il).
Qed.

Lemma in_some_block (p : 'I_N) : has (fun i => val p \in idx_gathered ranks s i) (iota 0 n_chunks).
Proof.
have Hp := ltn_ord p; rewrite {2}HN in Hp.
have Hb : (0 < R * s)%N by case: (R * s)%N Hp => //; rewrite muln0.
apply/hasP; exists (p %/ (R * s))%N; first by rewrite mem_iota add0n ltn_divLR.
by rewrite mem_idx leq_trunc_div /=; apply: ltn_ceil.
Qed.

Lemma kernelE p q : kernel p q = G p q.
Proof.
rewrite /kernel /tangent_kernel.
have := @fill_outer 0 (iota 0 n_chunks) p q; rewrite /fill /rows => -> //.
  by rewrite !in_some_block.
by apply/allP => j; rewrite mem_iota.
Qed.
End Fill.
