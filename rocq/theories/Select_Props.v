(* C91, C92, C99. *)
From Verif Require Import Base Numq Select_Model.
From mathcomp Require Import ssrnum order.
Import Num.Theory Order.TTheory.
Local Open Scope ring_scope.

(* --- C91: chains of the autoregressive sampler *)
Section C91.
Variables (T : Type) (draw : nat -> seq T).
Hypothesis Hdraw : forall n, size (draw n) = n.

(* n_chains chains of chain_length samples, which together are the batch: sample k of chain c is row
   c * chain_length + k *)
Theorem C91_sample_chain n l d : let s := ar_sample_chain draw n l in
  [/\ size s = n, forall c, (c < n)%N -> size (nth [::] s c) = l, flatten s = draw (l * n)%N &
      forall c k, (c < n)%N -> (k < l)%N -> nth d (nth [::] s c) k = nth d (draw (l * n)%N) (c * l + k)%N].
Proof.
rewrite /ar_sample_chain /reshape_chains /=; set b := draw _; have Hb : size b = (l * n)%N by rewrite Hdraw.
split.
- by rewrite size_map size_iota.
- move=> c Hc; rewrite (nth_map 0%N) ?size_iota // nth_iota // add0n size_take size_drop Hb.
  by case: ltnP => // H; apply/eqP; rewrite eqn_leq H /=; nia.
- have G m : (m <= n)%N -> flatten [seq take l (drop (c * l)%N b) | c <- iota 0 m] = take (m * l)%N b.
    elim: m => [|m IH] Hm; first by rewrite mul0n take0.
    rewrite -addn1 iotaD map_cat flatten_cat IH ?(ltnW Hm) // add0n /= cats0 mulnDl mul1n.
    by rewrite takeD.
  by rewrite G // mulnC -Hb take_size.
move=> c k Hc Hk; rewrite (nth_map 0%N) ?size_iota // nth_iota // add0n nth_take // nth_drop //.
Qed.

(* one sample: right for a single chain per rank *)
Theorem C91_sample_next_partial : ar_sample_next draw 1 = Some (draw 1).
Proof. by rewrite /ar_sample_next /ar_sample_chain /reshape_chains /= drop0 muln1 -{1}(Hdraw 1) take_size. Qed.
(* with any other number of chains there is no result, although there are n_chains samples to return *)
Theorem C91_sample_next_fails n : n <> 1%N -> ar_sample_next draw n = None.
Proof. by case: n => [|[|n]]. Qed.
End C91.
Theorem C91_sample_next_refuted : exists (draw : nat -> seq nat) (n : nat),
  [/\ forall n, size (draw n) = n, (1 < n)%N, size (flatten (ar_sample_chain draw n 1)) = n & ar_sample_next draw n = None].
Proof. by exists (iota 0), 2%N; split=> // n; rewrite size_iota. Qed.
Example C91_ex : ar_sample_chain (iota 0) 2 3 = [:: [:: 0; 1; 2]; [:: 3; 4; 5]]%N. Proof. by []. Qed.

(* --- argsort: a permutation of the indices along which the values do not decrease *)
Definition argsort_ok (R : realFieldType) (argsort : seq R -> seq nat) : Prop :=
  forall l, perm_eq (argsort l) (iota 0 (size l)) /\ sorted (fun a b : R => a <= b) [seq nth 0 l k | k <- argsort l].
Lemma argsort_exists (R : realFieldType) : exists argsort : seq R -> seq nat, argsort_ok argsort.
Proof.
exists (fun l => sort (fun i j => nth 0 l i <= nth 0 l j) (iota 0 (size l))) => l; split; first by rewrite perm_sort.
rewrite sorted_map; apply: sort_sorted => i j /=; exact: le_total.
Qed.

Section Slices.
Variables (R : realFieldType) (argsort : seq R -> seq nat).
Hypothesis Ha : argsort_ok argsort.
Implicit Types (l : seq R) (n : nat).

Lemma size_argsort l : size (argsort l) = size l.
Proof. by have [H _] := Ha l; rewrite (perm_size H) size_iota. Qed.
Lemma tail_pos (T : Type) n (s : seq T) : (0 < n)%N -> tail_slice n%:Z s = drop (size s - n)%N s.
Proof. by case: n. Qed.
(* the kept indices have values at least as large as the dropped ones, the values do not decrease along them *)
Lemma tail_largest l n : (0 < n)%N ->
  let kept := tail_slice n%:Z (argsort l) in
  let rest := take (size l - n)%N (argsort l) in
  [/\ perm_eq (rest ++ kept) (iota 0 (size l)), size kept = minn n (size l),
      forall i j, i \in kept -> j \in rest -> nth 0 l j <= nth 0 l i &
      sorted (fun a b : R => a <= b) [seq nth 0 l k | k <- kept]].
Proof.
move=> Hn; cbv zeta; rewrite tail_pos // size_argsort; have [Hp Hs] := Ha l; split.
- by rewrite cat_take_drop.
- by rewrite size_drop size_argsort; lia.
- move=> i j Hi Hj.
  have S := Hs; rewrite -(cat_take_drop (size l - n)%N (argsort l)) map_cat in S.
  have tr : transitive (fun a b : R => a <= b) by move=> ? ? ?; apply: le_trans.
  move: S; rewrite sorted_pairwise // pairwise_cat => /and3P [/allrelP A _ _].
  by apply: A; apply: map_f.
by rewrite map_drop; apply: drop_sorted.
Qed.
End Slices.

(* --- C92: select_largest returns the most probable configurations with their amplitudes *)
Section C92.
Variables (R : realFieldType) (Cf : eqType) (argsort : seq R -> seq nat) (prob : R -> R).
Hypothesis Ha : argsort_ok argsort.
Variables (d : Cf * R) (confs : seq Cf) (amps : seq R).
Hypothesis Hsz : size confs = size amps.

Theorem C92_select_largest n : (0 < n)%N ->
  let out := select_largest_of argsort prob (Some n%:Z) d confs amps in
  let chosen := zip out.1 out.2 in
  exists others, [/\ perm_eq (chosen ++ others) (zip confs amps), size chosen = minn n (size amps) &
    forall p q, p \in chosen -> q \in others -> prob q.2 <= prob p.2].
Proof.
move=> Hn; rewrite /select_largest_of; have -> : (n%:Z == 0) = false by case: n Hn.
set l := [seq prob a | a <- amps]; have [P S K _] := tail_largest Ha l Hn.
have Sl : size l = size amps by rewrite size_map.
set kept := tail_slice _ _ in P S K *; set rest := take _ _ in P K *.
have Z ids : zip [seq nth d.1 confs k | k <- ids] [seq nth d.2 amps k | k <- ids] = [seq (nth d.1 confs k, nth d.2 amps k) | k <- ids].
  by elim: ids => //= a s ->.
have N k : (k < size amps)%N -> nth 0 l k = prob (nth d.2 amps k) by move=> Hk; rewrite (nth_map d.2).
have In k : k \in rest ++ kept -> (k < size amps)%N by rewrite (perm_mem P) mem_iota Sl.
exists [seq (nth d.1 confs k, nth d.2 amps k) | k <- rest]; rewrite /= Z; split.
- rewrite -map_cat.
  have -> : zip confs amps = [seq (nth d.1 confs k, nth d.2 amps k) | k <- iota 0 (size l)].
    rewrite Sl -Z; congr (zip _ _); last by rewrite -[LHS](mkseq_nth d.2).
    by rewrite -[LHS](mkseq_nth d.1) /mkseq Hsz.
  by apply: perm_map; rewrite perm_catC.
- by rewrite size_map S Sl.
move=> p q /mapP [i Hi ->] /mapP [j Hj ->] /=; rewrite -!N ?K //; apply: In; rewrite mem_cat ?Hi ?Hj ?orbT //.
Qed.
(* select_largest = None returns everything *)
Theorem C92_none : select_largest_of argsort prob None d confs amps = (confs, amps).
Proof. by []. Qed.
(* and so does select_largest = 0, which asks for no configuration *)
Theorem C92_zero : select_largest_of argsort prob (Some 0) d confs amps = (confs, amps).
Proof. by []. Qed.
End C92.
Theorem C92_zero_refuted : exists (confs : seq nat) (amps : seq rat),
  let out := select_largest_of (fun l => iota 0 (size l)) id (Some 0) (0%N, 0) confs amps in size out.1 <> 0%N.
Proof. by exists [:: 1%N], [:: 1]. Qed.
Example C92_ex : select_largest_of (fun l => sort (fun i j => nth 0 l i <= nth 0 l j) (iota 0 (size l)))
    (fun a : rat => a ^+ 2) (Some 2) (0%N, 0) [:: 10; 11; 12]%N [:: -3; 1; 2]
  = ([:: 12; 10]%N, [:: 2; -3]).
Proof. by vm_compute. Qed.

(* --- C99: the environment of an orbital *)
Lemma argsort2 (R : realFieldType) (argsort : seq R -> seq nat) : argsort_ok argsort -> forall a b : R,
  (a < b -> argsort [:: a; b] = [:: 0; 1]%N) /\ (b < a -> argsort [:: a; b] = [:: 1; 0]%N).
Proof.
move=> Ha a b; have [P S] := Ha [:: a; b].
have : argsort [:: a; b] \in permutations (iota 0 2) by rewrite mem_permutations.
rewrite (_ : permutations (iota 0 2) = [:: [:: 0; 1]; [:: 1; 0]]%N) // !inE => /orP [] /eqP E; rewrite E in S *;
  move: S; rewrite /= andbT => S; split=> // H; by have := le_lt_trans S H; rewrite ltxx.
Qed.
Section C99.
Variables (R : realFieldType) (norb : nat) (argsort : seq R -> seq nat).
Hypothesis Ha : argsort_ok argsort.
Implicit Types (em basis : 'M[R]_norb).

(* k different orbitals in the order of decreasing |em|, none left out with a larger one *)
Theorem C99_top_k em (k : nat) (i : 'I_norb) : (0 < k)%N ->
  exists env : seq 'I_norb, [/\ [seq val j | j <- env] = top_k argsort em k%:Z i, uniq env,
    size env = minn k norb, sorted (fun a b : R => b <= a) [seq `|em i j| | j <- env] &
    forall j j', j \in env -> j' \notin env -> `|em i j'| <= `|em i j|].
Proof.
move=> Hk; rewrite /top_k; set l := [seq _ | j <- _].
have Sl : size l = norb by rewrite size_map size_enum_ord.
have N (j : 'I_norb) : nth 0 l j = `|em i j| by rewrite (nth_map i) ?size_enum_ord ?nth_ord_enum.
have [P S K So] := tail_largest Ha l Hk; set kept := tail_slice _ _ in P S K So *; set rest := take _ _ in P K.
rewrite Sl in P S.
have U : uniq (rest ++ kept) by rewrite (perm_uniq P) iota_uniq.
have Lt j : j \in kept -> (j < norb)%N by move=> Hj; have := perm_mem P j; rewrite mem_cat Hj orbT mem_iota /= => <-.
have V : [seq val j | j <- pmap insub kept : seq 'I_norb] = kept.
  rewrite pmap_filter; last by move=> a /=; exact: insubK.
  by apply/all_filterP/allP => j Hj /=; rewrite insubT ?Lt.
exists (rev (pmap insub kept)); split.
- by rewrite map_rev V.
- rewrite rev_uniq; apply: (@map_uniq _ _ val); rewrite V; by move: U; rewrite cat_uniq => /and3P [].
- by rewrite size_rev -(size_map val) V.
- rewrite map_rev rev_sorted -[X in sorted _ X](_ : [seq nth 0 l k | k <- kept] = _) //.
  by rewrite -[in LHS]V -map_comp; apply: eq_map => j /=; rewrite N.
move=> j j'; rewrite !mem_rev => Hj Hj'; rewrite -!N.
have M (a : 'I_norb) : (a \in (pmap insub kept : seq 'I_norb)) = (val a \in kept) by rewrite -{2}V mem_map //; exact: val_inj.
rewrite !M in Hj Hj'; apply: K => //.
by have := perm_mem P (val j'); rewrite mem_cat (negbTE Hj') orbF mem_iota /= ltn_ord.
Qed.

(* the matrix whose rows are sorted: transformed twice to local orbitals, never to canonical ones *)
Theorem C99_matrix_used local basis em k i :
  environments argsort local basis em k i
  = top_k argsort (if local then (basis *m basis)^T *m em *m (basis *m basis) else em) k i.
Proof. by rewrite /environments /loaded_exchange /saved_exchange; case: local; rewrite // trmx_mul !mulmxA. Qed.
(* the exchange matrix K_ij = phi_i^T em phi_j of the orbitals of the basis is used if the basis is that of em *)
Theorem C99_exchange_partial local em k i :
  environments argsort local 1%:M em k i = top_k argsort ((1%:M)^T *m em *m 1%:M) k i.
Proof. by rewrite C99_matrix_used !trmx_mul !trmx1 !mul1mx !mulmx1; case: local. Qed.
End C99.
(* in general it is not, in the local and in the canonical basis *)
Theorem C99_exchange_refuted (argsort : seq rat -> seq nat) : argsort_ok argsort -> forall local,
  exists (basis em : 'M[rat]_2), basis^T *m basis = 1%:M /\
    environments argsort local basis em 1 0 <> top_k argsort (basis^T *m em *m basis) 1 0.
Proof.
move=> Ha local.
pose B : 'M[rat]_2 := \matrix_(i, j) (i != j)%:R.
pose em : 'M[rat]_2 := \matrix_(i, j) (if i == j then (if i == 0 then 1 else 5%:R) else 2%:R).
have BT : B^T = B by apply/matrixP => i j; rewrite !mxE eq_sym.
have BB : B *m B = 1%:M.
  apply/matrixP => i j; rewrite !mxE !big_ord_recl big_ord0 !mxE.
  by case: i => [[|[|//]] Hi]; case: j => [[|[|//]] Hj]; apply/eqP; vm_compute.
exists B, em; split; first by rewrite BT.
rewrite C99_matrix_used; have -> : (if local then (B *m B)^T *m em *m (B *m B) else em) = em.
  by case: local; rewrite // BB trmx1 mul1mx mulmx1.
have E0 : [seq `|em 0 j| | j <- enum 'I_2] = [:: 1; 2%:R].
  by rewrite !enum_ordS (size0nil (size_enum_ord 0)) /= !mxE /= normr1 normr_nat.
have E1 : [seq `|(B^T *m em *m B) 0 j| | j <- enum 'I_2] = [:: 5%:R; 2%:R].
  rewrite !enum_ordS (size0nil (size_enum_ord 0)) /= BT; congr [:: _; _].
    by rewrite !mxE !big_ord_recl big_ord0 !mxE !big_ord_recl !big_ord0 !mxE; apply/eqP; vm_compute.
  by rewrite !mxE !big_ord_recl big_ord0 !mxE !big_ord_recl !big_ord0 !mxE; apply/eqP; vm_compute.
rewrite /top_k E0 E1 (proj1 (argsort2 Ha _ _)) // (proj2 (argsort2 Ha _ _)) //.
Qed.
Example C99_ex : top_k (fun l : seq rat => sort (fun i j => nth 0 l i <= nth 0 l j) (iota 0 (size l)))
  (\matrix_(i < 3, j < 3) (if (i + j)%N == 1%N then -5%:R else (i * j)%:R)) 2 0 = [:: 1; 2]%N.
Proof.
rewrite /top_k !enum_ordS (size0nil (size_enum_ord 0)) /= !mxE /=; by vm_compute.
Qed.
