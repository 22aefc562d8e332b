(* Electron positions, moved electrons and the parity of an update. *)
From Verif Require Import Base Fock_Spec Occ_Model Occ_Spec AbInitioOtf_Model Elec_Model Elec_Props Update_Proto Slater_Model Slater_Det.
Local Open Scope ring_scope.

Lemma foldl_iota_ind (S : Type) (f : S -> nat -> S) (P : nat -> S -> Prop) m n s0 :
  P m s0 -> (forall k s, (m <= k < m + n)%N -> P k s -> P k.+1 (f s k)) -> P (m + n)%N (foldl f s0 (iota m n)).
Proof.
elim: n m s0 => [|n IH] m s0 H0 Hs /=; first by rewrite addn0.
rewrite -addSnnS; apply: IH => [|k s Hk]; first by apply: Hs => //; lia.
by apply: Hs; lia.
Qed.

Section Pos.
Variables (L nu nd : nat).
Notation N := (nu + nd)%N.

(* position p is occupied *)
Definition occp (x : seq nat) (p : nat) : bool :=
  if (p < L)%N then has_spin Up (nth 0%N x p) else has_spin Dn (nth 0%N x (p - L)).
Definition plist (x : seq nat) : seq nat := [seq p <- iota 0 (2 * L) | occp x p].
Definition in_sector (x : seq nat) : Prop := [/\ size x = L, valid x, n_spin Up x = nu & n_spin Dn x = nd].

Lemma has_has_spin x s k : valid x -> has (nth 0%N x k) (spin_int s) = has_spin s (nth 0%N x k).
Proof.
move=> Hv; have : (nth 0%N x k < 4)%N.
  by case: (ltnP k (size x)) => Hk; [apply: (allP Hv); apply: mem_nth|rewrite nth_default].
by case: s; case: (nth 0%N x k) => [|[|[|[|]]]].
Qed.

Lemma nonzero_sector x s : valid x ->
  nonzero_sized (n_spin s x) (fun k => has (nth 0%N x k) (spin_int s)) (size x)
  = [seq k <- iota 0 (size x) | has_spin s (nth 0%N x k)].
Proof.
move=> Hv; rewrite /nonzero_sized (eq_filter (fun k => has_has_spin s k Hv)).
by rewrite take_size_cat // (size_iota_filter (has_spin s)).
Qed.

Lemma plist_split x : plist x = [seq k <- iota 0 L | has_spin Up (nth 0%N x k)]
  ++ [seq (k + L)%N | k <- [seq k <- iota 0 L | has_spin Dn (nth 0%N x k)]].
Proof.
rewrite /plist mul2n -addnn iotaD filter_cat; congr (_ ++ _).
  by apply: eq_in_filter => k; rewrite mem_iota /occp /= => ->.
rewrite add0n -{1}(addn0 L) iotaDl filter_map (eq_map (addnC L)); congr (map _ _).
by apply: eq_filter => k /=; rewrite /occp ltnNge leq_addr /= addKn.
Qed.

Lemma positions_plist x : in_sector x -> positions L nu nd x = plist x.
Proof.
case=> Hs Hv Hu Hd; rewrite /positions -{1}Hu -Hd (nonzero_sector Up Hv) (nonzero_sector Dn Hv) Hs.
by rewrite plist_split.
Qed.
Lemma size_plist x : in_sector x -> size (plist x) = N.
Proof.
case=> Hs Hv Hu Hd; rewrite plist_split size_cat size_map -Hs.
by rewrite (size_iota_filter (has_spin Up)) (size_iota_filter (has_spin Dn)) -Hu -Hd.
Qed.
Lemma plist_uniq x : uniq (plist x). Proof. by rewrite filter_uniq ?iota_uniq. Qed.
Lemma plist_sorted x : sorted ltn (plist x).
Proof. by apply: sorted_filter; [exact: ltn_trans|exact: iota_ltn_sorted]. Qed.
Lemma mem_plist x p : (p \in plist x) = occp x p && (p < 2 * L)%N.
Proof. by rewrite mem_filter mem_iota. Qed.

(* electrons moved by an update list *)
Section Moved.
Variables (x y sites occs : seq nat).
Hypotheses (Hx : in_sector x) (Hy : in_sector y) (Hd : denotes x y sites occs).
Let K := size sites.
Let ups := updates [seq nth 0%N x i | i <- sites] occs.

Definition mlist (v : int) : seq nat :=
  [seq nth 0%N (split_sites L sites) k | k <- [seq k <- iota 0 (size ups) | nth 0 ups k == v]].

Let sx : size x = L. Proof. by case: Hx. Qed.
Lemma size_ups : size ups = (K + K)%N.
Proof. by case: Hd => _ Ho _ _ _; rewrite /ups /updates size_cat !size_map !size_zip size_map Ho minnn. Qed.
Let Hlt k : (k < K)%N -> (nth 0%N sites k < L)%N.
Proof. by move=> Hk; case: Hd => _ _ /all_nthP H _ _; rewrite -sx; apply: H. Qed.

Definition dspin s (k : nat) : int := occ_update (nth 0%N x (nth 0%N sites k)) (nth 0%N occs k) (spin_int s).
Lemma nth_ups k : (k < K + K)%N -> nth 0 ups k = if (k < K)%N then dspin Up k else dspin Dn (k - K).
Proof.
case: Hd => _ Ho _ _ _ Hk; rewrite /ups /updates nth_cat size_map size_zip size_map Ho minnn -/K.
case: ltnP => Hk1.
  by rewrite (nth_map (0%N, 0%N)) ?size_zip ?size_map ?Ho ?minnn // nth_zip ?size_map ?Ho //= (nth_map 0%N).
have Hk2 : (k - K < size sites)%N by rewrite -/K; lia.
by rewrite (nth_map (0%N, 0%N)) ?size_zip ?size_map ?Ho ?minnn // nth_zip ?size_map ?Ho //= (nth_map 0%N).
Qed.
Lemma nth_split k : (k < K + K)%N -> nth 0%N (split_sites L sites) k = if (k < K)%N then nth 0%N sites k else (nth 0%N sites (k - K) + L)%N.
Proof.
by move=> Hk; rewrite /split_sites nth_cat -/K; case: ltnP => Hk1 //; rewrite (nth_map 0%N) // -/K; lia.
Qed.

(* value of the spin update at a position *)
Definition delta (p : nat) : int := (nat_of_bool (occp x p))%:Z - (nat_of_bool (occp y p))%:Z.

Lemma dspinE s k : (k < K)%N ->
  dspin s k = if index (nth 0%N sites k) sites == k
    then (nat_of_bool (has_spin s (nth 0%N x (nth 0%N sites k))))%:Z - (nat_of_bool (has_spin s (nth 0%N y (nth 0%N sites k))))%:Z
    else 0.
Proof.
move=> Hk; case: Hd => _ _ _ Hv _; rewrite /dspin /occ_update Hv //.
case: Hx => _ vx _ _; case: Hy => _ vy _ _.
by case: ifP => _; rewrite !has_has_spin // subrr.
Qed.

Lemma nth_ups_delta k : (k < K + K)%N -> let p := nth 0%N (split_sites L sites) k in
  nth 0 ups k = if index p (split_sites L sites) == k then delta p else 0.
Proof.
move=> Hk; rewrite /= nth_ups // nth_split //; case: ltnP => Hk1.
  rewrite dspinE // /split_sites index_cat mem_nth // /delta /occp Hlt //; by [].
have Hk2 : (k - K < K)%N by lia.
rewrite dspinE // /delta /occp ltnNge leq_addl /= addnK /split_sites index_cat.
have -> : (nth 0%N sites (k - K) + L)%N \in sites = false.
  apply/negbTE/negP => Hin; case: Hd => _ _ /allP Ha _ _; move: (Ha _ Hin); rewrite sx; lia.
rewrite (@index_map _ _ (fun i => (i + L)%N)); last exact: addIn.
by rewrite -/K; have -> : (K + index (nth 0%N sites (k - K)) sites == k)%N = (index (nth 0%N sites (k - K)) sites == k - K)%N by lia.
Qed.

Lemma mlist_uniq v : v != 0 -> uniq (mlist v).
Proof.
move=> Hv; rewrite map_inj_in_uniq ?filter_uniq ?iota_uniq // => k l.
rewrite !mem_filter !mem_iota size_ups !add0n /= => /andP[Ek Hk] /andP[El Hl] E.
move: Ek El; rewrite !nth_ups_delta //=.
case: (altP (_ =P k)) => [Ek _|_]; last by rewrite eq_sym (negbTE Hv).
case: (altP (_ =P l)) => [El _|_]; last by rewrite eq_sym (negbTE Hv).
by rewrite -Ek -El E.
Qed.
Lemma split_lt p : p \in split_sites L sites -> (p < 2 * L)%N.
Proof.
case: Hd => _ _ /allP Ha _ _; rewrite mem_cat => /orP[/Ha|/mapP[i /Ha + ->]]; rewrite sx; lia.
Qed.
Lemma split_off p : (p < 2 * L)%N -> p \notin split_sites L sites -> delta p = 0.
Proof.
case: Hd => _ _ _ _ Hoff Hp; rewrite mem_cat negb_or => /andP[H1 H2]; rewrite /delta /occp.
case: ltnP => HpL; first by rewrite Hoff // subrr.
have -> : nth 0%N y (p - L) = nth 0%N x (p - L).
  apply: Hoff; apply: contraNN H2 => H; apply/mapP; exists (p - L)%N => //; lia.
by rewrite subrr.
Qed.
Lemma mem_mlist v p : v != 0 -> (p \in mlist v) = (p < 2 * L)%N && (delta p == v).
Proof.
move=> Hv; apply/mapP/andP => [[k]|[Hp Hdp]].
  rewrite mem_filter mem_iota size_ups add0n => /andP[Ek /= Hk] E.
  have Hin : p \in split_sites L sites by rewrite E mem_nth // /split_sites size_cat size_map.
  rewrite (split_lt Hin); split=> //; move: Ek; rewrite nth_ups_delta //= -E.
  by case: ifP => // _; rewrite eq_sym (negbTE Hv).
have Hin : p \in split_sites L sites.
  by apply: contraNT Hv => /(split_off Hp) E; rewrite -(eqP Hdp) E.
have Hi : (index p (split_sites L sites) < K + K)%N by rewrite -[(K + K)%N]/(size sites + size sites)%N -{2}(size_map (fun i => (i + L)%N)) -size_cat index_mem.
exists (index p (split_sites L sites)); last by rewrite nth_index.
by rewrite mem_filter mem_iota size_ups add0n nth_ups_delta //= nth_index // eqxx Hdp.
Qed.

Definition adds := mlist (-1).
Definition rems := mlist 1.
Lemma adds_uniq : uniq adds. Proof. exact: mlist_uniq. Qed.
Lemma rems_uniq : uniq rems. Proof. exact: mlist_uniq. Qed.
Lemma mem_adds p : (p \in adds) = (p \in plist y) && (p \notin plist x).
Proof.
rewrite mem_mlist // !mem_plist /delta; case: (p < 2 * L)%N; rewrite ?andbF //= !andbT.
by case: (occp x p); case: (occp y p).
Qed.
Lemma mem_rems p : (p \in rems) = (p \in plist x) && (p \notin plist y).
Proof.
rewrite mem_mlist // !mem_plist /delta; case: (p < 2 * L)%N; rewrite ?andbF //= !andbT.
by case: (occp x p); case: (occp y p).
Qed.
Lemma size_adds_rems : size adds = size rems.
Proof.
have Ea : perm_eq adds [seq p <- plist y | p \notin plist x].
  apply: uniq_perm; [exact: adds_uniq|by rewrite filter_uniq ?plist_uniq|].
  by move=> p; rewrite mem_adds mem_filter andbC.
have Er : perm_eq rems [seq p <- plist x | p \notin plist y].
  apply: uniq_perm; [exact: rems_uniq|by rewrite filter_uniq ?plist_uniq|].
  by move=> p; rewrite mem_rems mem_filter andbC.
have Ei : perm_eq [seq p <- plist y | p \in plist x] [seq p <- plist x | p \in plist y].
  apply: uniq_perm; [exact: filter_uniq (plist_uniq y)|exact: filter_uniq (plist_uniq x)|].
  by move=> p; rewrite !mem_filter andbC.
rewrite (perm_size Ea) (perm_size Er) !size_filter.
have := count_predC (mem (plist x)) (plist y); rewrite size_plist //.
have := count_predC (mem (plist y)) (plist x); rewrite size_plist //.
move/perm_size: Ei; rewrite !size_filter.
set a := count _ _; set b := count _ _; set c := count _ _; set d := count _ _.
move=> E1 E2 E3; suff : (c = d)%N by []. 
move: E1 E2 E3; rewrite /c /d /a /b => -> E2 E3.
by apply/eqP; rewrite -(eqn_add2l (count (fun p => p \in plist y) (plist x))); apply/eqP; exact: (etrans E2 (esym E3)).
Qed.
Lemma size_adds_K : (size adds <= K)%N.
Proof.
have H : (size (mlist (-1)) + size (mlist 1) <= K + K)%N.
  rewrite !size_map !size_filter -count_predUI.
  rewrite (_ : count (predI _ _) _ = 0%N); last first.
    by apply/eqP; rewrite -leqn0 leqNgt -has_count; apply/hasPn => k _ /=; apply/negP => /andP[/eqP -> ].
  by rewrite addn0 -[X in (_ <= X)%N]size_ups -[X in (_ <= X)%N](size_iota 0) count_size.
by move: H; rewrite -/adds -/rems size_adds_rems; lia.
Qed.

Lemma moved_mlist v : (size (mlist v) <= K)%N ->
  moved_sites v ups (split_sites L sites) K = [seq Some p | p <- mlist v] ++ nseq (K - size (mlist v)) None.
Proof.
move=> H; rewrite /moved_sites take_cat size_map -(size_map (fun k => nth 0%N (split_sites L sites) k)) ltnNge H /= map_comp.
by rewrite take_nseq // leq_subr.
Qed.
Lemma moved_adds : moved_sites (-1) ups (split_sites L sites) K = [seq Some p | p <- adds] ++ nseq (K - size adds) None.
Proof. by rewrite moved_mlist // size_adds_K. Qed.
Lemma moved_rems : moved_sites 1 ups (split_sites L sites) K = [seq Some p | p <- rems] ++ nseq (K - size adds) None.
Proof. by rewrite size_adds_rems moved_mlist // -/rems -size_adds_rems size_adds_K. Qed.
End Moved.
End Pos.
