(* The cached quantities and the linear algebra of the Slater determinant update. *)
From Verif Require Import Base Fock_Spec Occ_Model Occ_Spec AbInitioOtf_Model Elec_Model Elec_Props Update_Proto Slater_Model Slater_Det Slater_Pos Slater_Sign.
Local Open Scope ring_scope.

Section Cached.
Variables (L nu nd : nat).
Notation N := (nu + nd)%N.
Notation in_sector := (in_sector L nu nd).

Lemma spin_bitsE x : size x = L -> valid x -> spin_bits x = [seq nat_of_bool (occp L x p) | p <- iota 0 (2 * L)].
Proof.
move=> Hs Hv; rewrite /spin_bits mul2n -addnn iotaD map_cat add0n; congr (_ ++ _).
  rewrite -{1}(mkseq_nth 0%N x) /mkseq -map_comp Hs; apply/eq_in_map => k; rewrite mem_iota /= => Hk.
  by rewrite /occp Hk (has_has_spin Up).
rewrite -[X in iota X](addn0 L) iotaDl -{1}(mkseq_nth 0%N x) /mkseq -!map_comp Hs; apply/eq_in_map => k _ /=.
by rewrite /occp ltnNge leq_addr /= addKn (has_has_spin Dn).
Qed.

Lemma cum_countE x p : size x = L -> valid x -> (p < 2 * L)%N -> nth 0%N (cum_count x) p = upto (plist L x) p.
Proof.
move=> Hs Hv Hp; rewrite /cum_count spin_bitsE // nth_scanl ?size_map ?size_iota //.
have foldl_sum l a : foldl addn a l = (a + sumn l)%N by elim: l a => [|b l IH] a /=; rewrite ?addn0 // IH addnA.
rewrite foldl_sum add0n -map_take take_iota (minn_idPl Hp) /upto /plist count_filter.
have -> : (2 * L = p.+1 + (2 * L - p.+1))%N by lia.
rewrite iotaD count_cat [X in (_ + X)%N](_ : _ = 0%N) ?addn0; last first.
  apply/eqP; rewrite -leqn0 leqNgt -has_count; apply/hasPn => q; rewrite mem_iota /= => Hq.
  by rewrite negb_and; apply/orP; left; lia.
rewrite sumn_count; apply: eq_in_count => q; rewrite mem_iota /= => Hq.
by have -> : (q <= p)%N by lia.
Qed.

Lemma site_elE x p : in_sector x -> p \in plist L x -> nth None (site_el L nu nd x) p = Some (index p (plist L x)).
Proof.
move=> Hx Hp; rewrite /site_el positions_plist //; set X := plist L x.
pose P k (v : seq (option nat)) := forall q, q \in take k X -> nth None v q = Some (index q X).
suff : P (0 + size X)%N (foldl (fun v i => set_nth None v (nth 0%N X i) (Some i)) (nseq (2 * L) None) (iota 0 (size X))).
  by rewrite add0n /P take_size; apply.
apply: foldl_iota_ind => [q|k v /= Hk Pk q]; first by rewrite take0.
rewrite add0n in Hk; rewrite (take_nth 0%N) // mem_rcons in_cons nth_set_nth /= => /orP[/eqP ->|Hq].
  by rewrite eqxx index_uniq // plist_uniq.
have Hi : (index q X < k)%N.
  by move: Hq; rewrite -index_mem size_takel ?(ltnW Hk) // -{2}(cat_take_drop k X) index_cat => H; rewrite -index_mem size_takel ?(ltnW Hk) // H.
case: (altP (q =P nth 0%N X k)) => [E|_]; last exact: Pk.
by move: Hi; rewrite E index_uniq ?plist_uniq // ltnn.
Qed.
End Cached.

Section Algebra.
Variables (F : fieldType) (N K : nat) (f : nat -> 'rV[F]_N).
Variables (X A R : seq nat).
Hypotheses (uX : uniq X) (uA : uniq A) (uR : uniq R) (sAR : size A = size R) (sX : size X = N) (sK : (size R <= K)%N).
Hypotheses (RX : {subset R <= X}) (AX : forall p, p \in A -> p \notin X).
Notation n := (size R).
Let w := word X A R n.
Let MA := rows f X.
Let MB := rows f w.
Let e k := index (nth 0%N R k) X.
Let He k : (k < n)%N -> (e k < N)%N.
Proof. by move=> Hk; rewrite -sX index_mem; apply: RX; apply: mem_nth. Qed.

Definition Pmat : 'M[F]_(N, K) := \matrix_(i, k) (((k < n)%N && (e k == i))%:R).
Definition Vmat : 'M[F]_(K, N) := \matrix_(k, j) (if (k < n)%N then f (nth 0%N A k) 0 j - f (nth 0%N R k) 0 j else 0).

Lemma MB_update : MB = MA + Pmat *m Vmat.
Proof.
apply/matrixP => i j; rewrite !mxE.
have Hi : (i < size X)%N by rewrite sX.
rewrite /w /word (nth_map 0%N) // /subst index_mem; set p := nth 0%N X i.
case: (boolP (p \in R)) => Hp.
  have Hk : (index p R < n)%N by rewrite index_mem.
  have HkK : (index p R < K)%N by lia.
  rewrite (bigD1 (Ordinal HkK)) //= big1 ?addr0 => [|k Hk']; rewrite !mxE /=; last first.
    case: (ltnP k n) => Hkn /=; rewrite ?mul0r //.
    case: (altP (e k =P i)) => [E|]; rewrite ?mul0r //.
    have Ep : p = nth 0%N R k by rewrite /p -E nth_index // RX // mem_nth.
    by case/eqP: Hk'; apply: val_inj => /=; rewrite Ep index_uniq.
  rewrite Hk /= /e nth_index // /p index_uniq // eqxx mul1r addrC subrK; by [].
rewrite big1 ?addr0 // => k _; rewrite !mxE; case: (ltnP k n) => Hkn /=; rewrite ?mul0r //.
case: (altP (e k =P i)) => [E|]; rewrite ?mul0r //.
by move: Hp; rewrite /p -E nth_index ?RX ?mem_nth.
Qed.

Hypothesis HA : MA \in unitmx.
Let W := Vmat *m invmx MA.
Let S := 1%:M + W *m Pmat.

Lemma mul_Pmat m (B : 'M[F]_(m, N)) i (l : 'I_K) (Hl : (l < n)%N) : (B *m Pmat) i l = B i (Ordinal (He Hl)).
Proof.
rewrite mxE (bigD1 (Ordinal (He Hl))) //= big1 ?addr0 => [|j Hj]; rewrite !mxE Hl /= ?eqxx ?mulr1 //.
case: (altP (e l =P j)) => [E|]; rewrite ?mulr0 //.
by case/eqP: Hj; apply: val_inj; rewrite /= -E.
Qed.
Lemma mul_Pmat0 m (B : 'M[F]_(m, N)) i (l : 'I_K) : (n <= l)%N -> (B *m Pmat) i l = 0.
Proof. by move=> Hl; rewrite mxE big1 // => j _; rewrite !mxE ltnNge Hl /= mulr0. Qed.
Lemma mul_Pmat_sub m (B : 'M[F]_(m, N)) i (l : 'I_K) : (l < n)%N ->
  (B *m Pmat) i l = if insub (e l) is Some j then B i j else 0.
Proof. by move=> Hl; rewrite (mul_Pmat _ _ Hl) (insubT (fun i => i < N)%N (He Hl)). Qed.
Lemma W_row (k : 'I_K) : (k < n)%N -> row k W = (f (nth 0%N A k) - f (nth 0%N R k)) *m invmx MA.
Proof.
move=> Hk; rewrite /W row_mul; congr (_ *m _); apply/rowP => j; rewrite !mxE Hk.
by [].
Qed.
Lemma W_row0 (k : 'I_K) : (n <= k)%N -> row k W = 0.
Proof.
move=> Hk; rewrite /W row_mul; rewrite [row k _](_ : _ = 0) ?mul0mx //.
by apply/rowP => j; rewrite !mxE ltnNge Hk.
Qed.
Lemma fr_inv k (Hk : (k < n)%N) j : (f (nth 0%N R k) *m invmx MA) 0 j = (e k == j)%:R.
Proof.
have -> : f (nth 0%N R k) = row (Ordinal (He Hk)) MA.
  by apply/rowP => i; rewrite !mxE /= nth_index // RX // mem_nth.
rewrite -row_mul mulmxV // !mxE; congr (nat_of_bool _)%:R.
Qed.

Lemma S_entry k l : S k l = if (k < n)%N && (l < n)%N
  then (if insub (e l) is Some i then (f (nth 0%N A k) *m invmx MA) 0 i else 0) else (k == l)%:R.
Proof.
rewrite /S mxE [X in X + _]mxE; case: (ltnP l n) => Hl; last by rewrite andbF mul_Pmat0 // addr0.
rewrite andbT mul_Pmat (insubT (fun i => i < N)%N (He Hl)).
case: (ltnP k n) => Hk; last first.
  have := W_row0 Hk => /rowP /(_ (Ordinal (He Hl))); rewrite mxE => ->.
  by rewrite mxE addr0.
have := W_row Hk => /rowP /(_ (Ordinal (He Hl))); rewrite mxE => ->.
rewrite mulmxBl mxE [X in _ + (_ + X)]mxE (fr_inv Hk) /=.
have -> : (e k == e l) = (k == l).
  have HkX := RX (mem_nth 0%N Hk); have HlX := RX (mem_nth 0%N Hl).
  apply/eqP/eqP => [E|-> //]; apply: val_inj => /=; apply/eqP.
  by rewrite -(nth_uniq 0%N Hk Hl uR) -(nth_index 0%N HkX) -/(e k) E nth_index.
by rewrite addrCA subrr addr0.
Qed.

Lemma det_MB : \det MB = \det S * \det MA.
Proof.
have -> : MB = (1%:M + Pmat *m W) *m MA.
  by rewrite MB_update mulmxDl mul1mx /W mulmxA mulmxKV.
by rewrite det_mulmx sylvester.
Qed.

Hypothesis HB : MB \in unitmx.
Lemma S_unit : S \in unitmx.
Proof. by move: HB; rewrite !unitmxE det_MB unitrM => /andP[]. Qed.

Lemma Z_row0 (k : 'I_K) : (n <= k)%N -> row k (invmx S *m W) = 0.
Proof.
move=> Hk; have E : S *m (invmx S *m W) = W by rewrite mulKVmx // S_unit.
have E1 : row k S = row k 1%:M.
  by apply/rowP => l; rewrite mxE S_entry ltnNge Hk /= !mxE.
by rewrite -(W_row0 Hk) -[in RHS]E [RHS]row_mul E1 -[RHS]row_mul mul1mx.
Qed.

Lemma inv_update (IU : 'M[F]_(N, K)) : (forall i (l : 'I_K), (l < n)%N -> IU i l = (invmx MA *m Pmat) i l) ->
  invmx MA - IU *m (invmx S *m W) = invmx MB.
Proof.
move=> HIU; have -> : IU *m (invmx S *m W) = invmx MA *m Pmat *m (invmx S *m W).
  apply/matrixP => i j; rewrite !mxE; apply: eq_bigr => l _.
  case: (ltnP l n) => Hl; first by rewrite HIU.
  by have /rowP /(_ j) := Z_row0 Hl; rewrite [LHS]mxE [RHS]mxE => ->; rewrite !mulr0.
have HS : 1%:M + Vmat *m invmx MA *m Pmat \in unitmx by exact: S_unit.
have := woodbury HA HS; rewrite -MB_update -/W -/S => E.
by rewrite -[LHS](mulKmx HB) E mulmx1.
Qed.

(* columns in the standard order *)
Variable Y : seq nat.
Hypotheses (pY : perm_eq w Y) (oY : sorted ltn Y).
Lemma argsort_Y : [seq nth 0%N w i | i <- argsort w] = Y.
Proof.
have -> : [seq nth 0%N w i | i <- argsort w] = sort leq [seq nth 0%N w i | i <- iota 0 (size w)] by rewrite sort_map.
rewrite (_ : [seq nth 0%N w i | i <- iota 0 (size w)] = w); last exact: mkseq_nth.
apply: (sorted_eq leq_trans anti_leq); first exact: sort_sorted leq_total _.
  by apply: sub_sorted oY; apply: ltnW.
by rewrite perm_sort.
Qed.
Lemma argsort_perm : perm_eq (argsort w) (iota 0 N).
Proof. by rewrite /argsort perm_sort size_word sX. Qed.
Lemma argsort_lt j : (j < N)%N -> (nth 0%N (argsort w) j < N)%N.
Proof.
move=> Hj; have : nth 0%N (argsort w) j \in argsort w by rewrite mem_nth // (perm_size argsort_perm) size_iota.
by rewrite (perm_mem argsort_perm) mem_iota.
Qed.
Lemma argsort_uniq : uniq (argsort w). Proof. by rewrite (perm_uniq argsort_perm) iota_uniq. Qed.

Lemma inv_permuted (B : 'M[F]_N) :
  (forall i j, B i j = (if insub (nth 0%N (argsort w) j) is Some l then invmx MB i l else 0)) -> B = invmx (rows f Y).
Proof.
move=> HBE; have sA : size (argsort w) = N by rewrite (perm_size argsort_perm) size_iota.
have E : rows f Y *m B = 1%:M.
  apply/matrixP => i j; rewrite !mxE.
  pose oi := Ordinal (argsort_lt (ltn_ord i)); pose oj := Ordinal (argsort_lt (ltn_ord j)).
  transitivity ((MB *m invmx MB) oi oj).
    rewrite mxE; apply: eq_bigr => l _; rewrite HBE (insubT (fun i => i < N)%N (argsort_lt (ltn_ord j))) !mxE.
    by congr (f _ 0 l * _); rewrite -argsort_Y (nth_map 0%N) // sA.
  rewrite mulmxV // mxE; congr (nat_of_bool _)%:R.
  by rewrite -val_eqE /= nth_uniq ?sA ?argsort_uniq.
have HY : rows f Y \in unitmx by case/mulmx1_unit: E.
by rewrite -[LHS](mulKmx HY) E mulmx1.
Qed.
End Algebra.
