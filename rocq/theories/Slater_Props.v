(* C37, C38: fast updates of Slater determinants. *)
From Verif Require Import Base Fock_Spec Occ_Model Occ_Spec AbInitioOtf_Model Elec_Model Elec_Props Update_Proto Slater_Model Slater_Det Slater_Pos Slater_Sign Slater_Proofs.
Local Open Scope ring_scope.

Section Slater.
Variables (F : fieldType) (L nu nd : nat) (blocked constant_time : bool).
Notation N := (nu + nd)%N.
Notation in_sector := (in_sector L nu nd).

(* orbital row of a position after the site symmetry *)
Definition orbital (c : component F N) (p : nat) : 'rV[F]_N :=
  if (p < L)%N then co_U c (co_sym c p) else co_U c (co_sym c (p - L) + L)%N.
(* orbitals of the occupied positions in standard order: up electrons by site, then down electrons *)
Definition orbital_matrix (c : component F N) (x : seq nat) : 'M[F]_N :=
  \matrix_(i, j) orbital c (nth 0%N (plist L x) i) 0 j.
(* symmetries map sites to sites; with fixed magnetisation the orbitals are block diagonal *)
Definition wf_comp (c : component F N) : Prop :=
  (forall i, (i < L)%N -> (co_sym c i < L)%N) /\
  (blocked -> exists Uup Udn, forall p, (p < 2 * L)%N -> co_U c p = block_U L Uup Udn p).

Lemma sym_posE (c : component F N) p : (p < 2 * L)%N -> sym_pos L (co_sym c) p = if (p < L)%N then co_sym c p else (co_sym c (p - L) + L)%N.
Proof.
move=> Hp; rewrite /sym_pos; case: ltnP => H; first by rewrite modn_small // divn_small // mul0n addn0.
have -> : (p = p - L + L)%N by lia.
have HL : (p - L < L)%N by lia.
have L0 : (0 < L)%N by lia.
by rewrite modnDr modn_small // divnDr // divnn divn_small // L0 mul1n addnK.
Qed.
Lemma orbitalE (c : component F N) p : (p < 2 * L)%N -> co_U c (sym_pos L (co_sym c) p) = orbital c p.
Proof. by move=> Hp; rewrite sym_posE // /orbital; case: ifP. Qed.
Lemma sym_pos_lt (c : component F N) p : wf_comp c -> (p < 2 * L)%N -> (sym_pos L (co_sym c) p < 2 * L)%N.
Proof.
move=> [H _] Hp; rewrite sym_posE //; case: (ltnP p L) => HpL; first by have := H _ HpL; lia.
have : (p - L < L)%N by lia.
by move/H; lia.
Qed.

Lemma nth_plist_lt x i : in_sector x -> (i < N)%N -> (nth 0%N (plist L x) i < 2 * L)%N.
Proof.
move=> Hx Hi; have : nth 0%N (plist L x) i \in plist L x by rewrite mem_nth // (size_plist Hx).
by rewrite mem_plist => /andP[].
Qed.

Lemma submatE (c : component F N) x : in_sector x -> submat L c x = orbital_matrix c x.
Proof.
move=> Hx; have [Hs Hv Hu Hd] := Hx; apply/matrixP => i j; rewrite !mxE; congr (_ 0 j).
have Hi := ltn_ord i; have sz := size_plist Hx.
have E1 := nonzero_sector Up Hv; have E2 := nonzero_sector Dn Hv.
rewrite Hu Hs /= in E1; rewrite Hd Hs /= in E2; rewrite Hs E1 E2.
move: sz; rewrite plist_split size_cat !size_map => sz.
rewrite !nth_cat !size_map; case: ltnP => Hi1.
  rewrite (nth_map 0%N) // /orbital.
  have : nth 0%N [seq k <- iota 0 L | has_spin Up (nth 0%N x k)] i \in [seq k <- iota 0 L | has_spin Up (nth 0%N x k)] by apply: mem_nth.
  by rewrite mem_filter mem_iota /= => /andP[_ ->].
have Hi2 : (i - size [seq k <- iota 0 L | has_spin Up (nth 0%N x k)] < size [seq k <- iota 0 L | has_spin Dn (nth 0%N x k)])%N.
  by rewrite ltn_subLR // sz.
by rewrite !(nth_map 0%N) // /orbital ltnNge leq_addl /= addnK.
Qed.

Lemma block_zero (A : 'M[F]_N) : ursubmx A = 0 -> \det A = \det (ulsubmx A) * \det (drsubmx A).
Proof. by move=> H; rewrite -{1}(submxK A) H det_lblock. Qed.

Lemma evaluate_SDE (c : component F N) x : in_sector x -> wf_comp c -> evaluate_SD blocked (orbital_matrix c x) = \det (orbital_matrix c x).
Proof.
move=> Hx [Hsym HU]; rewrite /evaluate_SD; case: ifP => // Hb; have [Uup [Udn HUE]] := HU Hb.
rewrite -block_zero //; apply/matrixP => i j; rewrite !mxE /orbital.
have [Hs Hv Hu Hd] := Hx; have Hi := ltn_ord i.
have Hsz : size [seq k <- iota 0 L | has_spin Up (nth 0%N x k)] = nu.
  by rewrite -Hs (size_iota_filter (has_spin Up)).
have Hin : nth 0%N (plist L x) i \in [seq k <- iota 0 L | has_spin Up (nth 0%N x k)].
  by rewrite plist_split nth_cat Hsz Hi mem_nth // Hsz.
move: Hin; rewrite mem_filter mem_iota /= => /andP[_ Hp]; rewrite Hp.
have Hq := Hsym _ Hp; rewrite HUE; last by lia.
by rewrite /block_U Hq row_mxEr mxE.
Qed.

Section Step.
Variables (x y sites occs : seq nat).
Hypotheses (Hx : in_sector x) (Hy : in_sector y) (Hd : denotes x y sites occs).
Let K := size sites.
Let X := plist L x.
Let Y := plist L y.
Let A := adds L x sites occs.
Let R := rems L x sites occs.
Let n := size R.

Let uX : uniq X. Proof. exact: plist_uniq. Qed.
Let uA : uniq A. Proof. exact: adds_uniq Hx Hy Hd. Qed.
Let uR : uniq R. Proof. exact: rems_uniq Hx Hy Hd. Qed.
Let sAR : size A = size R. Proof. exact: size_adds_rems Hx Hy Hd. Qed.
Let sX : size X = N. Proof. exact: size_plist. Qed.
Let sK : (size R <= K)%N. Proof. by rewrite -sAR; exact: size_adds_K Hx Hy Hd. Qed.
Let RX : {subset R <= X}. Proof. by move=> p; rewrite (mem_rems Hx Hy Hd) => /andP[]. Qed.
Let AX : forall p, p \in A -> p \notin X. Proof. by move=> p; rewrite (mem_adds Hx Hy Hd) => /andP[]. Qed.
Let A_lt p : p \in A -> (p < 2 * L)%N. Proof. by rewrite (mem_adds Hx Hy Hd) mem_plist => /andP[/andP[]]. Qed.
Let R_lt p : p \in R -> (p < 2 * L)%N. Proof. by move/RX; rewrite mem_plist => /andP[]. Qed.
Let w := word X A R n.
Let pw : perm_eq w Y.
Proof.
apply: (word_final uX uA sAR AX (plist_uniq _ _)); first by rewrite !(@size_plist _ nu nd).
  exact: mem_adds Hx Hy Hd.
exact: mem_rems Hx Hy Hd.
Qed.

Let ad := [seq Some p | p <- A] ++ nseq (K - n) None.
Let rm := [seq Some p | p <- R] ++ nseq (K - n) None.
Let el := [seq Some (index p X) | p <- R] ++ nseq (K - n) None.

Lemma els_E : electron_ids (site_el L nu nd x) rm = el.
Proof.
rewrite /electron_ids /rm map_cat -map_comp; congr (_ ++ _); last by rewrite map_nseq.
by apply/eq_in_map => p Hp /=; rewrite site_elE // RX.
Qed.
Lemma nth_pad (T : Type) (g : nat -> T) (s : seq nat) k : size s = n ->
  nth None ([seq Some (g p) | p <- s] ++ nseq (K - n) None) k = if (k < n)%N then Some (g (nth 0%N s k)) else None.
Proof.
move=> Hs; rewrite nth_cat size_map Hs; case: ltnP => Hk; first by rewrite (nth_map 0%N) // Hs.
by rewrite nth_nseq if_same.
Qed.
Lemma sign_E : sign_update F (cum_count x) ad rm = (-1) ^+ inv w.
Proof.
have [Hs Hv _ _] := Hx.
rewrite /ad /rm (@sign_update_word X A R) // => [|p Hp|p Hp]; last 2 first.
- by rewrite (@cum_countE L) // A_lt.
- by rewrite (@cum_countE L) // R_lt.
by rewrite (inv_sorted (plist_sorted _ _)) addn0 signr_odd.
Qed.
Lemma el_pos_E : update_el_pos ad el X = w.
Proof.
rewrite /update_el_pos; have -> : count (fun a => a != None) ad = n.
  rewrite /ad count_cat count_map (eq_count (a2 := xpredT)) // count_predT sAR.
  by rewrite [X in (_ + X)%N](_ : _ = 0%N) ?addn0 // count_nseq.
pose P k (v : seq nat) := v = word X A R k.
apply: (@foldl_iota_ind _ _ P 0 n X); rewrite /P ?word0 // => k v /andP[_ Hk] ->; rewrite add0n in Hk.
rewrite /el /ad !nth_pad // Hk /= wordS //.
Qed.

Section Comp.
Variable c : component F N.
Hypotheses (Hc : wf_comp c) (HMA : orbital_matrix c x \in unitmx).
Let f := orbital c.
Let MA_E : orbital_matrix c x = rows f X. Proof. by []. Qed.
Let MY_E : orbital_matrix c y = rows f Y. Proof. by []. Qed.
Let HA : rows f X \in unitmx. Proof. exact: HMA. Qed.
Let cc := CompCache (evaluate_SD blocked (orbital_matrix c x)) (invmx (orbital_matrix c x)) (update_matrix L constant_time c (invmx (orbital_matrix c x))).

Let nth_ad_sym k : nth None (map (sym_opt L c) ad) k = if (k < n)%N then Some (sym_pos L (co_sym c) (nth 0%N A k)) else None.
Proof. by rewrite /ad map_cat map_nseq -map_comp (nth_pad (fun p => sym_pos L (co_sym c) p)). Qed.
Let nth_rm_sym k : nth None (map (sym_opt L c) rm) k = if (k < n)%N then Some (sym_pos L (co_sym c) (nth 0%N R k)) else None.
Proof. by rewrite /rm map_cat map_nseq -map_comp (nth_pad (fun p => sym_pos L (co_sym c) p)). Qed.
Let nth_el k : nth None el k = if (k < n)%N then Some (index (nth 0%N R k) X) else None.
Proof. by rewrite /el nth_pad. Qed.

Lemma upd_row_E k : (k < n)%N -> upd_row L c cc (Some (sym_pos L (co_sym c) (nth 0%N A k))) = f (nth 0%N A k) *m invmx (rows f X).
Proof.
move=> Hk; have Hp : (nth 0%N A k < 2 * L)%N by apply: A_lt; rewrite mem_nth // sAR.
rewrite /upd_row /cc /= /update_matrix; case: constant_time; last by rewrite orbitalE.
by rewrite (nth_map 0%N) ?size_iota ?nth_iota ?sym_pos_lt // add0n orbitalE.
Qed.

Lemma up_mat_E : up_mat L c cc K ad el = 1%:M + (Vmat K f A R *m invmx (rows f X)) *m Pmat F N K X R.
Proof.
apply/matrixP => k l; rewrite (S_entry A uR sX RX HA) mxE !nth_ad_sym nth_el.
case: (ltnP k n) => Hk //=; case: (ltnP l n) => Hl //=.
by rewrite upd_row_E.
Qed.

Lemma det_E : \det (up_mat L c cc K ad el) * cc_det cc * sign_update F (cum_count x) ad rm = \det (orbital_matrix c y).
Proof.
rewrite /= evaluate_SDE // sign_E up_mat_E MA_E -(det_MB uX uA uR sAR sX sK RX HA).
rewrite (@rdet_sorted _ _ f w Y pw); last by rewrite (@size_plist _ nu nd).
  by rewrite mulrAC -exprD addnn -mul2n exprM sqrrN !expr1n mul1r.
by apply: sub_sorted (plist_sorted L y); apply: ltnW.
Qed.

Hypothesis HMY : orbital_matrix c y \in unitmx.
Let HB : rows f w \in unitmx.
Proof.
rewrite unitmxE (@rdet_sorted _ _ f w Y pw) ?(@size_plist _ nu nd) //; last first.
  by apply: sub_sorted (plist_sorted L y); apply: ltnW.
by rewrite unitrM unitrX ?unitrN1 //= -MY_E -unitmxE.
Qed.

Lemma inv_E : update_inverse L c (invmx (orbital_matrix c x)) K ad rm el (argsort w) = invmx (orbital_matrix c y).
Proof.
rewrite MY_E; apply: (inv_permuted sX HB pw (plist_sorted _ _)) => i j.
rewrite -(inv_update uX uA uR sAR sX sK RX HA HB (IU := \matrix_(i, l) entry (row i (invmx (rows f X))) (nth None el l))); last first.
  by move=> i1 l Hl; rewrite (mul_Pmat_sub sX RX _ _ Hl) mxE /entry nth_el Hl; case: insubP => // m _ _; rewrite mxE.
rewrite /update_inverse mxE.
set V := \matrix_(k < K, j < N) (if _ then _ else 0); have -> : V = Vmat K f A R.
  apply/matrixP => k m; rewrite !mxE nth_ad_sym nth_rm_sym; case: (ltnP k n) => Hk //=.
  have Ha : (nth 0%N A k < 2 * L)%N by apply: A_lt; rewrite mem_nth // sAR.
  have Hr : (nth 0%N R k < 2 * L)%N by apply: R_lt; rewrite mem_nth.
  by rewrite (orbitalE _ Ha) (orbitalE _ Hr).
rewrite MA_E; set W := Vmat K f A R *m _.
set VU := \matrix_(k < K, l < K) (if _ then _ else 0); have -> : VU = W *m Pmat F N K X R.
  apply/matrixP => k m; rewrite mxE nth_ad_sym nth_el; case: (ltnP m n) => Hm /=; last by rewrite mul_Pmat0.
  by rewrite (mul_Pmat_sub sX RX _ _ Hm) /entry; case: insubP => // l _ _; rewrite mxE.
by rewrite /entry; case: insubP => // l _ _; rewrite mxE.
Qed.
End Comp.

(* the pieces of slater_fast *)
Lemma fast_E (cs : seq (component F N)) : slater_fast L constant_time cs (slater_full L blocked constant_time cs x) occs sites
  = @SlaterCache F nu nd y (cum_count y) (site_el L nu nd y)
    [seq (let cc := CompCache (evaluate_SD blocked (submat L c x)) (invmx (submat L c x)) (update_matrix L constant_time c (invmx (submat L c x))) in
          let inv := update_inverse L c (cc_inv cc) K ad rm el (argsort w) in
          CompCache (\det (up_mat L c cc K ad el) * cc_det cc * sign_update F (cum_count x) ad rm) inv
            (update_matrix L constant_time c inv)) | c <- cs].
Proof.
rewrite /slater_fast /slater_full /=.
have -> : slater_update_config x sites occs = y by exact: denotes_write Hd.
rewrite (moved_adds Hx Hy Hd) (moved_rems Hx Hy Hd) -/K -/A -/R sAR -/n -/ad -/rm els_E.
rewrite (positions_plist Hx) -/X el_pos_E; congr SlaterCache.
by elim: cs => [//|c cs IH] /=; rewrite IH.
Qed.

Theorem fast_det (cs : seq (component F N)) : (forall k c0, (k < size cs)%N -> wf_comp (nth c0 cs k) /\ orbital_matrix (nth c0 cs k) x \in unitmx) ->
  map (@cc_det F nu nd) (sc_comps (slater_fast L constant_time cs (slater_full L blocked constant_time cs x) occs sites))
  = [seq \det (orbital_matrix c y) | c <- cs].
Proof.
move=> H; rewrite fast_E /= -map_comp; elim: cs H => [//|c cs IH] H /=; congr (_ :: _); last first.
  by apply: IH => k c0 Hk; exact: (H k.+1 c0 Hk).
have [Hc Hu] := H 0%N c isT; have -> := submatE c Hx; exact: det_E.
Qed.
Theorem fast_full (cs : seq (component F N)) : (forall k c0, (k < size cs)%N -> [/\ wf_comp (nth c0 cs k), orbital_matrix (nth c0 cs k) x \in unitmx &
    orbital_matrix (nth c0 cs k) y \in unitmx]) ->
  slater_fast L constant_time cs (slater_full L blocked constant_time cs x) occs sites = slater_full L blocked constant_time cs y.
Proof.
move=> H; rewrite fast_E /slater_full; congr SlaterCache.
elim: cs H => [//|c cs IH] H /=; congr (_ :: _); last first.
  by apply: IH => k c0 Hk; exact: (H k.+1 c0 Hk).
have [Hc Hux Huy] := H 0%N c isT.
rewrite /= in Hc Hux Huy; have E1 := det_E Hc Hux; have E2 := inv_E Hux Huy.
rewrite /= in E1; rewrite (submatE c Hx) (submatE c Hy) E2 (evaluate_SDE Hy Hc); congr CompCache; exact: E1.
Qed.
End Step.

(* all components are well formed and their orbital matrices for x are invertible *)
Definition wf_comps (cs : seq (component F N)) : Prop := forall k c0, (k < size cs)%N -> wf_comp (nth c0 cs k).
Definition nonsingular (cs : seq (component F N)) (x : seq nat) : Prop :=
  forall k c0, (k < size cs)%N -> orbital_matrix (nth c0 cs k) x \in unitmx.

(* Full evaluation gives the determinants of the occupied orbitals in standard order. *)
Theorem C37_slater_full_evaluation (cs : seq (component F N)) x : in_sector x -> wf_comps cs ->
  map (@cc_det F nu nd) (sc_comps (slater_full L blocked constant_time cs x)) = [seq \det (orbital_matrix c x) | c <- cs].
Proof.
move=> Hx Hc; rewrite /slater_full /= -map_comp; elim: cs Hc => [//|c cs IH] Hc /=; congr (_ :: _); last first.
  by apply: IH => k c0 Hk; exact: (Hc k.+1 c0 Hk).
by rewrite (submatE c Hx) (evaluate_SDE Hx (Hc 0%N c isT)).
Qed.

(* Fast update: from the cache of x and an update list describing the change from x to y, every
   determinant equals the determinant of the orbitals occupied in y, in standard order, also when
   that one vanishes. *)
Theorem C37_slater_fast_update (cs : seq (component F N)) x y sites occs chi :
  in_sector x -> in_sector y -> denotes x y sites occs -> wf_comps cs -> nonsingular cs x ->
  let fast := slater_fast L constant_time cs (slater_full L blocked constant_time cs x) occs sites in
  map (@cc_det F nu nd) (sc_comps fast) = [seq \det (orbital_matrix c y) | c <- cs] /\
  slater_amplitude chi fast = \sum_(p <- zip chi cs) p.1 * \det (orbital_matrix p.2 y).
Proof.
move=> Hx Hy Hd Hc Hu fast.
have E : map (@cc_det F nu nd) (sc_comps fast) = [seq \det (orbital_matrix c y) | c <- cs].
  by apply: fast_det => // k c0 Hk; split; [apply: Hc|apply: Hu].
split=> //; rewrite /slater_amplitude.
have H1 (T : Type) (g : T -> F) s : \sum_(p <- zip chi s) p.1 * g p.2 = \sum_(p <- zip chi (map g s)) p.1 * p.2.
  elim: s chi => [|a s IH] [|b l]; rewrite ?big_nil //; last by rewrite /= !big_cons IH.
by rewrite (H1 _ (@cc_det F nu nd)) E (H1 _ (fun c => \det (orbital_matrix c y))).
Qed.

(* a run of accepted updates *)
Inductive path_of (cs : seq (component F N)) : seq nat -> seq (seq nat * seq nat) -> seq nat -> Prop :=
| Path_nil x : path_of cs x [::] x
| Path_cons x y z sites occs us : in_sector y -> nonsingular cs y -> denotes x y sites occs ->
    path_of cs y us z -> path_of cs x ((sites, occs) :: us) z.

(* After any sequence of updates through non-singular configurations the whole cache is that of a
   full evaluation: stored configuration, counts, electron ids, determinants, inverses and update
   matrices. *)
Theorem C38_slater_cache_run (cs : seq (component F N)) x us z :
  in_sector x -> wf_comps cs -> nonsingular cs x -> path_of cs x us z ->
  foldl (fun sc u => slater_fast L constant_time cs sc u.2 u.1) (slater_full L blocked constant_time cs x) us
  = slater_full L blocked constant_time cs z.
Proof.
move=> Hx Hc Hu Hp; elim: Hp Hx Hu => [//|x1 y z1 sites occs us1 Hy Huy Hd _ IH] Hx Hu /=.
rewrite (@fast_full x1 y sites occs Hx Hy Hd cs); first exact: IH.
by move=> k c0 Hk; split; [apply: Hc|apply: Hu|apply: Huy].
Qed.

(* and so every cached inverse is the inverse of the current orbital matrix *)
Theorem C38_cached_inverse (cs : seq (component F N)) x us z k c0 cc0 :
  in_sector x -> wf_comps cs -> nonsingular cs x -> path_of cs x us z -> (k < size cs)%N ->
  let sc := foldl (fun sc u => slater_fast L constant_time cs sc u.2 u.1) (slater_full L blocked constant_time cs x) us in
  cc_inv (nth cc0 (sc_comps sc) k) *m orbital_matrix (nth c0 cs k) z = 1%:M
  /\ sc_samples sc = z.
Proof.
move=> Hx Hc Hu Hp Hk /=; rewrite (C38_slater_cache_run Hx Hc Hu Hp) /= (nth_map c0) //=; split=> //.
have [Hz Huz] : in_sector z /\ nonsingular cs z.
  by elim: Hp Hx Hu => // x1 y z1 sites occs us1 Hy Huy _ _ IH _ _; apply: IH.
by rewrite submatE // mulVmx //; apply: Huz.
Qed.
End Slater.

(* Three sites, two up electrons, orbitals (1, p): the electron of site 0 moves past the one of
   site 1 to site 2, so the update carries a sign. *)
Section Example.
Let c : component rat_fieldType (2 + 0) := Component (fun p => \row_(j < 2) (p%:R ^+ j)) id.
Let x : seq nat := [:: 1; 1; 0]%N.
Let y : seq nat := [:: 0; 1; 1]%N.
Lemma det22 (F : fieldType) (A : 'M[F]_2) : \det A = A ord0 ord0 * A ord_max ord_max - A ord0 ord_max * A ord_max ord0.
Proof.
rewrite (expand_det_row A ord0) !big_ord_recl big_ord0 addr0 /cofactor !det_mx11 !mxE /= expr0 expr1 mul1r mulN1r mulrN.
by congr (A _ _ * A _ _ - A _ _ * A _ _); apply: val_inj.
Qed.
Lemma ex_det z : \det (orbital_matrix 3 c z) = (nth 0%N (plist 3 z) 1)%:R - (nth 0%N (plist 3 z) 0)%:R.
Proof.
have E p j : orbital 3 c p 0 j = p%:R ^+ j.
  by rewrite /orbital; case: ltnP => Hp; rewrite mxE //= subnK.
by rewrite (det22 (orbital_matrix 3 c z)) !mxE !E /= !expr0 !expr1 mul1r mulr1.
Qed.
Example C37_example : sign_update rat_fieldType (cum_count x) [:: Some 2; None]%N [:: Some 0; None]%N = -1 /\
  map (@cc_det rat_fieldType 2 0) (sc_comps (slater_fast 3 true [:: c] (slater_full 3 false true [:: c] x) [:: 0; 1]%N [:: 0; 2]%N)) = [:: 1].
Proof.
split; first by rewrite /sign_update /= !mul1r ?mulr1.
have Hc : wf_comps 3 false [:: c] by case=> [|k] // c0 _; split.
have Hu : nonsingular 3 [:: c] x by case=> [|k] // c0 _; rewrite unitmxE ex_det.
have Hd : denotes x y [:: 0; 2]%N [:: 0; 1]%N.
  by split=> // [[|[|k]]|[|[|[|j]]]] //; rewrite !nth_default.
have [-> _] := @C37_slater_fast_update rat_fieldType 3 2 0 false true [:: c] x y [:: 0; 2]%N [:: 0; 1]%N [::]
  (And4 erefl erefl erefl erefl) (And4 erefl erefl erefl erefl) Hd Hc Hu.
by rewrite /= ex_det.
Qed.
(* the cached inverse after moving on to y and back *)
Example C38_example : foldl (fun sc u => slater_fast 3 false [:: c] sc u.2 u.1) (slater_full 3 false false [:: c] x)
    [:: ([:: 0; 2], [:: 0; 1]); ([:: 2; 0; 2], [:: 0; 1; 1])]%N = slater_full 3 false false [:: c] x.
Proof.
have Hc : wf_comps 3 false [:: c] by case=> [|k] // c0 _; split.
have Hu : nonsingular 3 [:: c] x by case=> [|k] // c0 _; rewrite unitmxE ex_det.
have Hv : nonsingular 3 [:: c] y by case=> [|k] // c0 _; rewrite unitmxE ex_det.
apply: (@C38_slater_cache_run rat_fieldType 3 2 0 false false [:: c] x _ x (And4 erefl erefl erefl erefl) Hc Hu).
apply: (@Path_cons _ _ _ _ _ x y) => //.
  by split=> // [[|[|k]]|[|[|[|j]]]] //; rewrite !nth_default.
apply: (@Path_cons _ _ _ _ _ y x) => //; last exact: Path_nil.
by split=> // [[|[|[|k]]]|[|[|[|j]]]] //; rewrite !nth_default.
Qed.
End Example.
Print Assumptions C37_slater_fast_update.
Print Assumptions C38_slater_cache_run.
