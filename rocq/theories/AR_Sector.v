From Verif Require Import Base Choice_Model QGPS_Model AR_Model AR_Sym AR_Proofs AR_Site.
Import Num.Theory Order.TTheory.
Local Open Scope ring_scope.

Section Pos.
Variables (V : comRingType) (R : realFieldType) (wexp : V -> R).
Variables (D L : nat) (constrained : bool).
Variables (count_spins : nat -> seq nat) (renorm : seq nat -> nat -> seq bool).
Variables (C : Type) (c0 : C) (site : C -> seq nat -> nat -> C * seq V).
Hypothesis wexp_pos : forall v, 0 < wexp v.
Hypothesis size_count : forall k, size (count_spins k) = D.
Hypothesis size_site : forall c x i, size (site c x i).2 = D.
Hypothesis size_renorm : forall ns i, size ns = D -> size (renorm ns i) = D.
Local Notation pc := (pc wexp D constrained count_spins renorm c0 site).
Local Notation wc := (wc wexp D constrained count_spins renorm c0 site).
Local Notation lp_at := (lp_at D constrained count_spins renorm c0 site).

Definition allowed (x : seq nat) (i : nat) : seq bool :=
  renorm (spin_step count_spins (spins D constrained count_spins x i) x i) i.

Lemma size_allowed x i : size (allowed x i) = D.
Proof. by apply: size_renorm; apply: (size_spin_step size_count); apply: size_spins. Qed.
Lemma size_lp_at x i : size (lp_at x i) = D.
Proof. by rewrite size_zip size_site -/(allowed x i) size_allowed minnn. Qed.

Lemma nth_wc x i d : (d < D)%N ->
  if nth false (allowed x i) d then (0 < nth 0 (wc x i) d) = true else nth 0 (wc x i) d = 0.
Proof.
move=> Hd; rewrite /AR_Proofs.wc /weights (nth_map (0, false)) ?size_lp_at // nth_zip ?size_site -/(allowed x i) ?size_allowed //=.
by case: (nth false _ _); rewrite ?wexp_pos.
Qed.
Lemma wc_ge0 x i d : 0 <= nth 0 (wc x i) d.
Proof.
case: (ltnP d D) => Hd; last by rewrite nth_default // size_map size_lp_at.
by have := nth_wc x i Hd; case: ifP => _; [apply: ltW|move->].
Qed.
Lemma sum_wc x i : \sum_(u <- wc x i) u = \sum_(d < D) nth 0 (wc x i) d.
Proof. by rewrite (big_nth 0) big_mkord size_map size_lp_at. Qed.
Lemma alive_allowed x i d : (d < D)%N -> nth false (allowed x i) d -> 0 < \sum_(u <- wc x i) u.
Proof.
move=> Hd Ha; rewrite sum_wc (bigD1 (Ordinal Hd)) //=.
apply: ltr_paddr; first by apply: sumr_ge0 => k _; apply: wc_ge0.
by have := nth_wc x i Hd; rewrite Ha.
Qed.
Lemma dead_allowed x i : (forall d, (d < D)%N -> nth false (allowed x i) d = false) -> \sum_(u <- wc x i) u = 0.
Proof. by move=> H; rewrite sum_wc big1 // => k _; have := nth_wc x i (ltn_ord k); rewrite H. Qed.
Lemma nth_pc x i d : (d < D)%N ->
  if nth false (allowed x i) d then (0 < nth 0 (pc x i) d) = true else nth 0 (pc x i) d = 0.
Proof.
move=> Hd; rewrite /AR_Proofs.pc -/(wc x i) /normalized (nth_map 0) ?size_map ?size_lp_at //.
have := nth_wc x i Hd; case: ifP => [Ha Hp|_ ->]; last by rewrite mul0r.
by rewrite divr_gt0 // (alive_allowed Hd Ha).
Qed.

Lemma pone_lemma x : okc D L x ->
  if all (fun i => nth false (allowed x i) (nth 0%N x i)) (iota 0 L)
  then (0 < prob_one wexp D L constrained count_spins renorm c0 site x) = true
  else prob_one wexp D L constrained count_spins renorm c0 site x = 0.
Proof.
move=> /andP[/eqP Hs Ha]; rewrite prob_oneE //.
have Hx i : (i < L)%N -> (nth 0%N x i < D)%N by move=> Hi; move/all_nthP: Ha; apply; rewrite Hs.
case: ifPn => [/allP H|/allPn[i]].
  apply: prodr_gt0 => i _; have := nth_pc x i (Hx i (ltn_ord i)).
  by rewrite H // mem_iota /= add0n.
rewrite mem_iota add0n => /andP[_ Hi] /negbTE Hn.
rewrite (bigD1 (Ordinal Hi)) //=.
by have := nth_pc x i (Hx i Hi); rewrite Hn => ->; rewrite mul0r.
Qed.
End Pos.

(* --- spins --- *)
Lemma prefix_count (x : seq nat) h :
  all (fun i => count_mem (nth 0%N x i) (take i x) < h)%N (iota 0 (size x)) = all (fun d => count_mem d x <= h)%N x.
Proof.
elim/last_ind: x => [//|x a IH].
have E : all (fun i => count_mem (nth 0%N (rcons x a) i) (take i (rcons x a)) < h)%N (iota 0 (size (rcons x a)))
   = all (fun i => count_mem (nth 0%N x i) (take i x) < h)%N (iota 0 (size x)) && (count_mem a x < h)%N.
  have Ht : take (size x) (rcons x a) = x by rewrite -cats1 take_size_cat.
  rewrite size_rcons -[(size x).+1]addn1 iotaD all_cat /= add0n andbT nth_rcons ltnn eqxx Ht.
  congr (_ && _); apply: eq_in_all => i; rewrite mem_iota add0n => /andP[_ Hi].
  by rewrite nth_rcons Hi -cats1 takel_cat // ltnW.
rewrite E IH all_rcons -cats1 count_cat /= eqxx addn0 addn1.
case Ha : (count_mem a x < h)%N; last by rewrite andbF.
rewrite andbT /=; apply: eq_in_all => d Hd /=; rewrite count_cat /= addn0.
by case: (altP (a =P d)) => [<-|_]; rewrite ?addn0 //= addn1 Ha; apply: ltnW.
Qed.

Lemma sum_take (f : nat -> nat) (x : seq nat) i : (i <= size x)%N ->
  (\sum_(j < i) f (nth 0%N x j) = \sum_(o <- take i x) f o)%N.
Proof.
move=> Hi; rewrite [RHS](big_nth 0%N) big_mkord size_take_min (minn_idPl Hi).
by apply: eq_bigr => j _; rewrite nth_take.
Qed.

Lemma count2E s d : (s < 2)%N -> (d < 2)%N -> nth 0%N (count_spins2 s) d = (s == d).
Proof. by case: s => [|[|s]] // _; case: d => [|[|d]]. Qed.

Section Spin.
Variable L : nat.
Lemma allowed2 x i d : okc 2 L x -> (i < L)%N -> (d < 2)%N ->
  nth false (allowed 2 true count_spins2 (renorm2 L) x i) d = (count_mem d (take i x) < L %/ 2)%N.
Proof.
move=> /andP[/eqP Hs Ha] Hi Hd; rewrite /allowed /renorm2.
have Hc : forall k, size (count_spins2 k) = 2%N by [].
rewrite (nth_map 0%N) ?(size_spin_step Hc) ?size_spins // spinsE //.
rewrite (@sum_take (fun o => nth 0%N (count_spins2 o) d)); last by rewrite Hs ltnW.
congr (_ < _)%N; have {Ha} : all (fun o => (o < 2)%N) (take i x) by apply/allP => o /mem_take; apply: (allP Ha).
elim: (take i x) => [|o l IH] /=; first by rewrite big_nil.
by case/andP => Ho Hl; rewrite big_cons IH // count2E.
Qed.

Lemma count01 x : all (fun o => (o < 2)%N) x -> (count_mem 0%N x + count_mem 1%N x = size x)%N.
Proof. by elim: x => [//|[|[|o]] x IH] //= /IH <-; rewrite ?add0n ?add1n ?addSn ?addnS. Qed.

Lemma sector2 x : okc 2 L x -> ~~ odd L ->
  all (fun i => nth false (allowed 2 true count_spins2 (renorm2 L) x i) (nth 0%N x i)) (iota 0 L)
  = (count_mem 0%N x == count_mem 1%N x).
Proof.
move=> Hx HL; have [/eqP Hs Ha] := andP Hx.
have Hlt i : (i < L)%N -> (nth 0%N x i < 2)%N by move=> Hi; move/all_nthP: Ha; apply; rewrite Hs.
rewrite (_ : all _ _ = all (fun i => count_mem (nth 0%N x i) (take i x) < L %/ 2)%N (iota 0 (size x))); last first.
  rewrite Hs; apply: eq_in_all => i; rewrite mem_iota add0n => /andP[_ Hi].
  by rewrite allowed2 // Hlt.
rewrite prefix_count; have Hc := count01 Ha.
have Hh : (L = L %/ 2 * 2)%N by rewrite divnK // dvdn2.
have Hin d : (d \in x) = (0 < count_mem d x)%N by rewrite -has_count has_pred1.
apply/allP/eqP => [H|E d Hd].
  have H0 : (0 < count_mem 0%N x)%N -> (count_mem 0%N x <= L %/ 2)%N by rewrite -Hin; apply: H.
  have H1 : (0 < count_mem 1%N x)%N -> (count_mem 1%N x <= L %/ 2)%N by rewrite -Hin; apply: H.
  by move: H0 H1; lia.
have := allP Ha d Hd; case: d {Hd} => [|[|d]] // _; lia.
Qed.

(* the last prefix always leaves a choice *)
Lemma alive2 x i : okc 2 L x -> ~~ odd L -> (i < L)%N ->
  exists2 d, (d < 2)%N & nth false (allowed 2 true count_spins2 (renorm2 L) x i) d.
Proof.
move=> Hx HL Hi; have [/eqP Hs Ha] := andP Hx.
have Ht : all (fun o => (o < 2)%N) (take i x) by apply/allP => o /mem_take; apply: (allP Ha).
have := count01 Ht; rewrite size_takel ?Hs 1?ltnW // => Hc.
have Hh : (L = L %/ 2 * 2)%N by rewrite divnK // dvdn2.
case: (ltnP (count_mem 0%N (take i x)) (L %/ 2)) => H0.
  by exists 0%N => //; rewrite allowed2.
exists 1%N => //; rewrite allowed2 //; lia.
Qed.

(* without constraint only the previous site is counted *)
Lemma allowed2_free x i d : okc 2 L x -> (i < L)%N -> (d < 2)%N ->
  nth false (allowed 2 false count_spins2 (renorm2 L) x i) d
  = ((if i is i'.+1 then (nth 0%N x i' == d : nat) else 0) < L %/ 2)%N.
Proof.
move=> /andP[/eqP Hs Ha] Hi Hd; rewrite /allowed /renorm2.
have Hc : forall k, size (count_spins2 k) = 2%N by [].
have Hsz : size (spins 2 false count_spins2 x i) = 2%N by apply: size_spins.
rewrite (nth_map 0%N) ?(size_spin_step Hc) //.
rewrite spins_freeE //; case: i Hi {Hsz} => // i Hi.
by rewrite count2E //; move/all_nthP: Ha; apply; rewrite Hs ltnW.
Qed.
End Spin.

(* --- electrons --- *)
Definition n_up (x : seq nat) : nat := (\sum_(o <- x) o %% 2)%N.
Definition n_dn (x : seq nat) : nat := (\sum_(o <- x) (o %/ 2) %% 2)%N.

Section Electrons.
Variables L nu nd : nat.
Local Notation allow := (allowed 4 true count_spins4 (renorm4 L nu nd)).

Lemma renorm4E ns i d : (d < 4)%N -> nth false (renorm4 L nu nd ns i) d =
  nth false [:: ~~ (L - i + nth 0%N ns 1 <= nu)%N && ~~ (L - i + nth 0%N ns 2 <= nd)%N;
      (nth 0%N ns 1 != nu) && ~~ (L - i + nth 0%N ns 2 <= nd)%N;
      (nth 0%N ns 2 != nd) && ~~ (L - i + nth 0%N ns 1 <= nu)%N;
      (nth 0%N ns 1 != nu) && (nth 0%N ns 2 != nd)] d.
Proof.
rewrite /renorm4; case: (nth 0%N ns 1 == nu); case: (nth 0%N ns 2 == nd);
  case: (_ <= nu)%N; case: (_ <= nd)%N; by case: d => [|[|[|[|d]]]].
Qed.

Lemma counts4 x i : okc 4 L x -> (i <= L)%N ->
  let ns := spin_step count_spins4 (spins 4 true count_spins4 x i) x i in
  nth 0%N ns 1 = n_up (take i x) /\ nth 0%N ns 2 = n_dn (take i x).
Proof.
move=> /andP[/eqP Hs Ha] Hi ns; have Hc : forall k, size (count_spins4 k) = 4%N by [].
rewrite /ns !(spinsE Hc) // /n_up /n_dn; split.
  by rewrite (@sum_take (fun o => nth 0%N (count_spins4 o) 1)) ?Hs.
by rewrite (@sum_take (fun o => nth 0%N (count_spins4 o) 2)) ?Hs.
Qed.

Definition inv4 (x : seq nat) (i : nat) : bool :=
  [&& n_up (take i x) <= nu, nu <= n_up (take i x) + (L - i), n_dn (take i x) <= nd & nd <= n_dn (take i x) + (L - i)]%N.

Lemma take_nup x i : (i < size x)%N ->
  n_up (take i.+1 x) = (n_up (take i x) + nth 0 x i %% 2)%N /\
  n_dn (take i.+1 x) = (n_dn (take i x) + (nth 0 x i %/ 2) %% 2)%N.
Proof.
move=> Hi; rewrite (take_nth 0%N) // /n_up /n_dn -cats1 !big_cat /=.
by rewrite !big_cons !big_nil !addn0.
Qed.

Lemma allowed4 x i : okc 4 L x -> (i < L)%N -> inv4 x i ->
  nth false (allow x i) (nth 0%N x i) = inv4 x i.+1.
Proof.
move=> Hx Hi; have [/eqP Hs Ha] := andP Hx.
have Hd : (nth 0 x i < 4)%N by move/all_nthP: Ha; apply; rewrite Hs.
have [] := @take_nup x i; first by rewrite Hs.
have [] := counts4 Hx (ltnW Hi).
rewrite /inv4 /allowed => E1 E2 -> ->; rewrite renorm4E // E1 E2.
case: (nth 0%N x i) Hd => [|[|[|[|d]]]] //= _; lia.
Qed.

Lemma sector4 x : (nu <= L)%N -> (nd <= L)%N -> okc 4 L x ->
  all (fun i => nth false (allow x i) (nth 0%N x i)) (iota 0 L) = (n_up x == nu) && (n_dn x == nd).
Proof.
move=> Hnu Hnd Hx; have [/eqP Hs Ha] := andP Hx.
have H0 : inv4 x 0 by rewrite /inv4 take0 /n_up /n_dn !big_nil; lia.
have HL : inv4 x L = (n_up x == nu) && (n_dn x == nd).
  rewrite /inv4 -Hs take_size subnn !addn0; lia.
rewrite -HL; apply/allP/idP => [H|Hinv].
  suff Hk k : (k <= L)%N -> inv4 x k by apply: Hk.
  elim: k => [_|k IH Hk]; first exact: H0.
  rewrite -(allowed4 Hx Hk (IH (ltnW Hk))); apply: H.
  by rewrite mem_iota add0n.
have Hall k : (k <= L)%N -> inv4 x (L - k).
  elim: k => [|k IH] Hk; first by rewrite subn0.
  have Hlt : (L - k.+1 < L)%N by lia.
  have := IH (ltnW Hk); have -> : (L - k = (L - k.+1).+1)%N by lia.
  have [] := @take_nup x (L - k.+1); first by rewrite Hs.
  rewrite /inv4 => -> ->.
  have : (nth 0 x (L - k.+1) < 4)%N by move/all_nthP: Ha; apply; rewrite Hs.
  case: (nth 0%N x _) => [|[|[|[|d]]]] //= _; lia.
move=> i; rewrite mem_iota add0n => /andP[_ Hi].
have Ei : i = (L - (L - i))%N by lia.
rewrite allowed4 //; last by rewrite Ei; apply: Hall; apply: leq_subr.
have -> : i.+1 = (L - (L - i.+1))%N by lia.
by apply: Hall; apply: leq_subr.
Qed.

Lemma alive4 x i : okc 4 L x -> (i < L)%N -> (nu <= L)%N -> (nd <= L)%N ->
  (forall j, (j < i)%N -> nth false (allow x j) (nth 0%N x j)) ->
  exists2 d, (d < 4)%N & nth false (allow x i) d.
Proof.
move=> Hx Hi Hnu Hnd Hr; have [/eqP Hs Ha] := andP Hx.
have H0 : inv4 x 0 by rewrite /inv4 take0 /n_up /n_dn !big_nil; lia.
have Hk k : (k <= i)%N -> inv4 x k.
  elim: k => [_|k IH Hk]; first exact: H0.
  by rewrite -(allowed4 Hx (ltn_trans Hk Hi) (IH (ltnW Hk))); apply: Hr.
have := Hk i (leqnn i); have [] := counts4 Hx (ltnW Hi); rewrite /inv4 /allowed => E1 E2 Hinv.
set ns := spin_step _ _ _ _ in E1 E2 *.
have Hor : [|| nth false (renorm4 L nu nd ns i) 0, nth false (renorm4 L nu nd ns i) 1, nth false (renorm4 L nu nd ns i) 2 |
    nth false (renorm4 L nu nd ns i) 3] by rewrite !renorm4E //= E1 E2; lia.
by case/or4P: Hor => H; [exists 0%N|exists 1%N|exists 2%N|exists 3%N].
Qed.
End Electrons.
