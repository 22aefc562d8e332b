From Verif Require Import Base Fock_Spec Occ_Model Occ_Spec Hopping_Model Hubbard_Model.
From Verif Require Import AbInitio_Model AbInitio_Proofs AbInitio_Row AbInitioOtf_Model.
Local Open Scope ring_scope.

Definition below (L : nat) (l : seq nat) := all (fun k => (k < L)%N) l.

Lemma below_mem L l k : below L l -> k \in l -> (k < L)%N.
Proof. by move=> /allP H /H. Qed.

Lemma below_nonzero n mask L : (0 < L)%N -> below L (nonzero_sized n mask L).
Proof.
move=> HL; apply/allP => k /mem_take; rewrite mem_cat mem_filter mem_iota mem_nseq.
by case/orP => [/andP [_ /andP [_ H]]|/andP [_ /eqP ->]].
Qed.
Lemma below_removed L l i : below L l -> below L (outer_removed l i).
Proof.
move=> Hl; apply/allP => k /mapP [p Hp ->].
case: l Hl Hp => [|a l] Hl; first by rewrite /nonzero_sized take0.
move=> Hp; apply: (below_mem Hl); apply: mem_nth.
exact: (below_mem (below_nonzero _ _ _) Hp).
Qed.

Section RDM.
Variables (F : fieldType) (half : F) (L : nat).
Add Ring RF : (r_theory (GRing.Field.comRingType F)).

Definition dot2 (t : nat -> nat -> F) (T : t2 F) : F := \sum_(p < L) \sum_(q < L) t p q * T p q.
Definition dot4 (e : nat -> nat -> nat -> nat -> F) (T : t4 F) : F :=
  \sum_(p < L) \sum_(q < L) \sum_(r < L) \sum_(s < L) e p q r s * T p q r s.

Lemma sum_delta (f : nat -> F) i : (i < L)%N -> \sum_(p < L) (if i == p then f p else 0) = f i.
Proof.
move=> Hi; rewrite (bigD1 (Ordinal Hi)) //= eqxx big1 ?addr0 // => p.
by rewrite -val_eqE /= eq_sym => /negbTE ->.
Qed.

Lemma dot2_scat t T (l : seq ((nat * nat) * F)) :
  all (fun e => (e.1.1 < L)%N && (e.1.2 < L)%N) l ->
  dot2 t (scat2 T l) = dot2 t T + \sum_(e <- l) t e.1.1 e.1.2 * e.2.
Proof.
rewrite /dot2 /scat2; elim: l => [|[[i j] v] l IH] /=.
  by rewrite big_nil addr0 => _; apply: eq_bigr => p _; apply: eq_bigr => q _; rewrite big_nil addr0.
move=> /andP [/andP [Hi Hj] Hl]; rewrite big_cons /= addrCA -(IH Hl) addrC.
rewrite -[t i j * v](sum_delta (fun i' => t i' j * v) Hi) -big_split /=; apply: eq_bigr => p _.
have -> : (if i == p then t p j * v else 0) = \sum_(q < L) (if j == q then (if i == p then t p q * v else 0) else 0).
  by rewrite (sum_delta (fun q => if i == p then t p q * v else 0)).
rewrite -big_split /=; apply: eq_bigr => q _; rewrite big_cons /= xpair_eqE.
by case: (i == p); case: (j == q) => /=; rewrite ?addr0 //; mring (GRing.Field.comRingType F).
Qed.

Lemma dot4_scat e T (l : seq (((nat * nat) * (nat * nat)) * F)) :
  all (fun x => [&& (x.1.1.1 < L)%N, (x.1.1.2 < L)%N, (x.1.2.1 < L)%N & (x.1.2.2 < L)%N]) l ->
  dot4 e (scat4 T l) = dot4 e T + \sum_(x <- l) e x.1.1.1 x.1.1.2 x.1.2.1 x.1.2.2 * x.2.
Proof.
rewrite /dot4 /scat4; elim: l => [|[[[i j] [k m]] v] l IH] /=.
  rewrite big_nil addr0 => _; apply: eq_bigr => p _; apply: eq_bigr => q _; apply: eq_bigr => r _.
  by apply: eq_bigr => s _; rewrite big_nil addr0.
move=> /andP [/and4P [Hi Hj Hk Hm] Hl]; rewrite big_cons /= addrCA -(IH Hl) addrC.
rewrite -[e i j k m * v](sum_delta (fun i' => e i' j k m * v) Hi) -big_split /=; apply: eq_bigr => p _.
have -> : (if i == p then e p j k m * v else 0)
   = \sum_(q < L) (if j == q then (if i == p then e p q k m * v else 0) else 0).
  by rewrite (sum_delta (fun q => if i == p then e p q k m * v else 0)).
rewrite -big_split /=; apply: eq_bigr => q _.
have -> : (if j == q then (if i == p then e p q k m * v else 0) else 0)
   = \sum_(r < L) (if k == r then (if j == q then (if i == p then e p q r m * v else 0) else 0) else 0).
  by rewrite (sum_delta (fun r => if j == q then (if i == p then e p q r m * v else 0) else 0)).
rewrite -big_split /=; apply: eq_bigr => r _.
have -> : (if k == r then (if j == q then (if i == p then e p q r m * v else 0) else 0) else 0)
   = \sum_(s < L) (if m == s then (if k == r then (if j == q then (if i == p then e p q r s * v else 0) else 0) else 0) else 0).
  by rewrite (sum_delta (fun s => if k == r then (if j == q then (if i == p then e p q r s * v else 0) else 0) else 0)).
rewrite -big_split /=; apply: eq_bigr => s _; rewrite big_cons /= !xpair_eqE.
by case: (i == p); case: (j == q); case: (k == r); case: (m == s) => /=; rewrite ?addr0 //; mring (GRing.Field.comRingType F).
Qed.

Lemma dot2_0 t : dot2 t (fun _ _ => 0) = 0.
Proof. by rewrite /dot2 big1 // => p _; rewrite big1 // => q _; rewrite mulr0. Qed.
Lemma dot4_0 e : dot4 e (fun _ _ _ _ => 0) = 0.
Proof.
rewrite /dot4 big1 // => p _; rewrite big1 // => q _; rewrite big1 // => r _; rewrite big1 // => s _.
by rewrite mulr0.
Qed.

Lemma dot2_diag t T l v : below L l ->
  dot2 t (scat2 T [seq ((k, k), v) | k <- l]) = dot2 t T + \sum_(k <- l) t k k * v.
Proof.
move=> Hl; rewrite dot2_scat ?big_map //; apply/allP => _ /mapP [k Hk ->] /=.
by rewrite (below_mem Hl Hk).
Qed.

Variables (t : nat -> nat -> F) (eri : nat -> nat -> nat -> nat -> F) (fast : option (seq nat -> seq nat -> F)) (psi : cfg -> F) (x : cfg).
Hypothesis HL : size x = L.

Lemma loop4E l l' idx v T :
  (forall i j, i \in l -> j \in l' -> [&& ((idx i j).1.1 < L)%N, ((idx i j).1.2 < L)%N,
      ((idx i j).2.1 < L)%N & ((idx i j).2.2 < L)%N]) ->
  dot4 eri (loop4 l l' idx v T) = dot4 eri T
    + \sum_(i <- l) \sum_(j <- l') eri (idx i j).1.1 (idx i j).1.2 (idx i j).2.1 (idx i j).2.2 * v.
Proof.
rewrite /loop4; elim: l T => [|i l IH] T H /=; first by rewrite big_nil addr0.
rewrite IH; last by move=> i' j Hi Hj; apply: H; rewrite ?inE ?Hi ?orbT.
rewrite big_cons addrA; congr (_ + _).
have {H}: forall j, j \in l' -> [&& ((idx i j).1.1 < L)%N, ((idx i j).1.2 < L)%N,
      ((idx i j).2.1 < L)%N & ((idx i j).2.2 < L)%N] by move=> j Hj; apply: H; rewrite ?inE ?eqxx.
elim: l' {IH} T => [|j l' IH] T H /=; first by rewrite big_nil addr0.
rewrite IH; last by move=> j' Hj; apply: H; rewrite inE Hj orbT.
rewrite dot4_scat /= ?andbT; last by apply: H; rewrite inE eqxx.
by rewrite big_seq1 big_cons /= addrA.
Qed.

Lemma ix4E l l' f g T :
  (forall i a p q, i \in l -> a \in l' -> (p < L)%N -> (q < L)%N ->
     [&& ((f i a p q).1.1 < L)%N, ((f i a p q).1.2 < L)%N, ((f i a p q).2.1 < L)%N & ((f i a p q).2.2 < L)%N]) ->
  dot4 eri (scat4 T (ix4 x l l' (fun i a p q => (f i a p q, g i a p q))))
  = dot4 eri T + \sum_(i <- l) \sum_(a <- l')
      dot2 (fun p q => eri (f i a p q).1.1 (f i a p q).1.2 (f i a p q).2.1 (f i a p q).2.2) (g i a).
Proof.
move=> H; rewrite dot4_scat; last first.
  apply/allP => e /flattenP [? /mapP [i Hi ->]] /flattenP [? /mapP [a Ha ->]].
  move=> /flattenP [? /mapP [p Hp ->]] /mapP [q Hq ->] /=.
  by apply: H => //; move: Hp Hq; rewrite !mem_iota !add0n HL.
congr (_ + _); rewrite /ix4 big_flat; apply: eq_bigr => i _; rewrite big_flat; apply: eq_bigr => a _.
rewrite big_flat /dot2 HL -{1}(subn0 L) -/(index_iota 0 L) big_mkord; apply: eq_bigr => p _.
by rewrite big_map -{1}(subn0 L) -/(index_iota 0 L) big_mkord.
Qed.

Definition inv (st : F * t2 F * t4 F) := st.1.1 = dot2 t st.1.2 + dot4 eri st.2.

Lemma rdm_one_inv s cum o u o' st : below L o -> below L u -> below L o' -> inv st ->
  inv (rdm_one half t eri fast psi x s cum o u o' st)
  /\ (rdm_one half t eri fast psi x s cum o u o' st).1.1
     = st.1.1 + \sum_(i <- o) \sum_(a <- u) otf_one_term half t eri fast psi x s cum o u o' i a.
Proof.
case: st => -[en T] E Ho Hu Ho' Hi.
have Eq : \sum_(i <- o) \sum_(a <- u) otf_value half t eri o u o' i a * rdm_tc fast psi x s cum i a
  = \sum_(i <- o) \sum_(a <- u) otf_one_term half t eri fast psi x s cum o u o' i a.
  by apply: eq_bigr => i _; apply: eq_bigr => a _; rewrite /otf_one_term /rdm_tc mulrA.
split; last by rewrite /= Eq.
rewrite /inv /= in Hi *; rewrite Hi.
rewrite dot2_scat; last first.
  apply/allP => e /flattenP [? /mapP [i Hi' ->]] /mapP [a Ha ->] /=.
  by rewrite (below_mem Ho) ?(below_mem Hu).
rewrite !ix4E; first last.
- by move=> i a p q /(below_mem Ho) Hi' /(below_mem Hu) Ha Hp Hq /=; rewrite Hi' Ha Hp Hq.
- by move=> i a p q /(below_mem Ho) Hi' /(below_mem Hu) Ha Hp Hq /=; rewrite Hi' Ha Hp Hq.
- by move=> i a p q /(below_mem Ho) Hi' /(below_mem Hu) Ha Hp Hq /=; rewrite Hi' Ha Hp Hq.
rewrite big_flat -!addrA; congr (_ + _); rewrite [RHS]addrCA; congr (_ + _).
rewrite -!big_split /=; apply: eq_bigr => i _; rewrite big_map -!big_split /=; apply: eq_bigr => a _.
rewrite /rdm_c1 /rdm_c2 /rdm_c3 !dot2_diag // !dot2_0 !add0r /otf_value -!mulr_suml.
set A := \sum_(k <- o) _; set B := \sum_(k <- o') _; set C := \sum_(k <- u) _; set D := \sum_(k <- o) eri k a i k.
by mring (GRing.Field.comRingType F).
Qed.

Definition inv2 T (st : F * t4 F) := st.1 = dot2 t T + dot4 eri st.2.

Lemma fold_inv1 (l : seq nat) (f : F * t4 F -> nat -> F * t4 F) T st :
  (forall k st, k \in l -> inv2 T st -> inv2 T (f st k)) ->
  inv2 T st -> inv2 T (foldl f st l).
Proof.
elim: l st => [|k l IH] st H Hst //=; apply: IH; last by apply: H; rewrite ?inE ?eqxx.
by move=> k' st' Hk; apply: H; rewrite inE Hk orbT.
Qed.

Lemma fold_inv (l : seq nat) (f : F * t4 F -> nat -> F * t4 F) (g : F -> nat -> F) T st :
  (forall k st, k \in l -> inv2 T st -> inv2 T (f st k)) -> (forall k st, (f st k).1 = g st.1 k) ->
  inv2 T st -> inv2 T (foldl f st l) /\ (foldl f st l).1 = foldl g st.1 l.
Proof.
move=> H G Hst; split; first exact: fold_inv1.
by elim: l st {H Hst} => //= k l IH st; rewrite IH G.
Qed.

Lemma fold_fst (l : seq nat) (f : F * t4 F -> nat -> F * t4 F) (g : F -> nat -> F) st :
  (forall k st, (f st k).1 = g st.1 k) -> (foldl f st l).1 = foldl g st.1 l.
Proof. by move=> G; elim: l st => //= k l IH st; rewrite IH G. Qed.

Lemma pair_scat T (st : F * t4 F) c i a lo lu (f : nat -> nat -> F) :
  (i < L)%N -> (a < L)%N -> below L lo -> below L lu -> inv2 T st ->
  inv2 T (st.1 + c * (\sum_(j <- lo) \sum_(b <- lu) eri i a j b * f j b),
          scat4 st.2 (flatten [seq [seq (((i, a), (j, b)), c * f j b) | b <- lu] | j <- lo])).
Proof.
move=> Hi Ha Hlo Hlu; rewrite /inv2 /= => ->; rewrite dot4_scat; last first.
  apply/allP => e /flattenP [? /mapP [j Hj ->]] /mapP [b Hb ->] /=.
  by rewrite Hi Ha (below_mem Hlo) // (below_mem Hlu).
rewrite -addrA; congr (_ + (_ + _)); rewrite big_flat mulr_sumr; apply: eq_bigr => j _.
by rewrite big_map mulr_sumr; apply: eq_bigr => b _ /=; rewrite mulrCA.
Qed.

Lemma rdm_two_inv s cum o u T st : below L o -> below L u -> inv2 T st ->
  inv2 T (rdm_two half eri fast psi x s cum o u st)
  /\ (rdm_two half eri fast psi x s cum o u st).1 = otf_two half eri fast psi x s cum o u st.1.
Proof.
move=> Ho Hu Hst; apply: fold_inv => // [i st' Hi Hst'|i st']; last by apply: fold_fst.
apply: fold_inv1 Hst' => a st'' Ha Hst''.
apply: pair_scat => //; rewrite ?below_removed //; first exact: (below_mem Ho).
exact: (below_mem Hu).
Qed.

Lemma rdm_ud_inv n_elecs T st : (0 < L)%N -> inv2 T st ->
  inv2 T (rdm_ud n_elecs eri fast psi x st)
  /\ (rdm_ud n_elecs eri fast psi x st).1 = otf_ud n_elecs eri fast psi x st.1.
Proof.
move=> L0 Hst; have B n m : below L (nonzero_sized n m (size x)) by rewrite HL; apply: below_nonzero.
apply: fold_inv => // [i st' Hi Hst'|i st']; last by apply: fold_fst.
apply: fold_inv1 Hst' => a st'' Ha Hst''.
have := pair_scat 1 (lo := nonzero_sized n_elecs.2 (fun k => has (nth 0%N x k) 2) (size x))
  (lu := nonzero_sized (size x - n_elecs.2) (fun k => ~~ has (nth 0%N x k) 2) (size x))
  (otf_ud_inner fast psi x i a) (below_mem (B _ _) Hi) (below_mem (B _ _) Ha) (B _ _) (B _ _) Hst''.
rewrite mul1r; congr (inv2 T (_, scat4 _ (flatten _))); apply: eq_map => j; apply: eq_map => b.
by rewrite mul1r.
Qed.

Lemma rdm_ok n_elecs : (0 < L)%N ->
  inv (ab_otf_rdm half n_elecs t eri fast psi x)
  /\ (ab_otf_rdm half n_elecs t eri fast psi x).1.1 = ab_otf half n_elecs t eri fast psi x.
Proof.
move=> L0; have B n m : below L (nonzero_sized n m (size x)) by rewrite HL; apply: below_nonzero.
rewrite /ab_otf_rdm /ab_otf.
set ou := nonzero_sized n_elecs.1 _ _; set od := nonzero_sized n_elecs.2 _ _.
set uu := nonzero_sized (_ - n_elecs.1) _ _; set ud := nonzero_sized (_ - n_elecs.2) _ _.
have I0 : inv (otf_diag half n_elecs t eri x, rdm_diag_t F n_elecs x, rdm_diag_eri half n_elecs x).
  rewrite /inv /= /rdm_diag_t !dot2_diag // dot2_0 /rdm_diag_eri.
  rewrite !loop4E ?dot4_0; try by move=> i j Hi Hj /=; rewrite !(below_mem (B _ _) Hi) !(below_mem (B _ _) Hj).
  rewrite /otf_diag -/ou -/od -/uu -/ud /=.
  have S2 (l l' : seq nat) (f : nat -> nat -> F) c : \sum_(i <- l) \sum_(j <- l') f i j * c
    = (\sum_(i <- l) \sum_(j <- l') f i j) * c.
    by rewrite mulr_suml; apply: eq_bigr => i _; rewrite mulr_suml.
  rewrite !S2 -!mulr_suml; mring (GRing.Field.comRingType F).
have [I1 E1] := rdm_one_inv 1 (cumcount 1 x) (B _ _ : below L ou) (B _ _ : below L uu) (B _ _ : below L od) I0.
set st1 := rdm_one _ _ _ _ _ _ 1 _ _ _ _ _ in I1 E1 *.
have [I2 E2] := rdm_one_inv 2 (cumcount 2 x) (B _ _ : below L od) (B _ _ : below L ud) (B _ _ : below L ou) I1.
rewrite E1 in E2; case: (rdm_one _ _ _ _ _ _ 2 _ _ _ _ _) I2 E2 => -[en T] E I2 E2.
have [I3 E3] := @rdm_two_inv 1 (cumcount 1 x) ou uu T (en, E) (B _ _) (B _ _) I2.
have [I4 E4] := @rdm_two_inv 2 (cumcount 2 x) od ud T _ (B _ _) (B _ _) I3.
have [I5 E5] := @rdm_ud_inv n_elecs T _ L0 I4.
by split=> //=; rewrite E5 E4 E3 -E2.
Qed.
End RDM.
