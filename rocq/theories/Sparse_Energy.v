From Verif Require Import Base Fock_Spec Fock_Proofs Occ_Model Occ_Spec Hopping_Model Hopping_Proofs.
From Verif Require Import Buffer_Proofs Hubbard_Model Hubbard_Proofs Mol_Fock Mol_Row.
From Verif Require Import AbInitio_Model AbInitio_Proofs AbInitio_Row AbInitioOtf_Model AbInitioOtf_Proofs AbInitioOtf_Energy.
From Verif Require Import Sparse_Model Sparse_Csr Sparse_Fock Sparse_Proofs Update_Proto Fast_Contract.
Local Open Scope ring_scope.

Lemma big_iota0 (R : zmodType) n (g : nat -> R) : \sum_(k <- iota 0 n) g k = \sum_(k < n) g k.
Proof. by rewrite -{1}[n]subn0 -/(index_iota 0 n) big_mkord. Qed.

Section CsrSum.
Variable F : fieldType.

Lemma eq_fori lo hi (f g : nat -> F) : (forall k, f k = g k) -> fori_sum lo hi f = fori_sum lo hi g.
Proof. by move=> H; rewrite !fori_sumE; apply: eq_bigr => k _. Qed.

Lemma csr1_sum n (h : nat -> nat -> F) i (g : nat -> F -> F) : (i < n)%N -> (forall a, g a 0 = 0) ->
  let: (rng, ids, vals) := h1_csr n h in
  fori_sum (nth 0%N rng i) (nth 0%N rng i.+1) (fun k => g (nth 0%N ids k) (nth 0 vals k))
  = \sum_(a < n) g a (h i a).
Proof.
move=> Hi Hg; have := h1_csrE n h; case: (h1_csr n h) => -[rng ids] vals [_ _ _ _ /(_ i Hi) [E1 E2 E3]].
rewrite (fori_slice 0%N vals g) ?E2 ?E3 E1 ?addKn //.
transitivity (\sum_(a <- row1 n h i) g a (h i a)).
  rewrite [RHS](big_nth 0%N) !big_mkord; apply: eq_bigr => k _.
  by rewrite (nth_map 0%N).
rewrite /row1 big_filter -{1}[n]subn0 -/(index_iota 0 n) big_mkord big_mkcond /=.
by apply: eq_bigr => a _; case: eqP => // ->; rewrite Hg.
Qed.

Lemma csr2_sum n (eri : nat -> nat -> nat -> nat -> F) i j (g : nat -> nat -> F -> F) :
  (i < n)%N -> (j < n)%N -> (forall a b, g a b 0 = 0) ->
  let: (rng, ids, vals) := h2_csr n eri in
  fori_sum (get2 rng i j) (get2 rng i j.+1)
    (fun k => g (nth (0, 0)%N ids k).1 (nth (0, 0)%N ids k).2 (nth 0 vals k))
  = \sum_(a < n) \sum_(b < n) g a b (eri i a j b).
Proof.
move=> Hi Hj Hg; have := h2_csrE n eri; case: (h2_csr n eri) => -[rng ids] vals.
move=> [_ _ _ _ /(_ i j Hi Hj) [E1 E2 E3]].
rewrite (fori_slice (0, 0)%N vals (fun p => g p.1 p.2)) ?E2 ?E3 E1 ?addKn //.
transitivity (\sum_(p <- row2 n eri i j) g p.1 p.2 (eri i p.1 j p.2)).
  rewrite [RHS](big_nth (0, 0)%N) !big_mkord; apply: eq_bigr => k _.
  by rewrite (nth_map (0, 0)%N).
rewrite /row2 /nonzero_pairs big_filter big_mkcond /= big_allpairs_dep.
rewrite big_iota0; apply: eq_bigr => a _.
rewrite big_iota0; apply: eq_bigr => b _ /=.
by case: eqP => // ->; rewrite Hg.
Qed.
End CsrSum.

Lemma big_triu (R : zmodType) (l : seq nat) (f : nat -> nat -> R) : sorted ltn l ->
  \sum_(p <- triu1 (size l)) f (nth 0%N l p.1) (nth 0%N l p.2)
  = \sum_(i <- l) \sum_(j <- l | (i < j)%N) f i j.
Proof.
move=> Hs; rewrite /triu1 big_filter big_mkcond big_allpairs_dep /=.
rewrite [RHS](big_nth 0%N) big_iota0 big_mkord; apply: eq_bigr => i _.
rewrite [RHS]big_mkcond [RHS](big_nth 0%N) big_iota0 big_mkord; apply: eq_bigr => j _ /=.
have M (a b : nat) : (a < size l)%N -> (b < size l)%N -> (a < b)%N -> (nth 0 l a < nth 0 l b)%N.
  by move=> Ha Hb; apply: (sorted_ltn_nth ltn_trans 0%N Hs); rewrite inE.
by case: (ltngtP i j) => [H|H|->]; [rewrite M|rewrite ltnNge ltnW // M|rewrite ltnn].
Qed.

Section Energy.
Variables (F : fieldType) (half : F).
Add Ring RF : (r_theory (GRing.Field.comRingType F)).
Variables (h : nat -> nat -> F) (eri : nat -> nat -> nat -> nat -> F).
Variables (fast : option (seq nat -> seq nat -> F)) (psi : cfg -> F) (x : cfg).
Hypothesis Hf : fast_ok fast psi x.
Hypothesis Hv : valid x.
Hypothesis Hpsi : psi x != 0.
Let L := size x.
Notation O := (oinds x).
Notation cum s := (cumcount (spin_int s) x).
Let f := fock_of x.
Let phi : fock -> F := fun g => psi (cfg_of g).

Lemma sp_1B_ok s i : (i < L)%N -> occ s i f ->
  sp_1B (h1_csr L h) fast psi x (spin_int s) (cum s) i * psi x = \sum_(a < L) h i a * hop s i a phi f.
Proof.
move=> Hi Oi; rewrite /sp_1B.
have := @csr1_sum F L h i (fun a v => v * (if ~~ has (nth 0%N x a) (spin_int s)
     then amp_ratio fast psi x [:: occ_minus x (spin_int s) i; occ_plus x (spin_int s) a] [:: i; a]
          * (parity_multiplicator_hop i a (cum s))%:~R
     else if i == a then 1 else 0)) Hi (fun a => mul0r _).
case: (h1_csr L h) => -[rng ids] vals ->; rewrite mulr_suml; apply: eq_bigr => a _.
rewrite -mulrA; congr (_ * _).
have Ha := ltn_ord a; have HL : on_sites L f := on_sites_fock x.
have Oi' : has (nth 0%N x i) (spin_int s) by rewrite has_has_spin ?valid_nth // -occ_fock.
rewrite (has_has_spin _ (valid_nth _ Hv)) -occ_fock -/f.
case: (altP (i =P a)) => [E|ia].
  by rewrite -E Oi /= (hop_same _ _ HL) // Oi mul1r /phi cfg_ofK.
have := @apply_hopping_correct F s i a x phi Hv Hi Ha.
case Oa: (occ s a f) => /=.
  by move=> _; rewrite (hop_diff _ _ HL) // Oa andbF mul0r.
have Na : ~~ has (nth 0%N x a) (spin_int s) by rewrite has_has_spin ?valid_nth // -occ_fock -/f Oa.
case: (apply_hopping_cases s Hv Hi Ha) => [[]|[]|[]]; rewrite ?Oi ?(negbTE ia) -/f ?Oa //; rewrite ?Oi ?(negbTE ia) //.
- by move=> [|[]] //; rewrite Oi.
- by move=> _ E; rewrite E eqxx in ia.
rewrite apply_hopping_live //; cbv [fst snd] => _ _ _ _ [_ [V2 _]] <-.
rewrite /amp_ratio one_connected ?mem_oinds ?mem_uinds // -?/f ?Oi ?Oa ?andbT // upd_two // /phi cfg_ofK //.
move: (psi (add_at _ _ _)) (intr _) => z c.
by rewrite -[RHS]mulr1 -(divff Hpsi); mring (GRing.Field.comRingType F).
Qed.

Lemma sp_2B_same_ok s i j : (i < L)%N -> (j < L)%N -> (i < j)%N -> occ s i f -> occ s j f ->
  sp_2B_same (h2_csr L eri) fast psi x (spin_int s) (cum s) i j * psi x = G L eri phi f s s i j.
Proof.
move=> Hi Hj ij Oi Oj; rewrite /sp_2B_same /G.
set c := fun k : nat => (nth 0%N (cum s) k)%:Z.
set g := fun a b v => body fast psi x s s [:: i; j] [:: occ_minus x (spin_int s) i; occ_minus x (spin_int s) j] a b
    (c i + c j - 2 + c a + c b - ((j <= a)%N%:Z + (i <= a)%N%:Z + (j <= b)%N%:Z + (i <= b)%N%:Z
                              - (b <= a)%N%:Z + (i < j)%N%:Z)) v.
have g0 a b : g a b 0 = 0.
  rewrite /g /body; case: (update_config _ _ _ _ _ _) => -[? ?] ?; case: (update_config _ _ _ _ _ _) => -[? ?] ?.
  by case: ifP; rewrite ?mul0r.
have := csr2_sum eri Hi Hj g0; case: (h2_csr L eri) => -[rng ids] vals H.
have <- : \sum_(a < L) \sum_(b < L) g a b (eri i a j b) * psi x
   = \sum_(a < L) \sum_(b < L) eri i a j b * quad phi f s s i a j b.
  by apply: eq_bigr => a _; apply: eq_bigr => b _; apply: body_same.
have <- : (\sum_(a < L) \sum_(b < L) g a b (eri i a j b)) * psi x
   = \sum_(a < L) \sum_(b < L) g a b (eri i a j b) * psi x.
  by rewrite mulr_suml; apply: eq_bigr => a _; rewrite mulr_suml.
by rewrite -H; congr (_ * _); apply: eq_fori => k; case: (nth (0, 0)%N ids k).
Qed.

Lemma sp_2B_ud_ok i j : (i < L)%N -> (j < L)%N -> occ Up i f -> occ Dn j f ->
  sp_2B_ud (h2_csr L eri) fast psi x i j * psi x = G L eri phi f Up Dn i j.
Proof.
move=> Hi Hj Oi Oj; rewrite /sp_2B_ud /G.
set cu := fun k : nat => (nth 0%N (cumcount 1 x) k)%:Z.
set cd := fun k : nat => (nth 0%N (cumcount 2 x) k)%:Z.
set r := update_config x j [:: i] [:: occ_minus x 1 i] 2 false.
set g := fun a b v => body fast psi x Up Dn r.2 r.1.1 a b (cu i + cd j - 2 + cu a + cd b - ((i <= a)%N%:Z + (j <= b)%N%:Z)) v.
have g0 a b : g a b 0 = 0.
  rewrite /g /body; case: (update_config _ _ _ _ _ _) => -[? ?] ?; case: (update_config _ _ _ _ _ _) => -[? ?] ?.
  by case: ifP; rewrite ?mul0r.
have := csr2_sum eri Hi Hj g0; case: (h2_csr L eri) => -[rng ids] vals H.
have <- : \sum_(a < L) \sum_(b < L) g a b (eri i a j b) * psi x
   = \sum_(a < L) \sum_(b < L) eri i a j b * quad phi f Up Dn i a j b.
  by apply: eq_bigr => a _; apply: eq_bigr => b _; apply: body_ud.
have <- : (\sum_(a < L) \sum_(b < L) g a b (eri i a j b)) * psi x
   = \sum_(a < L) \sum_(b < L) g a b (eri i a j b) * psi x.
  by rewrite mulr_suml; apply: eq_bigr => a _; rewrite mulr_suml.
rewrite -H {H g0}; congr (_ * _); rewrite {}/g {}/r.
by apply: eq_fori => k; case: (nth (0, 0)%N ids k).
Qed.

Hypothesis half2 : half + half = 1.
Hypothesis eri_symm : forall p q r t, (p < L)%N -> (q < L)%N -> (r < L)%N -> (t < L)%N ->
  eri p q r t = eri r t p q.

Lemma sorted_oinds s : sorted ltn (O s).
Proof. by apply: sorted_filter; [exact: ltn_trans|exact: iota_ltn_sorted]. Qed.

Lemma sp_otfE : sp_otf (n_spin Up x, n_spin Dn x) (h1_csr L h) (h2_csr L eri) fast psi x * psi x
  = molecular L half h eri phi f.
Proof.
rewrite /sp_otf; cbv [fst snd]; rewrite (nz_occ Hv Up) (nz_occ Hv Dn).
have OB s : (\sum_(i <- O s) sp_1B (h1_csr L h) fast psi x (spin_int s) (cum s) i) * psi x
  = \sum_(p < L) \sum_(q < L) h p q * hop s p q phi f.
  rewrite (sum_oinds Hv) mulr_suml big_mkcond; apply: eq_bigr => i _.
  case: ifP => [Oi|Oi]; first by rewrite sp_1B_ok.
  by rewrite big1 // => q _; rewrite /hop /creat Oi mulr0.
have TB s : (\sum_(p <- triu1 (size (O s))) sp_2B_same (h2_csr L eri) fast psi x (spin_int s) (cum s)
      (nth 0%N (O s) p.1) (nth 0%N (O s) p.2)) * psi x
  = \sum_(i < L | occ s i f) \sum_(j < L | occ s j f && (i < j)%N) G L eri phi f s s i j.
  rewrite (big_triu (sp_2B_same (h2_csr L eri) fast psi x (spin_int s) (cum s)) (sorted_oinds s)).
  rewrite (sum_oinds Hv) mulr_suml; apply: eq_bigr => i Oi.
  rewrite big_mkcond (sum_oinds Hv) mulr_suml [RHS]big_mkcondr /=; apply: eq_bigr => j Oj.
  by case: ifP => [ij|]; rewrite ?mul0r // sp_2B_same_ok.
have UD : (\sum_(p <- allpairs pair (iota 0 (size (O Up))) (iota 0 (size (O Dn))))
         sp_2B_ud (h2_csr L eri) fast psi x (nth 0%N (O Up) p.1) (nth 0%N (O Dn) p.2)) * psi x
  = \sum_(i < L | occ Up i f) \sum_(j < L | occ Dn j f) G L eri phi f Up Dn i j.
  rewrite big_allpairs_dep /=.
  transitivity ((\sum_(i <- O Up) \sum_(j <- O Dn) sp_2B_ud (h2_csr L eri) fast psi x i j) * psi x).
    congr (_ * _); rewrite [RHS](big_nth 0%N) big_iota0 big_mkord; apply: eq_bigr => i _.
    by rewrite [RHS](big_nth 0%N) big_iota0 big_mkord.
  rewrite (sum_oinds Hv) mulr_suml; apply: eq_bigr => i Oi.
  by rewrite (sum_oinds Hv) mulr_suml; apply: eq_bigr => j Oj; rewrite sp_2B_ud_ok.
rewrite (molecular_pairs h half2 eri_symm phi (on_sites_fock x)) -/f !big_cons !big_nil !addr0.
rewrite !mulrDl (OB Up) (OB Dn) (TB Up) (TB Dn) UD.
by rewrite !addrA.
Qed.
End Energy.
