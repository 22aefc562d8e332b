(* The molecular Hamiltonian as a sum over occupied pairs. *)
From Verif Require Import Base Fock_Spec Fock_Proofs Occ_Spec Hopping_Proofs Hubbard_Proofs Mol_Fock.
Local Open Scope ring_scope.

Section Pairs.
Variables (R : comRingType) (L : nat) (half : R) (h : nat -> nat -> R) (eri : nat -> nat -> nat -> nat -> R).
Hypothesis half2 : half + half = 1.
Hypothesis eri_symm : forall p q r t, (p < L)%N -> (q < L)%N -> (r < L)%N -> (t < L)%N ->
  eri p q r t = eri r t p q.
Variables (psi : fock -> R) (x : fock).
Hypothesis Hx : on_sites L x.
Add Ring RR : (r_theory R).

Definition quad s s' i a j b : R := creat s i (creat s' j (annih s' b (annih s a psi))) x.

Lemma quad_swap s s' i a j b : (i < L)%N -> (a < L)%N -> (j < L)%N -> (b < L)%N ->
  quad s s' i a j b = quad s' s j b i a.
Proof.
move=> Hi Ha Hj Hb; rewrite /quad.
have E (phi : fock -> R) : creat s i (creat s' j phi) x = - creat s' j (creat s i phi) x.
  by apply/eqP; rewrite -addr_eq0; apply/eqP; apply: (car_creat (L := L)).
rewrite E; have H2 : eqL L (creat s i (annih s' b (annih s a psi)))
    (fun y => - creat s i (annih s a (annih s' b psi)) y).
  move=> y Hy; rewrite -creatN; apply: (creat_ext (L := L)) => // z Hz.
  by apply/eqP; rewrite -addr_eq0; apply/eqP; apply: (car_annih (L := L)).
by rewrite (creat_ext _ Hj H2) // creatN opprK.
Qed.

Definition G s s' i j : R := \sum_(a < L) \sum_(b < L) eri i a j b * quad s s' i a j b.

Lemma G_swap s s' i j : (i < L)%N -> (j < L)%N -> G s s' i j = G s' s j i.
Proof.
move=> Hi Hj; rewrite /G exchange_big; apply: eq_bigr => a _; apply: eq_bigr => b _ /=.
by rewrite eri_symm // quad_swap.
Qed.
Lemma G_self s i : G s s i i = 0.
Proof.
rewrite /G big1 // => a _; rewrite big1 // => b _; rewrite /quad /creat.
by case: (occ s i x); rewrite ?mulr0 // occ_setocc !eqxx /= !mulr0.
Qed.
Lemma G_occ s s' i j : ~~ (occ s i x && occ s' j x) -> G s s' i j = 0.
Proof.
move=> H; rewrite /G big1 // => a _; rewrite big1 // => b _; rewrite /quad /creat.
case: (boolP (occ s i x)) H => [Oi /= Hj|_ _]; rewrite ?mulr0 // occ_setocc.
by case: (_ && _); rewrite ?(negbTE Hj) ?mulr0.
Qed.

Lemma sum_sym (f : nat -> nat -> R) : (forall i, (i < L)%N -> f i i = 0) ->
  (forall i j, (i < L)%N -> (j < L)%N -> f i j = f j i) ->
  half * (\sum_(i < L) \sum_(j < L) f i j) = \sum_(i < L) \sum_(j < L | (i < j)%N) f i j.
Proof.
move=> H0 Hs.
have E : \sum_(i < L) \sum_(j < L) f i j
  = (\sum_(i < L) \sum_(j < L | (i < j)%N) f i j) + \sum_(i < L) \sum_(j < L | (i < j)%N) f i j.
  transitivity (\sum_(i < L) ((\sum_(j < L | (i < j)%N) f i j) + \sum_(j < L | (j < i)%N) f i j)).
    apply: eq_bigr => i _; rewrite (bigID (fun j : 'I_L => (i < j)%N)) /=; congr (_ + _).
    rewrite (bigID (fun j : 'I_L => (j < i)%N)) /= [X in _ + X]big1 ?addr0; last first.
      move=> j; rewrite -!leqNgt => /andP [H1 H2].
      have -> : (j : nat) = i by apply/eqP; rewrite eqn_leq H1 H2.
      by apply: H0; apply: ltn_ord.
    by apply: eq_bigl => j; lia.
  rewrite big_split /=; congr (_ + _); rewrite (exchange_big_dep predT) //=.
  by apply: eq_bigr => i _; apply: eq_bigr => j _; rewrite Hs.
by rewrite E mulrDr -mulrDl half2 mul1r.
Qed.

Lemma molecular_pairs :
  molecular L half h eri psi x
  = \sum_(s <- [:: Up; Dn]) \sum_(p < L) \sum_(q < L) h p q * hop s p q psi x
    + \sum_(s <- [:: Up; Dn]) \sum_(i < L | occ s i x) \sum_(j < L | occ s j x && (i < j)%N) G s s i j
    + \sum_(i < L | occ Up i x) \sum_(j < L | occ Dn j x) G Up Dn i j.
Proof.
rewrite /molecular -addrA; congr (_ + _); rewrite !big_cons !big_nil !addr0.
have GE s s' : \sum_(p < L) \sum_(q < L) \sum_(r < L) \sum_(t < L)
        eri p q r t * creat s p (creat s' r (annih s' t (annih s q psi))) x
   = \sum_(i < L) \sum_(j < L) G s s' i j.
  by apply: eq_bigr => p _; rewrite exchange_big.
rewrite !GE.
have GD : \sum_(i < L) \sum_(j < L) G Dn Up i j = \sum_(i < L) \sum_(j < L) G Up Dn i j.
  by rewrite exchange_big; apply: eq_bigr => i _; apply: eq_bigr => j _; rewrite G_swap.
have Gs s : half * (\sum_(i < L) \sum_(j < L) G s s i j)
  = \sum_(i < L | occ s i x) \sum_(j < L | occ s j x && (i < j)%N) G s s i j.
  rewrite (sum_sym (f := G s s)) //; [|by move=> i _; apply: G_self|by move=> i j; apply: G_swap].
  rewrite [RHS]big_mkcond /=; apply: eq_bigr => i _; case: (boolP (occ s i x)) => Oi.
    rewrite big_andbC big_mkcondr /=; apply: eq_bigr => j _.
    by case: (boolP (occ s j x)) => // Oj; rewrite G_occ // Oi.
  by rewrite big1 // => j _; rewrite G_occ // (negbTE Oi).
have Gu : \sum_(i < L) \sum_(j < L) G Up Dn i j = \sum_(i < L | occ Up i x) \sum_(j < L | occ Dn j x) G Up Dn i j.
  rewrite [RHS]big_mkcond /=; apply: eq_bigr => i _; case: (boolP (occ Up i x)) => Oi.
    rewrite [RHS]big_mkcond /=; apply: eq_bigr => j _.
    by case: (boolP (occ Dn j x)) => // Oj; rewrite G_occ // Oi.
  by rewrite big1 // => j _; rewrite G_occ // (negbTE Oi).
rewrite GD -Gu -!Gs; set u := \sum_(i < L) _; set a := \sum_(i < L) _; set b := \sum_(i < L) _.
transitivity (half * u + half * b + (half + half) * a); first by mring R.
by rewrite half2 mul1r.
Qed.
End Pairs.

(* explicit value of the two-body operator on a basis state *)
Lemma quadE (R : comRingType) (psi : fock -> R) x s s' i a j b :
  let f1 := setocc s i false x in let f2 := setocc s' j false f1 in
  let f3 := setocc s' b true f2 in let f4 := setocc s a true f3 in
  quad psi x s s' i a j b
  = if [&& occ s i x, occ s' j f1, ~~ occ s' b f2 & ~~ occ s a f3]
    then sgn R (before s i x + before s' j f1 + before s' b f2 + before s a f3) * psi f4 else 0.
Proof.
rewrite /quad /creat /annih /=; case: (occ s i x) => //=; case: (occ s' j _); rewrite ?mulr0 //=.
case: (occ s' b _); rewrite ?mulr0 //=; case: (occ s a _); rewrite ?mulr0 //=.
by rewrite !sgnD !mulrA.
Qed.
