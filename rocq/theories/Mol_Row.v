(* Row expansion of the molecular Hamiltonian (the form evaluated by ab_initio.py). *)
From Verif Require Import Base Fock_Spec Fock_Proofs Occ_Spec Hopping_Proofs Hubbard_Proofs Mol_Fock.
Local Open Scope ring_scope.

Definition other (s : spin) := if s is Up then Dn else Up.

Section Row.
Variables (R : comRingType) (L : nat) (half : R) (h : nat -> nat -> R) (eri : nat -> nat -> nat -> nat -> R).
Hypothesis half2 : half + half = 1.
Variables (psi : fock -> R) (x : fock).
Hypothesis Hx : on_sites L x.
Add Ring RR : (r_theory R).
Local Notation "'O' s" := (fun i => occ s i x) (at level 10, s at level 9).

Definition tmat p q : R := h p q - half * \sum_(r < L) eri p r r q.

(* sum of products of excitation operators, one pair of spins *)
Definition TT s s' : R := \sum_(p < L) \sum_(q < L) \sum_(r < L) \sum_(t < L)
   eri p q r t * hop s p q (hop s' r t psi) x.

Lemma molecular_EE :
  molecular L half h eri psi x
  = \sum_(s <- [:: Up; Dn]) \sum_(p < L) \sum_(q < L) tmat p q * hop s p q psi x
    + half * \sum_(s <- [:: Up; Dn]) \sum_(s' <- [:: Up; Dn]) TT s s'.
Proof.
rewrite /molecular.
have Hs s s' : \sum_(p < L) \sum_(q < L) \sum_(r < L) \sum_(t < L)
        eri p q r t * creat s p (creat s' r (annih s' t (annih s q psi))) x
   = TT s s' - (if s == s' then \sum_(p < L) \sum_(q < L) (\sum_(r < L) eri p r r q) * hop s p q psi x else 0).
  rewrite /TT.
  have -> : (if s == s' then \sum_(p < L) \sum_(q < L) (\sum_(r < L) eri p r r q) * hop s p q psi x else 0)
    = \sum_(p < L) \sum_(q < L) \sum_(r < L) \sum_(t < L) eri p q r t * (if (s == s') && (q == r :> nat) then hop s p t psi x else 0).
    case: (s == s') => /=; last first.
      by rewrite big1 // => p _; rewrite big1 // => q _; rewrite big1 // => r _; rewrite big1 // => t _; rewrite mulr0.
    apply: eq_bigr => p _.
    transitivity (\sum_(q < L) \sum_(t < L) eri p q q t * hop s p t psi x).
      rewrite exchange_big /=; apply: eq_bigr => q _; rewrite mulr_suml; exact: eq_bigr.
    apply: eq_bigr => q _; rewrite [in RHS](bigD1 q) //= [X in _ + X]big1 ?addr0.
      by apply: eq_bigr => t _; rewrite eqxx.
    move=> r Hr; rewrite big1 // => t _; rewrite (_ : (q == r :> nat) = false) ?mulr0 //.
    by apply/eqP => /val_inj E; rewrite E eqxx in Hr.
  rewrite -sumrB; apply: eq_bigr => p _; rewrite -sumrB; apply: eq_bigr => q _.
  rewrite -sumrB; apply: eq_bigr => r _; rewrite -sumrB; apply: eq_bigr => t _.
  by rewrite (normal_order _ _ _ Hx) // mulrBr.
have -> : \sum_(s <- [:: Up; Dn]) \sum_(s' <- [:: Up; Dn])
      \sum_(p < L) \sum_(q < L) \sum_(r < L) \sum_(t < L)
        eri p q r t * creat s p (creat s' r (annih s' t (annih s q psi))) x
  = \sum_(s <- [:: Up; Dn]) \sum_(s' <- [:: Up; Dn]) TT s s'
    - \sum_(s <- [:: Up; Dn]) \sum_(p < L) \sum_(q < L) (\sum_(r < L) eri p r r q) * hop s p q psi x.
  rewrite -sumrB; apply: eq_bigr => s _.
  under eq_bigr do rewrite Hs.
  rewrite sumrB; congr (_ - _).
  by case: s; rewrite !big_cons big_nil /= ?add0r addr0.
rewrite mulrBr addrA addrAC; congr (_ + _).
rewrite mulr_sumr -sumrB; apply: eq_bigr => s _.
rewrite mulr_sumr -sumrB; apply: eq_bigr => p _; rewrite mulr_sumr -sumrB; apply: eq_bigr => q _.
by rewrite /tmat mulrBl mulrA.
Qed.

Lemma row1 s (c : nat -> nat -> R) (y : fock) : on_sites L y ->
  \sum_(p < L) \sum_(q < L) c p q * hop s p q psi y
  = (\sum_(p < L | occ s p y) c p p) * psi y
    + \sum_(p < L | occ s p y) \sum_(q < L | ~~ occ s q y) c p q * hop s p q psi y.
Proof.
move=> Hy.
have -> : \sum_(p < L) \sum_(q < L) c p q * hop s p q psi y
   = \sum_(p < L) \sum_(q < L) hop s p q (fun z => c p q * psi z) y.
  by apply: eq_bigr => p _; apply: eq_bigr => q _; rewrite hopZ.
rewrite (row_hop s (fun p q z => c p q * psi z)) // mulr_suml; congr (_ + _).
by apply: eq_bigr => p _; apply: eq_bigr => q _; rewrite hopZ.
Qed.

Lemma TT_row s s' :
  TT s s' = (\sum_(p < L | occ s p x) \sum_(r < L | occ s' r x) eri p p r r) * psi x
   + \sum_(r < L | occ s' r x) \sum_(t < L | ~~ occ s' t x) (\sum_(p < L | occ s p x) eri p p r t) * hop s' r t psi x
   + \sum_(p < L | occ s p x) \sum_(q < L | ~~ occ s q x)
      (let x1 := setocc s q true (setocc s p false x) in
       (\sum_(r < L | occ s' r x1) eri p q r r) * hop s p q psi x
       + \sum_(r < L | occ s' r x1) \sum_(t < L | ~~ occ s' t x1) eri p q r t * hop s p q (hop s' r t psi) x).
Proof.
rewrite /TT.
have -> : \sum_(p < L) \sum_(q < L) \sum_(r < L) \sum_(t < L) eri p q r t * hop s p q (hop s' r t psi) x
  = \sum_(p < L) \sum_(q < L) hop s p q (fun y => \sum_(r < L) \sum_(t < L) eri p q r t * hop s' r t psi y) x.
  apply: eq_bigr => p _; apply: eq_bigr => q _.
  have E1 : eqL L (fun y => \sum_(r < L) \sum_(t < L) eri p q r t * hop s' r t psi y)
     (fun y => \sum_(r < L) 1 * (fun y => \sum_(t < L) eri p q r t * hop s' r t psi y) y).
    by move=> y _; apply: eq_bigr => r _; rewrite mul1r.
  rewrite (hop_ext s _ _ E1) // hop_lin; apply: eq_bigr => r _; rewrite mul1r.
  by rewrite hop_lin.
rewrite (row_hop s (fun p q y => \sum_(r < L) \sum_(t < L) eri p q r t * hop s' r t psi y)) //; congr (_ + _).
  under eq_bigr do rewrite row1 //.
  rewrite big_split /= -mulr_suml; congr (_ + _).
  rewrite exchange_big /=; apply: eq_bigr => r _.
  by rewrite exchange_big /=; apply: eq_bigr => t _; rewrite mulr_suml.
apply: eq_bigr => p Op; apply: eq_bigr => q Oq.
by rewrite (row_hop2 _ _ _ Hx) // mulr_suml.
Qed.

(* occupied set after a same-spin hop *)
Lemma sum_after s p q (F : nat -> R) : (p < L)%N -> (q < L)%N -> occ s p x -> ~~ occ s q x ->
  \sum_(r < L | occ s r (setocc s q true (setocc s p false x))) F r
  = F q + \sum_(r < L | occ s r x && (r != p :> nat)) F r.
Proof.
move=> Hp Hq Op Oq; rewrite (bigD1 (Ordinal Hq)) /=; last by rewrite occ_setocc !eqxx.
congr (_ + _); apply: eq_bigl => r.
rewrite !occ_setocc eqxx /= -val_eqE /=.
case: eqP => [E|_]; last by rewrite andbT; case: eqP; rewrite /= ?andbF ?andbT.
by rewrite E (negbTE Oq) !andbF.
Qed.
Lemma sum_after_un s p q (F : nat -> R) : (p < L)%N -> (q < L)%N -> occ s p x -> ~~ occ s q x ->
  \sum_(r < L | ~~ occ s r (setocc s q true (setocc s p false x))) F r
  = F p + \sum_(r < L | ~~ occ s r x && (r != q :> nat)) F r.
Proof.
move=> Hp Hq Op Oq; have Hpq : p != q by apply/eqP => E; rewrite E (negbTE Oq) in Op.
rewrite (bigD1 (Ordinal Hp)) /=; last by rewrite !occ_setocc !eqxx /= (negbTE Hpq).
congr (_ + _); apply: eq_bigl => r.
rewrite !occ_setocc eqxx /= -val_eqE /=.
case: (altP (r =P p :> nat)) => [E|_]; first by rewrite E Op /= andbF.
by rewrite andbT; case: eqP; rewrite /= ?andbF ?andbT.
Qed.
Lemma sum_del s p (F : nat -> R) : (p < L)%N -> occ s p x ->
  \sum_(r < L | occ s r x && (r != p :> nat)) F r = \sum_(r < L | occ s r x) F r - F p.
Proof. by move=> Hp Op; rewrite [in RHS](bigD1 (Ordinal Hp)) //= addrAC subrr add0r. Qed.
Lemma sum_del_un s p (F : nat -> R) : (p < L)%N -> ~~ occ s p x ->
  \sum_(r < L | ~~ occ s r x && (r != p :> nat)) F r = \sum_(r < L | ~~ occ s r x) F r - F p.
Proof. by move=> Hp Op; rewrite [in RHS](bigD1 (Ordinal Hp)) //= addrAC subrr add0r. Qed.

Lemma TT_same s :
  TT s s = (\sum_(i < L | occ s i x) \sum_(j < L | occ s j x) eri i i j j
            + \sum_(i < L | occ s i x) \sum_(a < L | ~~ occ s a x) eri i a a i) * psi x
   + \sum_(i < L | occ s i x) \sum_(a < L | ~~ occ s a x)
      (\sum_(k < L | occ s k x) eri k k i a + \sum_(k < L | occ s k x) eri i a k k
       + \sum_(k < L | ~~ occ s k x) eri i k k a - \sum_(k < L | occ s k x) eri k a i k) * hop s i a psi x
   + \sum_(i < L | occ s i x) \sum_(a < L | ~~ occ s a x)
     \sum_(j < L | occ s j x && (j != i :> nat)) \sum_(b < L | ~~ occ s b x && (b != a :> nat))
       eri i a j b * hop s i a (hop s j b psi) x.
Proof.
rewrite TT_row mulrDl -!addrA; congr (_ + _).
(* per pair *)
have step (p q : 'I_L) : occ s p x -> ~~ occ s q x ->
  (let x1 := setocc s q true (setocc s p false x) in
       (\sum_(r < L | occ s r x1) eri p q r r) * hop s p q psi x
       + \sum_(r < L | occ s r x1) \sum_(t < L | ~~ occ s t x1) eri p q r t * hop s p q (hop s r t psi) x)
  = eri p q q p * psi x
    + (eri p q q q + \sum_(r < L | occ s r x) eri p q r r - eri p q p p) * hop s p q psi x
    + \sum_(t < L | ~~ occ s t x && (t != q :> nat)) eri p q q t * hop s p t psi x
    - \sum_(r < L | occ s r x && (r != p :> nat)) eri p q r p * hop s r q psi x
    + \sum_(j < L | occ s j x && (j != p :> nat)) \sum_(b < L | ~~ occ s b x && (b != q :> nat))
       eri p q j b * hop s p q (hop s j b psi) x.
  move=> Op Oq /=; have Hpq : (p : nat) != q by apply/eqP => E; rewrite E (negbTE Oq) in Op.
  rewrite (sum_after (fun r => eri p q r r)) // (sum_del (fun r => eri p q r r)) //.
  rewrite (sum_after (fun r => \sum_(t < L | _) eri p q r t * hop s p q (hop s r t psi) x)) //.
  rewrite (sum_after_un (fun t => eri p q q t * hop s p q (hop s q t psi) x)) //.
  have -> : \sum_(r < L | occ s r x && (r != p :> nat))
      \sum_(t < L | ~~ occ s t (setocc s q true (setocc s p false x))) eri p q r t * hop s p q (hop s r t psi) x
    = \sum_(r < L | occ s r x && (r != p :> nat)) eri p q r p * hop s p q (hop s r p psi) x
     + \sum_(r < L | occ s r x && (r != p :> nat)) \sum_(t < L | ~~ occ s t x && (t != q :> nat))
         eri p q r t * hop s p q (hop s r t psi) x.
    rewrite -big_split /=; apply: eq_bigr => r _.
    by rewrite (sum_after_un (fun t => eri p q r t * hop s p q (hop s r t psi) x)).
  rewrite (hop_back _ Hx) //.
  have -> : \sum_(r < L | ~~ occ s r x && (r != q :> nat)) eri p q q r * hop s p q (hop s q r psi) x
    = \sum_(t < L | ~~ occ s t x && (t != q :> nat)) eri p q q t * hop s p t psi x.
    by apply: eq_bigr => t _; rewrite (hop_chain _ Hx).
  have -> : \sum_(r < L | occ s r x && (r != p :> nat)) eri p q r p * hop s p q (hop s r p psi) x
    = - \sum_(r < L | occ s r x && (r != p :> nat)) eri p q r p * hop s r q psi x.
    rewrite -sumrN; apply: eq_bigr => r /andP [Or Hr].
    rewrite (hop_exch _ Hx) ?mulrN // 1?eq_sym //.
    by apply/eqP => E; rewrite -E Or in Oq.
  by mring R.
under [X in _ + X = _]eq_bigr => p Op do (under eq_bigr => q Oq do rewrite step //).
(* distribute *)
have D5 (A B C D E : 'I_L -> 'I_L -> R) : 
  \sum_(p < L | occ s p x) \sum_(q < L | ~~ occ s q x) (A p q + B p q + C p q - D p q + E p q)
  = \sum_(p < L | occ s p x) \sum_(q < L | ~~ occ s q x) A p q
  + \sum_(p < L | occ s p x) \sum_(q < L | ~~ occ s q x) B p q
  + \sum_(p < L | occ s p x) \sum_(q < L | ~~ occ s q x) C p q
  - \sum_(p < L | occ s p x) \sum_(q < L | ~~ occ s q x) D p q
  + \sum_(p < L | occ s p x) \sum_(q < L | ~~ occ s q x) E p q.
  rewrite -!big_split -sumrB -big_split /=; apply: eq_bigr => p _.
  by rewrite -!big_split -sumrB -big_split /=.
rewrite D5.
have -> : \sum_(p < L | occ s p x) \sum_(q < L | ~~ occ s q x) eri p q q p * psi x
   = (\sum_(p < L | occ s p x) \sum_(q < L | ~~ occ s q x) eri p q q p) * psi x.
  by rewrite mulr_suml; apply: eq_bigr => p _; rewrite mulr_suml.
(* chain terms *)
have -> : \sum_(p < L | occ s p x) \sum_(q < L | ~~ occ s q x)
     \sum_(t < L | ~~ occ s t x && (t != q :> nat)) eri p q q t * hop s p t psi x
  = \sum_(i < L | occ s i x) \sum_(a < L | ~~ occ s a x)
     (\sum_(k < L | ~~ occ s k x) eri i k k a - eri i a a a) * hop s i a psi x.
  apply: eq_bigr => p Op.
  rewrite (exchange_big_dep (fun t : 'I_L => ~~ occ s t x)) /=; last by move=> q t _ /andP [].
  apply: eq_bigr => t Ot; rewrite -(sum_del_un (fun k => eri p k k t)) // mulr_suml.
  by apply: eq_bigl => q; rewrite Ot /= [_ == q :> nat]eq_sym.
have -> : \sum_(p < L | occ s p x) \sum_(q < L | ~~ occ s q x)
     \sum_(r < L | occ s r x && (r != p :> nat)) eri p q r p * hop s r q psi x
  = \sum_(i < L | occ s i x) \sum_(a < L | ~~ occ s a x)
     (\sum_(k < L | occ s k x) eri k a i k - eri i a i i) * hop s i a psi x.
  rewrite exchange_big /= [RHS]exchange_big /=; apply: eq_bigr => q Oq.
  rewrite (exchange_big_dep (fun r : 'I_L => occ s r x)) /=; last by move=> p r _ /andP [].
  apply: eq_bigr => r Or; rewrite -(sum_del (fun k => eri k q r k)) // mulr_suml.
  by apply: eq_bigl => p; rewrite Or /= [_ == p :> nat]eq_sym.
set A := \sum_(p < L | _) \sum_(q < L | _) eri p q q p.
set E5 := \sum_(p < L | _) \sum_(q < L | _) \sum_(j < L | _) _.
rewrite [X in _ + X]addrC -!addrA [RHS]addrCA; rewrite [LHS]addrC.
set S1 := \sum_(r < L | _) _; set S2 := \sum_(p < L | _) _; set S3 := \sum_(i < L | _) _;
set S4 := \sum_(i < L | _) _; set S5 := \sum_(i < L | _) _.
have -> : S5 = S4 + S1 + S2 - S3.
  rewrite /S5 /S1 /S2 /S3 /S4 -!big_split -sumrB /=; apply: eq_bigr => i _.
  rewrite -!big_split -sumrB /=; apply: eq_bigr => a _.
  rewrite -!mulrDl -mulrBl; congr (_ * _); mring R.
by mring R.
Qed.

Lemma TT_diff s s' : s != s' ->
  TT s s' = (\sum_(i < L | occ s i x) \sum_(j < L | occ s' j x) eri i i j j) * psi x
   + \sum_(i < L | occ s' i x) \sum_(a < L | ~~ occ s' a x) (\sum_(k < L | occ s k x) eri k k i a) * hop s' i a psi x
   + \sum_(i < L | occ s i x) \sum_(a < L | ~~ occ s a x) (\sum_(k < L | occ s' k x) eri i a k k) * hop s i a psi x
   + \sum_(i < L | occ s i x) \sum_(a < L | ~~ occ s a x) \sum_(j < L | occ s' j x) \sum_(b < L | ~~ occ s' b x)
       eri i a j b * hop s i a (hop s' j b psi) x.
Proof.
move=> Hss; rewrite TT_row -!addrA; congr (_ + (_ + _)).
rewrite -big_split /=; apply: eq_bigr => p _; rewrite -big_split /=; apply: eq_bigr => q _.
have E r : occ s' r (setocc s q true (setocc s p false x)) = occ s' r x.
  by rewrite !occ_setocc [s' == s]eq_sym (negbTE Hss).
congr (_ * _ + _); first by apply: eq_bigl => r; rewrite E.
by apply: eq_big => [r|r _]; rewrite ?E //; apply: eq_bigl => t; rewrite E.
Qed.

Lemma hop_comm s s' p q r t (phi : fock -> R) y : on_sites L y -> s != s' ->
  (p < L)%N -> (q < L)%N -> (r < L)%N -> (t < L)%N ->
  hop s p q (hop s' r t phi) y = hop s' r t (hop s p q phi) y.
Proof.
move=> Hy Hss Hp Hq Hr Ht.
have Hss' : s' != s by rewrite eq_sym.
have N1 := normal_order s s' phi Hy Hp Hq Hr Ht; rewrite (negbTE Hss) /= subr0 in N1.
have N2 := normal_order s' s phi Hy Hr Ht Hp Hq; rewrite (negbTE Hss') /= subr0 in N2.
rewrite -N1 -N2.
have := car_creat s s' Hp Hr (annih s' t (annih s q phi)) Hy.
move/eqP; rewrite addr_eq0 => /eqP ->; rewrite -creatN.
apply: (creat_ext (L := L)) => // z Hz; rewrite -creatN; apply: (creat_ext (L := L)) => // {Hz}z Hz.
have := car_annih s' s Ht Hq phi Hz.
by move/eqP; rewrite addr_eq0 => /eqP ->; rewrite opprK.
Qed.

Hypothesis eri_symm : forall p q r t, (p < L)%N -> (q < L)%N -> (r < L)%N -> (t < L)%N ->
  eri p q r t = eri r t p q.

Lemma TT_swap : TT Dn Up = TT Up Dn.
Proof.
rewrite /TT.
have -> : \sum_(p < L) \sum_(q < L) \sum_(r < L) \sum_(t < L) eri p q r t * hop Dn p q (hop Up r t psi) x
  = \sum_(p < L) \sum_(q < L) \sum_(r < L) \sum_(t < L) eri r t p q * hop Up r t (hop Dn p q psi) x.
  apply: eq_bigr => p _; apply: eq_bigr => q _; apply: eq_bigr => r _; apply: eq_bigr => t _.
  by rewrite eri_symm // (hop_comm _ Hx).
pose F (p q r t : 'I_L) := eri r t p q * hop Up r t (hop Dn p q psi) x.
transitivity (\sum_(p < L) \sum_(r < L) \sum_(q < L) \sum_(t < L) F p q r t).
  by apply: eq_bigr => p _; rewrite exchange_big.
rewrite exchange_big /=; apply: eq_bigr => r _.
transitivity (\sum_(p < L) \sum_(t < L) \sum_(q < L) F p q r t).
  by apply: eq_bigr => p _; rewrite exchange_big.
by rewrite exchange_big.
Qed.

(* the diagonal element, the one-body coefficients *)
Definition m_diag : R :=
  \sum_(s <- [:: Up; Dn]) \sum_(i < L | occ s i x) tmat i i
  + \sum_(i < L | occ Up i x) \sum_(j < L | occ Dn j x) eri i i j j
  + half * (\sum_(s <- [:: Up; Dn]) (\sum_(i < L | occ s i x) \sum_(j < L | occ s j x) eri i i j j
     + \sum_(i < L | occ s i x) \sum_(a < L | ~~ occ s a x) eri i a a i)).

Definition m_one s i a : R :=
  tmat i a + \sum_(k < L | occ s k x) eri i a k k + \sum_(k < L | occ (other s) k x) eri i a k k
  + half * (\sum_(k < L | ~~ occ s k x) eri i k k a) - half * (\sum_(k < L | occ s k x) eri k a i k).

Lemma molecular_row :
  molecular L half h eri psi x
  = m_diag * psi x
    + \sum_(s <- [:: Up; Dn]) \sum_(i < L | occ s i x) \sum_(a < L | ~~ occ s a x) m_one s i a * hop s i a psi x
    + half * (\sum_(s <- [:: Up; Dn]) \sum_(i < L | occ s i x) \sum_(a < L | ~~ occ s a x)
        \sum_(j < L | occ s j x && (j != i :> nat)) \sum_(b < L | ~~ occ s b x && (b != a :> nat))
          eri i a j b * hop s i a (hop s j b psi) x)
    + \sum_(i < L | occ Up i x) \sum_(a < L | ~~ occ Up a x) \sum_(j < L | occ Dn j x) \sum_(b < L | ~~ occ Dn b x)
          eri i a j b * hop Up i a (hop Dn j b psi) x.
Proof.
rewrite molecular_EE !big_cons !big_nil !addr0 TT_swap !TT_same (TT_diff (s := Up) (s' := Dn)) //.
rewrite !(row1 _ tmat Hx) /m_diag !big_cons !big_nil !addr0.
have one s : \sum_(i < L | occ s i x) \sum_(a < L | ~~ occ s a x) m_one s i a * hop s i a psi x
  = \sum_(p < L | occ s p x) \sum_(q < L | ~~ occ s q x) tmat p q * hop s p q psi x
    + \sum_(i < L | occ s i x) \sum_(a < L | ~~ occ s a x) (\sum_(k < L | occ (other s) k x) eri i a k k) * hop s i a psi x
    + half * (\sum_(i < L | occ s i x) \sum_(a < L | ~~ occ s a x)
        (\sum_(k < L | occ s k x) eri k k i a + \sum_(k < L | occ s k x) eri i a k k
       + \sum_(k < L | ~~ occ s k x) eri i k k a - \sum_(k < L | occ s k x) eri k a i k) * hop s i a psi x).
  rewrite mulr_sumr -!big_split /=; apply: eq_bigr => i _.
  rewrite mulr_sumr -!big_split /=; apply: eq_bigr => a _; rewrite /m_one.
  have -> : \sum_(k < L | occ s k x) eri k k i a = \sum_(k < L | occ s k x) eri i a k k.
    by apply: eq_bigr => k _; rewrite eri_symm.
  set S := \sum_(k < L | occ s k x) eri i a k k.
  have {1}-> : S = (half + half) * S by rewrite half2 mul1r.
  by mring R.
rewrite !one /=.
have -> : \sum_(i < L | occ Dn i x) \sum_(a < L | ~~ occ Dn a x) (\sum_(k < L | occ Up k x) eri k k i a) * hop Dn i a psi x
  = \sum_(i < L | occ Dn i x) \sum_(a < L | ~~ occ Dn a x) (\sum_(k < L | occ Up k x) eri i a k k) * hop Dn i a psi x.
  apply: eq_bigr => i _; apply: eq_bigr => a _; congr (_ * _); apply: eq_bigr => k _; by rewrite eri_symm.
move: (\sum_(i < L | occ Up i x) \sum_(a < L | ~~ occ Up a x) \sum_(j < L | occ Dn j x) _) => UD.
have h2 (z : R) : half * (z + z) = z by rewrite -mulr2n mulrnAr -mulrnAl mulr2n half2 mul1r.
have E4 (a b c d : R) : half * (a + b + (b + c) + d) = half * (a + c + d) + half * (b + b) by mring R.
set T1 := (X in half * (_ + X + (X + _))).
rewrite (_ : forall a b, half * (a + T1 + (T1 + b)) = half * (a + b) + T1); last first.
  by move=> a b; rewrite -[in RHS](h2 T1); mring R.
rewrite /T1; mring R.
Qed.
End Row.
