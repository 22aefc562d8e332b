(* Algebra of one- and two-body excitation operators on the Fock space specification,
   leading to the row expansion of the molecular Hamiltonian. *)
From Verif Require Import Base Fock_Spec Fock_Proofs Occ_Spec Hopping_Proofs Hubbard_Proofs.
Local Open Scope ring_scope.

Section Mol.
Variables (R : comRingType) (L : nat).
Implicit Types (psi phi : fock -> R) (x y : fock).
Add Ring RR : (r_theory R).

Definition eqL phi phi' := forall y, on_sites L y -> phi y = phi' y.

Lemma creat_ext s i phi phi' : (i < L)%N -> eqL phi phi' -> eqL (creat s i phi) (creat s i phi').
Proof. by move=> Hi H y Hy; rewrite /creat H //; apply: on_sites_setocc. Qed.
Lemma annih_ext s i phi phi' : (i < L)%N -> eqL phi phi' -> eqL (annih s i phi) (annih s i phi').
Proof. by move=> Hi H y Hy; rewrite /annih H //; apply: on_sites_setocc. Qed.
Lemma hop_ext s i j phi phi' : (i < L)%N -> (j < L)%N -> eqL phi phi' -> eqL (hop s i j phi) (hop s i j phi').
Proof. by move=> Hi Hj H; apply: creat_ext => //; apply: annih_ext. Qed.

Lemma creat_lin s i (I : Type) (l : seq I) (P : pred I) (c : I -> R) (phi : I -> fock -> R) x :
  creat s i (fun y => \sum_(k <- l | P k) c k * phi k y) x = \sum_(k <- l | P k) c k * creat s i (phi k) x.
Proof.
rewrite /creat; case: (occ s i x); last by rewrite big1 // => k _; rewrite mulr0.
by rewrite mulr_sumr; apply: eq_bigr => k _; rewrite mulrCA.
Qed.
Lemma annih_lin s i (I : Type) (l : seq I) (P : pred I) (c : I -> R) (phi : I -> fock -> R) x :
  annih s i (fun y => \sum_(k <- l | P k) c k * phi k y) x = \sum_(k <- l | P k) c k * annih s i (phi k) x.
Proof.
rewrite /annih; case: (occ s i x); first by rewrite big1 // => k _; rewrite mulr0.
by rewrite mulr_sumr; apply: eq_bigr => k _; rewrite mulrCA.
Qed.
Lemma hop_lin s i j (I : Type) (l : seq I) (P : pred I) (c : I -> R) (phi : I -> fock -> R) x :
  hop s i j (fun y => \sum_(k <- l | P k) c k * phi k y) x = \sum_(k <- l | P k) c k * hop s i j (phi k) x.
Proof.
rewrite /hop -creat_lin /creat; case: (occ s i x) => //.
by rewrite annih_lin.
Qed.

Lemma creatN s i phi x : creat s i (fun y => - phi y) x = - creat s i phi x.
Proof. by rewrite /creat; case: (occ s i x); rewrite ?oppr0 ?mulrN. Qed.
Lemma creatD s i phi phi' x : creat s i (fun y => phi y + phi' y) x = creat s i phi x + creat s i phi' x.
Proof. by rewrite /creat; case: (occ s i x); rewrite ?addr0 ?mulrDr. Qed.
Lemma annihN s i phi x : annih s i (fun y => - phi y) x = - annih s i phi x.
Proof. by rewrite /annih; case: (occ s i x); rewrite ?oppr0 ?mulrN. Qed.
Lemma creat_if s i (b : bool) phi x : creat s i (fun y => if b then phi y else 0) x = if b then creat s i phi x else 0.
Proof. by case: b => //; rewrite /creat mulr0; case: (occ _ _ _). Qed.

Lemma hopZ s i j c phi x : hop s i j (fun y => c * phi y) x = c * hop s i j phi x.
Proof.
rewrite /hop /creat /annih; case: (occ s i x); rewrite ?mulr0 //.
by case: (occ s j _); rewrite ?mulr0 //; mring R.
Qed.

(* c+_p c+_r c_t c_q = (c+_p c_q)(c+_r c_t) - delta_qr c+_p c_t *)
Lemma normal_order s s' p q r t psi x : on_sites L x ->
  (p < L)%N -> (q < L)%N -> (r < L)%N -> (t < L)%N ->
  creat s p (creat s' r (annih s' t (annih s q psi))) x
  = hop s p q (hop s' r t psi) x - (if (s == s') && (q == r) then hop s p t psi x else 0).
Proof.
move=> Hx Hp Hq Hr Ht.
have E1 : eqL (creat s' r (annih s' t (annih s q psi)))
              (fun y => annih s q (creat s' r (annih s' t psi)) y - (if (s == s') && (q == r) then annih s' t psi y else 0)).
  move=> y Hy.
  have E2 : eqL (annih s' t (annih s q psi)) (fun y => - annih s q (annih s' t psi) y).
    move=> z Hz; apply/eqP; rewrite -addr_eq0; apply/eqP.
    exact: (car_annih s' s Ht Hq psi Hz).
  rewrite (creat_ext s' Hr E2) // creatN.
  have E3 := car_mixed s s' Hq Hr (annih s' t psi) Hy.
  by rewrite -E3 opprD addrA subrr sub0r.
rewrite (creat_ext s Hp E1) //.
rewrite (_ : (fun y => _ - _) = (fun y => annih s q (creat s' r (annih s' t psi)) y
   + (fun y => - (if (s == s') && (q == r) then annih s' t psi y else 0)) y)) //.
rewrite creatD creatN creat_if /hop; congr (_ - _).
by case: eqP => // ->.
Qed.

(* products of two hops that share orbitals *)
Lemma hop_back s i a psi x : on_sites L x -> (i < L)%N -> (a < L)%N -> occ s i x -> ~~ occ s a x ->
  hop s i a (hop s a i psi) x = psi x.
Proof.
move=> Hx Hi Ha Oi Oa.
have E : eqL (annih s a (creat s a (annih s i psi))) (fun y => annih s i psi y - creat s a (annih s a (annih s i psi)) y).
  by move=> y Hy; have := car_mixed s s Ha Ha (annih s i psi) Hy; rewrite !eqxx /= => <-; rewrite addrK.
rewrite /hop (creat_ext s Hi E) // (_ : (fun y => _ - _) = (fun y => annih s i psi y
   + (fun y => - creat s a (annih s a (annih s i psi)) y) y)) //.
rewrite creatD creatN.
have := car_creat s s Hi Ha (annih s a (annih s i psi)) Hx.
move/eqP; rewrite addr_eq0 => /eqP ->; rewrite opprK {2}/creat (negbTE Oa) addr0.
have := hop_same s psi Hx Hi; rewrite /hop => ->; by rewrite Oi.
Qed.

Lemma hop_chain s i a b psi x : on_sites L x -> (i < L)%N -> (a < L)%N -> (b < L)%N ->
  ~~ occ s a x -> hop s i a (hop s a b psi) x = hop s i b psi x.
Proof.
move=> Hx Hi Ha Hb Oa.
have E : eqL (annih s a (creat s a (annih s b psi))) (fun y => annih s b psi y - creat s a (annih s a (annih s b psi)) y).
  by move=> y Hy; have := car_mixed s s Ha Ha (annih s b psi) Hy; rewrite !eqxx /= => <-; rewrite addrK.
rewrite /hop (creat_ext s Hi E) // (_ : (fun y => _ - _) = (fun y => annih s b psi y
   + (fun y => - creat s a (annih s a (annih s b psi)) y) y)) //.
rewrite creatD creatN.
have := car_creat s s Hi Ha (annih s a (annih s b psi)) Hx.
by move/eqP; rewrite addr_eq0 => /eqP ->; rewrite opprK {2}/creat (negbTE Oa) addr0.
Qed.

Lemma hop_exch s i a j psi x : on_sites L x -> (i < L)%N -> (a < L)%N -> (j < L)%N ->
  occ s i x -> i != j -> a != j -> i != a ->
  hop s i a (hop s j i psi) x = - hop s j a psi x.
Proof.
move=> Hx Hi Ha Hj Oi Hij Haj Hia.
(* c+_i c_a c+_j c_i = - c+_i c+_j c_a c_i = c+_j c+_i c_a c_i = - c+_j c+_i c_i c_a *)
have E1 : eqL (annih s a (creat s j (annih s i psi))) (fun y => - creat s j (annih s a (annih s i psi)) y).
  move=> y Hy; have := car_mixed s s Ha Hj (annih s i psi) Hy; rewrite (negbTE Haj) andbF.
  by move/eqP; rewrite addr_eq0 => /eqP.
rewrite /hop (creat_ext s Hi E1) // creatN.
have := car_creat s s Hi Hj (annih s a (annih s i psi)) Hx.
move/eqP; rewrite addr_eq0 => /eqP ->; rewrite opprK.
have E2 : eqL (creat s i (annih s a (annih s i psi))) (fun y => - annih s a psi y + annih s i (creat s i (annih s a psi)) y).
  move=> y Hy.
  have E3 : eqL (annih s a (annih s i psi)) (fun y => - annih s i (annih s a psi) y).
    move=> z Hz; apply/eqP; rewrite -addr_eq0; apply/eqP; exact: (car_annih s s Ha Hi psi Hz).
  rewrite (creat_ext s Hi E3) // creatN.
  have := car_mixed s s Hi Hi (annih s a psi) Hy; rewrite !eqxx /= => <-.
  by rewrite opprD addrAC addNr add0r.
rewrite (creat_ext s Hj E2) // creatD creatN.
have := car_mixed s s Hi Hj (creat s i (annih s a psi)) Hx; rewrite (negbTE Hij) andbF.
move/eqP; rewrite addrC addr_eq0 => /eqP ->.
by rewrite {2}/annih Oi oppr0 addr0.
Qed.

(* rows *)
Lemma row_hop s (phi : nat -> nat -> fock -> R) x : on_sites L x ->
  \sum_(p < L) \sum_(q < L) hop s p q (phi p q) x
  = \sum_(p < L | occ s p x) phi p p x
    + \sum_(p < L | occ s p x) \sum_(q < L | ~~ occ s q x) hop s p q (phi p q) x.
Proof.
move=> Hx; rewrite (bigID (fun p : 'I_L => occ s p x)) /= [X in _ + X]big1 ?addr0; last first.
  by move=> p Op; rewrite big1 // => q _; rewrite /hop /creat (negbTE Op).
rewrite -big_split /=; apply: eq_bigr => p Op.
rewrite (bigID (fun q : 'I_L => occ s q x)) /=; congr (_ + _).
rewrite (bigD1 p) //= (hop_same _ _ Hx) // Op big1 ?addr0 // => q /andP [Oq Hqp].
by rewrite (hop_diff _ _ Hx) ?Oq ?andbF // eq_sym.
Qed.

Lemma hop_factor s i a phi x : on_sites L x -> (i < L)%N -> (a < L)%N -> i != a -> occ s i x -> ~~ occ s a x ->
  hop s i a phi x = hop s i a (fun=> 1) x * phi (setocc s a true (setocc s i false x)).
Proof. by move=> Hx Hi Ha Hia Oi Oa; rewrite !(hop_diff _ _ Hx) // Oi Oa /= mulr1. Qed.

Lemma row_hop2 s s' i a (c : nat -> nat -> R) psi x :
  on_sites L x -> (i < L)%N -> (a < L)%N -> occ s i x -> ~~ occ s a x ->
  let x1 := setocc s a true (setocc s i false x) in
  hop s i a (fun y => \sum_(r < L) \sum_(t < L) c r t * hop s' r t psi y) x
  = \sum_(r < L | occ s' r x1) c r r * hop s i a psi x
    + \sum_(r < L | occ s' r x1) \sum_(t < L | ~~ occ s' t x1) c r t * hop s i a (hop s' r t psi) x.
Proof.
move=> Hx Hi Ha Oi Oa x1.
have Hia : i != a by apply/eqP => E; rewrite E (negbTE Oa) in Oi.
have Hx1 : on_sites L x1 by do 2!apply: on_sites_setocc => //.
rewrite (hop_factor _ Hx) // -/x1.
pose phi r t y := c r t * psi y.
have -> : \sum_(r < L) \sum_(t < L) c r t * hop s' r t psi x1 = \sum_(r < L) \sum_(t < L) hop s' r t (phi r t) x1.
  apply: eq_bigr => r _; apply: eq_bigr => t _; rewrite /phi.
  by rewrite hopZ.
rewrite row_hop // mulrDr !mulr_sumr; congr (_ + _).
  by apply: eq_bigr => r _; rewrite /phi mulrCA -(hop_factor _ Hx).
apply: eq_bigr => r _; rewrite mulr_sumr; apply: eq_bigr => t _.
rewrite (hop_factor (hop s' r t psi) Hx) // -/x1.
by rewrite /phi hopZ mulrCA.
Qed.
End Mol.
