(* C96: the spin-spin correlations computed from spin-free reduced density matrices. *)
From Verif Require Import Base Fock_Spec Fock_Proofs Occ_Spec Hopping_Proofs Hubbard_Proofs Mol_Fock Mol_Row Spin_Algebra Spin_Singlet Corr_Model.
Local Open Scope ring_scope.

Section C96.
Variables (F : fieldType) (L : nat).
Hypotheses (two0 : 2%:R != 0 :> F) (three0 : 3%:R != 0 :> F).
Implicit Types (psi : fock -> F) (PA PB : nat -> nat -> F).
Add Ring RF : (r_theory (GRing.Field.comRingType F)).

Lemma sum_pick2 (f : 'I_L -> 'I_L -> F) : \sum_(j < L) \sum_(k < L) (if (j : nat) == k then f j k else 0) = \sum_(j < L) f j j.
Proof.
apply: eq_bigr => j _; rewrite (bigD1 j) //= eqxx big1 ?addr0 // => k Hk.
by case: eqP => // E; case/eqP: Hk; apply: val_inj.
Qed.

(* one term *)
Lemma term_eq (a b e g h : F) (c : bool) :
  a * b * (((2%:R^-1 * 2%:R^-1 * ((if c then (1 + 2%:R) * e else 0) - g) - 2%:R^-1 * h)) / 3%:R)
  = (if c then 1 / 4%:R * (a * b * e) else 0) + 1 / 2%:R * (a * b * - (g / 6%:R + h / 3%:R)).
Proof.
have six : 6%:R = 2%:R * 3%:R :> F by rewrite -natrM.
have four : 4%:R = 2%:R * 2%:R :> F by rewrite -natrM.
have -> : 1 + 2%:R = 3%:R :> F by rewrite -(natrD _ 1 2).
rewrite six four !invfM !div1r.
have T : 3%:R * 3%:R^-1 = 1 :> F by rewrite mulfV.
case: c.
  rewrite -[1 in RHS](mulfV three0).
  have -> : a * b * ((2%:R^-1 * 2%:R^-1 * (3%:R * e - g) - 2%:R^-1 * h) / 3%:R)
     = (3%:R / 3%:R) * (2%:R^-1 * 2%:R^-1 * (a * b * e)) - 2%:R^-1 * (a * b * (g * (2%:R^-1 * 3%:R^-1) + h * 3%:R^-1)).
    mring (GRing.Field.comRingType F).
  rewrite T mul1r; mring (GRing.Field.comRingType F).
mring (GRing.Field.comRingType F).
Qed.

Section General.
Variables (xs : seq fock) (w psi : fock -> F).
Hypothesis Hxs : forall x, x \in xs -> on_sites L x.
(* an expectation value of an operator O in psi: sum over the basis states xs with weights w *)
Definition expect (O : (fock -> F) -> fock -> F) : F := \sum_(x <- xs) w x * O psi x.

(* spin_spin_correlation of the spin-free density matrices <E_ij> and <c+_is c+_kt c_lt c_js> (summed over s, t) is
   one third of the expectation value of the scalar product of the two spin vectors *)
Theorem C96_spin_correlation PA PB :
  (forall i j, (i < L)%N -> (j < L)%N -> PB i j = PB j i) ->
  spin_spin_correlation L (fun i j => expect (E1 i j)) (fun i j k l => expect (G2 i j k l)) PA PB
  = \sum_(i < L) \sum_(j < L) \sum_(k < L) \sum_(l < L) PA i j * PB k l * (expect (S_dot_S i j k l) / 3%:R).
Proof.
move=> Hsym; rewrite /spin_spin_correlation.
have D (i j k l : 'I_L) : PA i j * PB k l * (expect (S_dot_S i j k l) / 3%:R)
   = (if (j : nat) == k then 1 / 4%:R * (PA i j * PB k l * expect (E1 i l)) else 0)
     + 1 / 2%:R * (PA i j * PB k l * spinful (fun i j k l => expect (G2 i j k l)) i j k l).
  rewrite -term_eq; congr (_ * (_ / _)).
  transitivity (\sum_(x <- xs) ((if (j : nat) == k then 2%:R^-1 * 2%:R^-1 * (1 + 2%:R) * (w x * E1 i l psi x) else 0)
     - 2%:R^-1 * 2%:R^-1 * (w x * G2 i j k l psi x) - 2%:R^-1 * (w x * G2 i l k j psi x))).
    apply: eq_big_seq => x /Hxs Hx; rewrite (dot_expand two0 _ Hx) //.
    by have -> : 2%:R = 1 + 1 :> F by []; case: (_ == _); mring (GRing.Field.comRingType F).
  rewrite /expect.
  rewrite !sumrB -!mulr_sumr; case: (_ == _); last by rewrite big1_eq; mring (GRing.Field.comRingType F).
  by rewrite -mulr_sumr; have -> : 2%:R = 1 + 1 :> F by []; mring (GRing.Field.comRingType F).
rewrite [RHS](_ : _ = \sum_(i < L) \sum_(j < L) \sum_(k < L) \sum_(l < L) (if (j : nat) == k then 1 / 4%:R * (PA i j * PB k l * expect (E1 i l)) else 0)
    + \sum_(i < L) \sum_(j < L) \sum_(k < L) \sum_(l < L) 1 / 2%:R * (PA i j * PB k l * spinful (fun i j k l => expect (G2 i j k l)) i j k l)); last first.
  rewrite -big_split; apply: eq_bigr => i _; rewrite -big_split; apply: eq_bigr => j _; rewrite -big_split; apply: eq_bigr => k _.
  by rewrite -big_split; apply: eq_bigr => l _; rewrite D.
congr (_ + _); last first.
  rewrite mulr_sumr; apply: eq_bigr => i _; rewrite mulr_sumr; apply: eq_bigr => j _; rewrite mulr_sumr; apply: eq_bigr => k _.
  by rewrite mulr_sumr.
rewrite mulr_sumr; apply: eq_bigr => i _.
transitivity (\sum_(j < L) \sum_(l < L) 1 / 4%:R * (PA i j * PB j l * expect (E1 i l))).
  rewrite exchange_big mulr_sumr; apply: eq_bigr => j _; rewrite mulr_sumr; apply: eq_bigr => l _.
  by rewrite (Hsym j l).
rewrite -(sum_pick2 (fun j k => \sum_(l < L) 1 / 4%:R * (PA i j * PB k l * expect (E1 i l)))).
by apply: eq_bigr => j _; apply: eq_bigr => k _; case: (_ == _) => //; rewrite big1.
Qed.
End General.

Section Singlet.
Variables (conj : {rmorphism F -> F}) (xs : seq fock) (psi : fock -> F).
Hypothesis Hxs : all_states L xs.
Hypothesis Hs : singlet L psi.
Notation ev O := (bracket conj xs psi (O psi)).

(* in a total-spin singlet it is the z-z correlation its name says *)
Theorem C96_singlet PA PB :
  (forall i j, (i < L)%N -> (j < L)%N -> PB i j = PB j i) ->
  spin_spin_correlation L (fun i j => ev (E1 i j)) (fun i j k l => ev (G2 i j k l)) PA PB
  = \sum_(i < L) \sum_(j < L) \sum_(k < L) \sum_(l < L) PA i j * PB k l * bracket conj xs psi (Sz i j (Sz k l psi)).
Proof.
move=> Hsym; rewrite (C96_spin_correlation (fun x => conj (psi x)) psi (xs_on Hxs) PA Hsym).
do 4 (apply: eq_bigr => ? _); congr (_ * _).
have := singlet_dot conj Hxs two0 Hs; rewrite /bracket /expect => -> //.
by rewrite mulrAC mulfV // mul1r.
Qed.

Lemma site_sum (f : nat -> nat -> F) a : (a < L)%N ->
  \sum_(i < L) \sum_(j < L) site_proj F a i j * f i j = f a a.
Proof.
move=> Ha; rewrite (bigD1 (Ordinal Ha)) //= (bigD1 (Ordinal Ha)) //= /site_proj !eqxx mul1r.
rewrite big1 ?addr0 ?big1 ?addr0 // => i Hi.
  rewrite big1 // => j _; case: eqP => [E|_]; rewrite ?mul0r //; by case/eqP: Hi; apply: val_inj.
by rewrite /=; case: eqP => [E|_]; rewrite ?mul0r //; case/eqP: Hi; apply: val_inj.
Qed.
Lemma site_sum4 (f : nat -> nat -> nat -> nat -> F) a b : (a < L)%N -> (b < L)%N ->
  \sum_(i < L) \sum_(j < L) \sum_(k < L) \sum_(l < L) site_proj F a i j * site_proj F b k l * f i j k l = f a a b b.
Proof.
move=> Ha Hb; rewrite -[RHS](site_sum (fun k l => f a a k l) Hb) -(site_sum (fun i j => \sum_(k < L) \sum_(l < L) site_proj F b k l * f i j k l) Ha).
do 2 (apply: eq_bigr => ? _); rewrite mulr_sumr; apply: eq_bigr => k _; rewrite mulr_sumr.
by apply: eq_bigr => l _; rewrite mulrA.
Qed.

Theorem C96_sites a b : (a < L)%N -> (b < L)%N ->
  get_correlations L (fun i j => ev (E1 i j)) (fun i j k l => ev (G2 i j k l)) a b = bracket conj xs psi (Sz a a (Sz b b psi)).
Proof.
move=> Ha Hb; rewrite /get_correlations C96_singlet; last by move=> i j _ _; rewrite /site_proj andbC.
exact: (site_sum4 (fun i j k l => bracket conj xs psi (Sz i j (Sz k l psi)))).
Qed.
End Singlet.
End C96.

(* without the singlet condition the name SzASzB is wrong: two electrons with parallel spins on two sites *)
Definition states2 : seq fock := [seq (u, d) | u <- [:: [:: false; false]; [:: true; false]; [:: false; true]; [:: true; true]],
                                              d <- [:: [:: false; false]; [:: true; false]; [:: false; true]; [:: true; true]]].
Lemma states2_all : all_states 2 states2.
Proof.
split; first by vm_compute.
move=> [u d]; split; last first.
  case=> /=; case: u => [|a [|b [|]]] //=; case: d => [|c [|e [|]]] //= _ _.
  by case: a; case: b; case: c; case: e; vm_compute.
by move=> H; have /allP A : all (fun x : fock => (size x.1 == 2%N) && (size x.2 == 2%N)) states2 by []; move: (A _ H) => /andP [/eqP ? /eqP ?].
Qed.
Definition par2 : fock -> rat := fun x => if x == ([:: true; true], [:: false; false]) then 1 else 0.
Definition ridem : {rmorphism rat -> rat} := [rmorphism of idfun].
Lemma expect_bracket (F : fieldType) (conj : {rmorphism F -> F}) xs (psi : fock -> F) (O : (fock -> F) -> fock -> F) :
  expect xs (fun x => conj (psi x)) psi O = bracket conj xs psi (O psi).
Proof. by []. Qed.

Theorem C96_only_singlets : exists (psi : fock -> rat) (a b : nat), (a < 2)%N /\ (b < 2)%N /\
  get_correlations 2 (fun i j => bracket ridem states2 psi (E1 i j psi)) (fun i j k l => bracket ridem states2 psi (G2 i j k l psi)) a b = 1 / 12%:R
  /\ bracket ridem states2 psi (Sz a a (Sz b b psi)) = 1 / 4%:R.
Proof.
exists par2, 0%N, 1%N; split=> //; split=> //; split.
  have two0 : 2%:R != 0 :> rat by []. have three0 : 3%:R != 0 :> rat by [].
  have K := @C96_spin_correlation _ 2 two0 three0 states2 (fun x => ridem (par2 x)) par2 (xs_on states2_all) (site_proj _ 0) (site_proj _ 1).
  rewrite /get_correlations; rewrite /expect in K; rewrite /bracket K; last by move=> i j _ _; rewrite /site_proj andbC.
  rewrite (@site_sum4 _ 2 (fun i j k l => (\sum_(x <- states2) ridem (par2 x) * S_dot_S i j k l par2 x) / 3%:R) 0 1) //.
  by rewrite !unlock; apply/eqP; vm_compute.
by rewrite /bracket !unlock; apply/eqP; vm_compute.
Qed.

(* a singlet on two sites, and its (unnormalised) correlation *)
Definition sing2 : fock -> rat := fun x =>
  if x == ([:: true; false], [:: false; true]) then 1 else if x == ([:: false; true], [:: true; false]) then 1 else 0.
Example C96_ex : singlet 2 sing2 /\ bracket ridem states2 sing2 (Sz 0 0 (Sz 1 1 sing2)) = - (1 / 2%:R)
  /\ bracket ridem states2 sing2 (Sz 0 0 (Sz 0 0 sing2)) = 1 / 2%:R.
Proof.
split; last by split; rewrite /bracket !unlock; apply/eqP; vm_compute.
move=> [u d] [/=]; case: u => [|a [|b [|]]] //=; case: d => [|c [|e [|]]] //= _ _.
rewrite !big_ord_recl !big_ord0.
by case: a; case: b; case: c; case: e; split; apply/eqP; vm_compute.
Qed.
Print Assumptions C96_spin_correlation.
Print Assumptions C96_singlet.
Print Assumptions C96_sites.
Print Assumptions C96_only_singlets.
