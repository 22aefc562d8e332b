(* Facts about the Fock space specification, including the canonical
   anticommutation relations (sanity of the specification). *)
From Verif Require Import Base Fock_Spec.
Local Open Scope ring_scope.

Definition spin_eqb (s t : spin) : bool :=
  match s, t with Up, Up | Dn, Dn => true | _, _ => false end.
Lemma spin_eqP : Equality.axiom spin_eqb.
Proof. by case; case; constructor. Qed.
Definition spin_eqMixin := EqMixin spin_eqP.
Canonical spin_eqType := EqType spin spin_eqMixin.

(* orbital order *)
Definition olt (s : spin) (i : nat) (t : spin) (j : nat) : bool :=
  match s, t with Up, Dn => true | Dn, Up => false | _, _ => (i < j)%N end.

Lemma num_take_set (l : seq bool) i j b : (i < size l)%N ->
  (num (take j (set_nth false l i b)) + (i < j) * nth false l i
   = num (take j l) + (i < j) * b)%N.
Proof.
elim: l i j => [|a l IH] [|i] [|j] //= Hi; rewrite /num /=; first by clear IH; case: a; case: b; lia.
have := IH i j Hi; rewrite /num => IHi.
rewrite -!addnA IHi ltnS; lia.
Qed.

Lemma num_set (l : seq bool) i b : (i < size l)%N ->
  (num (set_nth false l i b) + nth false l i = num l + b)%N.
Proof.
move=> Hi; have := @num_take_set l i (size l) b Hi.
rewrite Hi take_size !mul1n => <-; congr addn; rewrite take_oversize //.
by rewrite size_set_nth; lia.
Qed.

Section Facts.
Variable R : comRingType.
Implicit Types (psi : fock -> R) (x : fock).
Add Ring RR : (r_theory R).

Lemma sgn_odd n m : odd n = odd m -> sgn R n = sgn R m.
Proof. by rewrite /sgn -signr_odd => ->; rewrite signr_odd. Qed.
Lemma sgn_oddN n m : odd n = ~~ odd m -> sgn R n = - sgn R m.
Proof.
move=> H; rewrite (@sgn_odd n m.+1) ?H //.
by rewrite /sgn exprS mulN1r.
Qed.
Lemma sgnD n m : sgn R (n + m)%N = sgn R n * sgn R m.
Proof. by rewrite /sgn exprD. Qed.
Lemma sgn_sq n : sgn R n * sgn R n = 1.
Proof. by rewrite -sgnD (@sgn_odd _ 0) ?addnn ?odd_double. Qed.

Lemma occ_setocc s i t j b x :
  occ s i (setocc t j b x) = if (s == t) && (i == j) then b else occ s i x.
Proof. by case: s; case: t; rewrite /occ /setocc //= nth_set_nth /=; case: eqP. Qed.

Lemma setocc_comm s i t j b b' x : ~~ ((s == t) && (i == j)) ->
  setocc s i b (setocc t j b' x) = setocc t j b' (setocc s i b x).
Proof.
by case: s; case: t => //= H; rewrite /setocc /= set_set_nth eq_sym;
   rewrite (negbTE H).
Qed.

Lemma setocc_id s i x : (i < size (species s x))%N -> setocc s i (occ s i x) x = x.
Proof.
case: x => u d; case: s => /= Hi; rewrite /setocc /occ /=; congr pair;
  apply: (@eq_from_nth _ false); rewrite size_set_nth /=; try (move: Hi; lia).
all: by move=> k Hk; rewrite nth_set_nth /=; case: eqP => [->|].
Qed.

Lemma setocc_set s i b b' x : setocc s i b (setocc s i b' x) = setocc s i b x.
Proof. by case: s; rewrite /setocc /= set_set_nth eqxx. Qed.

Lemma on_sites_setocc L s i b x : (i < L)%N -> on_sites L x -> on_sites L (setocc s i b x).
Proof. by move=> Hi [H1 H2]; case: s; split; rewrite //= size_set_nth; lia. Qed.

Lemma on_sites_species L s x : on_sites L x -> size (species s x) = L.
Proof. by case=> H1 H2; case: s. Qed.

Lemma before_setocc L s i t j b x : on_sites L x -> (i < L)%N -> (j < L)%N ->
  (before s i (setocc t j b x) + olt t j s i * occ t j x
   = before s i x + olt t j s i * b)%N.
Proof.
move=> [H1 H2] Hi Hj; case: s; case: t; rewrite /before /setocc /occ /=.
- by apply: num_take_set; rewrite H1.
- by lia.
- by have := @num_set x.1 j b; rewrite H1 => /(_ Hj); lia.
- by have := @num_take_set x.2 j i b; rewrite H2 => /(_ Hj); lia.
Qed.

Lemma olt_xor s i t j : ~~ ((s == t) && (i == j)) -> olt s i t j = ~~ olt t j s i.
Proof. by case: s; case: t => //=; lia. Qed.

Lemma oltnn s i : olt s i s i = false. Proof. by case: s; rewrite /= ltnn. Qed.

Lemma before_self L s i b x : on_sites L x -> (i < L)%N ->
  before s i (setocc s i b x) = before s i x.
Proof. by move=> HL Hi; have := before_setocc s s b HL Hi Hi; rewrite oltnn; lia. Qed.

(* canonical anticommutation relations *)
Section CAR.
Variables (L : nat) (s t : spin) (i j : nat).
Hypotheses (Hi : (i < L)%N) (Hj : (j < L)%N).

Lemma car_annih psi x : on_sites L x ->
  annih s i (annih t j psi) x + annih t j (annih s i psi) x = 0.
Proof.
move=> HL; rewrite /annih !occ_setocc.
case E : ((s == t) && (i == j)).
  move: E => /andP [/eqP -> /eqP ->]; rewrite !eqxx /=.
  by case: (occ t j x); rewrite ?mulr0 addr0.
rewrite [t == s]eq_sym [j == i]eq_sym E.
case Os: (occ s i x); case Ot: (occ t j x); rewrite ?mulr0 ?addr0 //.
rewrite !mulrA -!sgnD (setocc_comm _ _ _ (negbT E)).
have Hs := before_setocc t s true HL Hj Hi; rewrite Os in Hs.
have Ht := before_setocc s t true HL Hi Hj; rewrite Ot in Ht.
have Hx := olt_xor (negbT E).
rewrite (@sgn_oddN _ (before t j x + before s i (setocc t j true x))%N) ?mulNr ?addNr //.
by move: Hs Ht Hx; case: (olt s i t j); case: (olt t j s i) => //=; lia.
Qed.

Lemma car_creat psi x : on_sites L x ->
  creat s i (creat t j psi) x + creat t j (creat s i psi) x = 0.
Proof.
move=> HL; rewrite /creat !occ_setocc.
case E : ((s == t) && (i == j)).
  move: E => /andP [/eqP -> /eqP ->]; rewrite !eqxx /=.
  by case: (occ t j x); rewrite ?mulr0 addr0.
rewrite [t == s]eq_sym [j == i]eq_sym E.
case Os: (occ s i x); case Ot: (occ t j x); rewrite ?mulr0 ?addr0 //.
rewrite !mulrA -!sgnD (setocc_comm _ _ _ (negbT E)).
have Hs := before_setocc t s false HL Hj Hi; rewrite Os in Hs.
have Ht := before_setocc s t false HL Hi Hj; rewrite Ot in Ht.
have Hx := olt_xor (negbT E).
rewrite (@sgn_oddN _ (before t j x + before s i (setocc t j false x))%N) ?mulNr ?addNr //.
by move: Hs Ht Hx; case: (olt s i t j); case: (olt t j s i) => //=; lia.
Qed.

Lemma car_mixed psi x : on_sites L x ->
  annih s i (creat t j psi) x + creat t j (annih s i psi) x
  = if (s == t) && (i == j) then psi x else 0.
Proof.
move=> HL; rewrite /annih /creat !occ_setocc.
case E : ((s == t) && (i == j)).
  move: E => /andP [/eqP Est /eqP Eij].
  have Hb b : before s i (setocc s i b x) = before s i x by apply: before_self HL _.
  move: Hb; rewrite -Est -Eij !eqxx /= => Hb.
  have Hsz : (i < size (species s x))%N by rewrite (on_sites_species _ HL).
  case O: (occ s i x); rewrite ?addr0 ?add0r Hb mulrA sgn_sq mul1r setocc_set;
    by rewrite -{1}O setocc_id.
rewrite [t == s]eq_sym [j == i]eq_sym E.
case Os: (occ s i x); case Ot: (occ t j x); rewrite ?mulr0 ?addr0 //.
rewrite !mulrA -!sgnD (setocc_comm _ _ _ (negbT E)).
have Hs := before_setocc t s true HL Hj Hi; rewrite Os in Hs.
have Ht := before_setocc s t false HL Hi Hj; rewrite Ot in Ht.
have Hx := olt_xor (negbT E).
rewrite (@sgn_oddN _ (before t j x + before s i (setocc t j false x))%N) ?mulNr ?addNr //.
by move: Hs Ht Hx; case: (olt s i t j); case: (olt t j s i) => //=; lia.
Qed.
End CAR.
End Facts.
