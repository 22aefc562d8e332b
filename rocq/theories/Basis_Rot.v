(* Rotations of the orbitals of a Fock space, continued: the map between occupation states is invertible, keeps
   the numbers of electrons, and intertwines molecular Hamiltonians whose integrals are rotated into each other.
   Independent of the code. *)
From Verif Require Import Base Fock_Spec Fock_Proofs Occ_Spec Hopping_Proofs Hubbard_Proofs Mol_Fock Mol_Row Mol_Adj.
From Verif Require Import Spin_Algebra Spin_Singlet Basis_Fock.
Local Open Scope ring_scope.

Section Sector.
Variables (F : fieldType) (L : nat).
Implicit Types (psi phi : fock -> F) (x y z : fock) (s t : spin) (P : nat -> nat -> bool).

(* psi vanishes on the states of L sites whose numbers of electrons do not satisfy P *)
Definition supp P psi := forall y, on_sites L y -> ~~ P (num y.1) (num y.2) -> psi y = 0.
Definition Pcr s P a b := if s is Up then (0 < a)%N && P a.-1 b else (0 < b)%N && P a b.-1.
Definition Pan s P a b := if s is Up then P a.+1 b else P a b.+1.

Lemma supp_imp P P' psi : (forall a b, P a b -> P' a b) -> supp P psi -> supp P' psi.
Proof. by move=> H Hs y Hy N; apply: Hs => //; apply: contra N; apply: H. Qed.
Lemma num_setocc s i b y : on_sites L y -> (i < L)%N ->
  (num (species s (setocc s i b y)) + occ s i y = num (species s y) + b)%N.
Proof. by move=> [H1 H2] Hi; case: s; rewrite /occ /= num_set // ?H1 ?H2. Qed.
Lemma supp_creat P s k psi : (k < L)%N -> supp P psi -> supp (Pcr s P) (creat s k psi).
Proof.
move=> Hk Hs y Hy; rewrite /creat; case O: (occ s k y) => // N.
have Hz : on_sites L (setocc s k false y) by apply: on_sites_setocc.
rewrite Hs ?mulr0 //; move: N; have := num_setocc s false Hy Hk; rewrite O addn0 /Pcr.
by case: s O {Hz} => /= O <-; rewrite addn1.
Qed.
Lemma supp_annih P s k psi : (k < L)%N -> supp P psi -> supp (Pan s P) (annih s k psi).
Proof.
move=> Hk Hs y Hy; rewrite /annih; case O: (occ s k y) => // N.
have Hz : on_sites L (setocc s k true y) by apply: on_sites_setocc.
rewrite Hs ?mulr0 //; move: N; have := num_setocc s true Hy Hk; rewrite O addn0 addn1 /Pan.
by case: s O {Hz} => /= O ->.
Qed.
Lemma supp_sum P (I : Type) (l : seq I) (c : I -> F) (phi : I -> fock -> F) :
  (forall k, supp P (phi k)) -> supp P (fun y => \sum_(k <- l) c k * phi k y).
Proof. by move=> H y Hy N; rewrite big1 // => k _; rewrite (H k) ?mulr0. Qed.
Lemma supp_dcr U P s p psi : supp P psi -> supp (Pcr s P) (dcr L U s p psi).
Proof. by move=> H y Hy N; rewrite /dcr big1 // => k _; rewrite (supp_creat (ltn_ord k) H) ?mulr0. Qed.

Lemma supp_ketl U l x :
  supp (fun a b => (a == count (fun o => (o.1 == Up) && occo o x) l) && (b == count (fun o => (o.1 == Dn) && occo o x) l))
       (ketl L (dcr L U) l x).
Proof.
elim: l => [|[s i] l IH] /=.
  by move=> y Hy; rewrite /ketl /delta; have [->|//] := eqVneq y (vac L); rewrite /num /= !count_nseq.
case O: (occo _ x); last by rewrite !andbF.
rewrite !andbT; move: (@supp_dcr U _ s i _ IH); apply: supp_imp => a b; rewrite /Pcr.
by case: s {O} => /= /andP [H1 /andP [/eqP H2 /eqP H3]]; rewrite ?add1n ?add0n -H2 -H3 prednK ?eqxx.
Qed.
Lemma supp_ket U x : on_sites L x -> supp (fun a b => (a == num x.1) && (b == num x.2)) (ket L U x).
Proof.
move=> [H1 H2]; have := @supp_ketl U (orbs L) x; apply: supp_imp => a b /andP [/eqP -> /eqP ->].
have T (l : seq bool) : count (nth false l) (iota 0 (size l)) = num l.
  by rewrite /num -{3}[l](mkseq_nth false) /mkseq count_map.
rewrite /orbs !count_cat !count_map.
rewrite (eq_count (a2 := nth false x.1)) // [X in (_ + X)%N](eq_count (a2 := pred0)) // count_pred0 addn0.
rewrite add0n [X in _ && (X == _)](eq_count (a2 := nth false x.2)) //.
by rewrite -{1}H1 -{1}H2 !T !eqxx.
Qed.

Lemma supp_molecular half h eri P psi : supp P psi -> supp P (molecular L half h eri psi).
Proof.
move=> H y Hy N; rewrite /molecular big1 ?add0r ?big1 ?mulr0 // => s _.
  rewrite big1 // => s' _; rewrite big1 // => p _; rewrite big1 // => q _; rewrite big1 // => r _; rewrite big1 // => t _.
  suff S : supp P (creat s p (creat s' r (annih s' t (annih s q psi)))) by rewrite (S y Hy N) mulr0.
  have := @supp_creat _ s _ _ (ltn_ord p) (@supp_creat _ s' _ _ (ltn_ord r) (@supp_annih _ s' _ _ (ltn_ord t) (@supp_annih _ s _ _ (ltn_ord q) H))).
  apply: supp_imp => a b; rewrite /Pcr /Pan; case: s; case: s'; case: a => [|[|a]]; case: b => [|[|b]] //=; lia.
rewrite big1 // => p _; rewrite big1 // => q _.
suff S : supp P (hop s p q psi) by rewrite (S y Hy N) mulr0.
have := @supp_creat _ s _ _ (ltn_ord p) (@supp_annih _ s _ _ (ltn_ord q) H).
by apply: supp_imp => a b; rewrite /Pcr /Pan; case: s; case: a => [|a]; case: b => [|b].
Qed.
End Sector.

Section Fill.
Variables (F : fieldType) (L : nat).
Implicit Types (psi phi : fock -> F) (x y z : fock) (s t : spin) (o : spin * nat).
Notation delta := (@delta (GRing.Field.comRingType F)).

(* filling the orbitals of x one by one *)
Definition fill (l : seq (spin * nat)) x : fock := foldr (fun o z => if occo o x then seto o true z else z) (vac L) l.
Definition lto o o' := olt o.1 o.2 o'.1 o'.2.
Lemma vac_on : on_sites L (vac L). Proof. by split; rewrite /= size_nseq. Qed.
Lemma fill_on l x : inL L l -> on_sites L (fill l x).
Proof.
elim: l => [_|o l IH /= /andP [Ho Hl]]; first exact: vac_on.
by case: (occo o x); rewrite /seto; [apply: on_sites_setocc => //|]; apply: IH.
Qed.
Lemma occ_fill o l x : occo o (fill l x) = (o \in l) && occo o x.
Proof.
elim: l => [|o' l IH] /=.
  by rewrite /occo /occ /vac; case: o => [[] i] /=; rewrite nth_nseq; case: ltnP.
case O: (occo o' x); rewrite inE ?occo_seto IH; case: eqP => [->|] //=; rewrite ?O //.
by rewrite andbF.
Qed.
Lemma before_fill o l x : inL L l -> (o.2 < L)%N -> all (lto o) l -> before o.1 o.2 (fill l x) = 0%N.
Proof.
move=> Hl Ho; elim: l Hl => [_ _|o' l IH /= /andP [Ho' Hl] /andP [Hlt Ha]].
  by rewrite /before /vac; case: (o.1); rewrite /= /num ?count_nseq ?take_nseq_ge;
     rewrite -[take _ _]/(take _ _) //=; elim: (L) (o.2) => [|n IHn] [|m] //=; rewrite ?IHn ?mul0n.
case: (occo o' x); last exact: IH.
have := before_setocc o.1 o'.1 true (fill_on x Hl) Ho Ho'.
rewrite IH // /seto.
have -> : olt o'.1 o'.2 o.1 o.2 = false.
  have [E|/negbTE N] := boolP ((o.1 == o'.1) && (o.2 == o'.2)).
    by move: E => /andP [/eqP E1 /eqP E2]; rewrite -E1 -E2 oltnn.
  by move: Hlt; rewrite /lto (olt_xor (negbT N)) => /negbTE.
by rewrite !mul0n !addn0.
Qed.

Lemma ketl_fill l x : inL L l -> pairwise lto l -> eqL L (ketl L (@creat (GRing.Field.comRingType F)) l x) (delta (fill l x)).
Proof.
elim: l => //= o l IH /andP [Ho Hl] /andP [Ha Hp] y Hy.
case: (occo o x); last exact: IH.
rewrite (creat_ext o.1 Ho (IH Hl Hp)) // (creat_delta _ o.1 Ho (fill_on x Hl) Hy).
have Hn : o \notin l.
  by apply/negP => Hin; move/allP: Ha => /(_ _ Hin); rewrite /lto oltnn.
have := occ_fill o l x; rewrite (negbTE Hn) /= /occo => ->.
by rewrite before_fill // /sgn expr0 mul1r.
Qed.
Lemma fill_orbs x : on_sites L x -> fill (orbs L) x = x.
Proof.
move=> Hx; have Hf := fill_on x (orbs_inL L).
have E s i : (i < L)%N -> occ s i (fill (orbs L) x) = occ s i x.
  by move=> Hi; have := occ_fill (s, i) (orbs L) x; rewrite /occo /= orbs_in /= Hi.
case: x Hx Hf E => [u d] [/= Hu Hd]; set f := fill _ _; case: f => [u' d'] [/= Hu' Hd'] E.
congr pair; apply: (@eq_from_nth _ false); rewrite ?Hu ?Hd // => i Hi.
  by apply: (E Up i); rewrite -?Hu'.
by apply: (E Dn i); rewrite -?Hd'.
Qed.
Lemma orbs_sorted : pairwise lto (orbs L).
Proof.
have A s n m : pairwise lto [seq (s, i) | i <- iota n m].
  elim: m n => //= m IH n; rewrite IH andbT; apply/allP => o /mapP [j]; rewrite mem_iota => Hj ->.
  by case: s {IH}; rewrite /lto /=; lia.
rewrite /orbs pairwise_cat !A !andbT; apply/allrelP => o o' /mapP [i _ ->] /mapP [j _ ->] //.
Qed.
Lemma ketl_delta x : on_sites L x -> eqL L (ketl L (@creat (GRing.Field.comRingType F)) (orbs L) x) (delta x).
Proof. by move=> Hx y Hy; rewrite (ketl_fill x (orbs_inL L) orbs_sorted) // fill_orbs. Qed.
End Fill.

Section Inter.
Variables (F : fieldType) (L : nat) (half : F) (xs : seq fock).
Hypotheses (Hh : half + half = 1) (Hxs : all_states L xs).
Implicit Types (psi phi : fock -> F) (x y z : fock) (s t : spin) (o : spin * nat) (U : nat -> nat -> F).
Notation delta := (@delta (GRing.Field.comRingType F)).

Lemma sum4 (f : 'I_L -> 'I_L -> 'I_L -> 'I_L -> F) :
  \sum_(p < L) \sum_(q < L) \sum_(r < L) \sum_(u < L) f p q r u
  = \sum_(P : ('I_L * 'I_L) * ('I_L * 'I_L)) f P.1.1 P.1.2 P.2.1 P.2.2.
Proof.
rewrite -(pair_bigA _ (fun P Q : 'I_L * 'I_L => f P.1 P.2 Q.1 Q.2)) /=.
rewrite -(pair_bigA _ (fun p q => \sum_Q f p q Q.1 Q.2)) /=.
by apply: eq_bigr => p _; apply: eq_bigr => q _; rewrite -(pair_bigA _ (fun r u => f p q r u)).
Qed.

Section One.
Variable U : nat -> nat -> F.
Hypothesis HU : orth L U.
Notation rot := (rot L U xs).

Lemma rot_hop s p q psi y : (p < L)%N -> (q < L)%N -> on_sites L y ->
  rot (hop s p q psi) y = \sum_(k < L) \sum_(l < L) U k p * U l q * hop s k l (rot psi) y.
Proof.
move=> Hp Hq Hy; rewrite /hop (rot_creat _ Hh Hxs s _ Hp) //.
by rewrite (dcr_ext _ _ _ (rot_annih HU Hxs s psi Hq)) // dcr_dan.
Qed.
Lemma rot_two s s' p q r u psi y : (p < L)%N -> (q < L)%N -> (r < L)%N -> (u < L)%N -> on_sites L y ->
  rot (creat s p (creat s' r (annih s' u (annih s q psi)))) y
  = \sum_(k < L) \sum_(l < L) \sum_(m < L) \sum_(n < L) U k p * U l q * U m r * U n u
      * creat s k (creat s' m (annih s' n (annih s l (rot psi)))) y.
Proof.
move=> Hp Hq Hr Hu Hy; rewrite (rot_creat _ Hh Hxs s _ Hp) //.
have E1 : eqL L (rot (annih s' u (annih s q psi))) (dan L U s' u (dan L U s q (rot psi))).
  move=> z Hz; rewrite (rot_annih HU Hxs s' _ Hu) //.
  by rewrite (dan_ext _ _ _ (rot_annih HU Hxs s psi Hq)).
have E2 : eqL L (rot (creat s' r (annih s' u (annih s q psi)))) (dcr L U s' r (dan L U s' u (dan L U s q (rot psi)))).
  by move=> z Hz; rewrite (rot_creat _ Hh Hxs s' _ Hr) // (dcr_ext _ _ _ E1).
rewrite (dcr_ext _ _ _ E2) // dcr_dcr; apply: eq_bigr => k _.
have E3 (m : 'I_L) : U k p * U m r * creat s k (creat s' m (dan L U s' u (dan L U s q (rot psi)))) y
  = \sum_(l < L) \sum_(n < L) U k p * U l q * U m r * U n u * creat s k (creat s' m (annih s' n (annih s l (rot psi)))) y.
  have E z : dan L U s' u (dan L U s q (rot psi)) z
    = \sum_(l < L) 1 * (\sum_(n < L) (U l q * U n u) * annih s' n (annih s l (rot psi)) z).
    rewrite dan_dan exchange_big; apply: eq_bigr => l _; rewrite mul1r; apply: eq_bigr => n _.
    by rewrite [U l q * _]mulrC.
  have E' : eqL L (dan L U s' u (dan L U s q (rot psi)))
    (fun z => \sum_(l < L) 1 * (\sum_(n < L) (U l q * U n u) * annih s' n (annih s l (rot psi)) z)) by move=> z _; apply: E.
  rewrite (creat_ext s (ltn_ord k) (creat_ext s' (ltn_ord m) E')) //.
  have E4 : eqL L (creat s' m (fun z => \sum_(l < L) 1 * (\sum_(n < L) (U l q * U n u) * annih s' n (annih s l (rot psi)) z)))
    (fun z => \sum_(l < L) 1 * (\sum_(n < L) (U l q * U n u) * creat s' m (annih s' n (annih s l (rot psi))) z)).
    by move=> z _; rewrite creat_lin; apply: eq_bigr => l _; rewrite creat_lin.
  rewrite (creat_ext s (ltn_ord k) E4) // creat_lin mulr_sumr; apply: eq_bigr => l _.
  rewrite creat_lin mul1r mulr_sumr; apply: eq_bigr => n _.
  by rewrite !mulrA; congr (_ * _); rewrite -!mulrA; congr (_ * _); rewrite !mulrA; congr (_ * _); exact: mulrC.
rewrite exchange_big /=; under eq_bigr => m _ do rewrite E3.
by rewrite exchange_big; apply: eq_bigr => l _; apply: eq_bigr => m _.
Qed.

Lemma rotD f g y : rot (fun x => f x + g x) y = rot f y + rot g y.
Proof. by rewrite /rot -big_split; apply: eq_bigr => x _; rewrite mulrDl. Qed.
Lemma rotZ c f y : rot (fun x => c * f x) y = c * rot f y.
Proof. by rewrite /rot mulr_sumr; apply: eq_bigr => x _; rewrite mulrA. Qed.
Lemma rot_sum (I : Type) (l : seq I) (P : pred I) (phi : I -> fock -> F) y :
  rot (fun x => \sum_(k <- l | P k) phi k x) y = \sum_(k <- l | P k) rot (phi k) y.
Proof. by rewrite /rot exchange_big; apply: eq_bigr => x _; rewrite mulr_suml. Qed.

Lemma rot_molecular (h h' : nat -> nat -> F) (eri eri' : nat -> nat -> nat -> nat -> F) psi y : on_sites L y ->
  (forall k l, (k < L)%N -> (l < L)%N -> h k l = \sum_(p < L) \sum_(q < L) h' p q * (U k p * U l q)) ->
  (forall k l m n, (k < L)%N -> (l < L)%N -> (m < L)%N -> (n < L)%N ->
     eri k l m n = \sum_(p < L) \sum_(q < L) \sum_(r < L) \sum_(u < L) eri' p q r u * (U k p * U l q * U m r * U n u)) ->
  rot (molecular L half h' eri' psi) y = molecular L half h eri (rot psi) y.
Proof.
move=> Hy E1 E2; rewrite /molecular rotD rotZ; congr (_ + _ * _).
  rewrite rot_sum; apply: eq_bigr => s _.
  transitivity (\sum_(P : 'I_L * 'I_L) \sum_(Q : 'I_L * 'I_L) h' P.1 P.2 * (U Q.1 P.1 * U Q.2 P.2) * hop s Q.1 Q.2 (rot psi) y).
    rewrite rot_sum -(pair_bigA _ (fun p q : 'I_L => \sum_(Q : 'I_L * 'I_L) h' p q * (U Q.1 p * U Q.2 q) * hop s Q.1 Q.2 (rot psi) y)) /=.
    apply: eq_bigr => p _; rewrite rot_sum; apply: eq_bigr => q _; rewrite rotZ rot_hop //.
    rewrite -(pair_bigA _ (fun k l : 'I_L => h' p q * (U k p * U l q) * hop s k l (rot psi) y)) /= mulr_sumr.
    by apply: eq_bigr => k _; rewrite mulr_sumr; apply: eq_bigr => l _; rewrite mulrA.
  rewrite exchange_big -(pair_bigA _ (fun k l : 'I_L => \sum_(P : 'I_L * 'I_L) h' P.1 P.2 * (U k P.1 * U l P.2) * hop s k l (rot psi) y)) /=.
  apply: eq_bigr => k _; apply: eq_bigr => l _; rewrite E1 // -mulr_suml; congr (_ * _).
  by rewrite -(pair_bigA _ (fun p q : 'I_L => h' p q * (U k p * U l q))).
rewrite rot_sum; apply: eq_bigr => s _; rewrite rot_sum; apply: eq_bigr => s' _.
pose G (Q : ('I_L * 'I_L) * ('I_L * 'I_L)) := creat s Q.1.1 (creat s' Q.2.1 (annih s' Q.2.2 (annih s Q.1.2 (rot psi)))) y.
pose V (P Q : ('I_L * 'I_L) * ('I_L * 'I_L)) := U Q.1.1 P.1.1 * U Q.1.2 P.1.2 * U Q.2.1 P.2.1 * U Q.2.2 P.2.2.
transitivity (\sum_(P : ('I_L * 'I_L) * ('I_L * 'I_L)) \sum_(Q : ('I_L * 'I_L) * ('I_L * 'I_L))
    eri' P.1.1 P.1.2 P.2.1 P.2.2 * V P Q * G Q).
  rewrite -(sum4 (fun p q r u => \sum_(Q : ('I_L * 'I_L) * ('I_L * 'I_L)) eri' p q r u * V ((p, q), (r, u)) Q * G Q)).
  rewrite rot_sum; apply: eq_bigr => p _; rewrite rot_sum; apply: eq_bigr => q _; rewrite rot_sum; apply: eq_bigr => r _.
  rewrite rot_sum; apply: eq_bigr => u _; rewrite rotZ rot_two // sum4 mulr_sumr.
  by apply: eq_bigr => Q _; rewrite mulrA.
rewrite exchange_big sum4; apply: eq_bigr => Q _; rewrite E2 // -mulr_suml sum4; congr (_ * _).
Qed.
End One.

Lemma rot_vac U y : on_sites L y -> rot L U xs (delta (vac L)) y = delta (vac L) y.
Proof.
move=> Hy; have Hv : vac L \in xs by apply/(proj2 Hxs)/vac_on.
rewrite /rot (bigD1_seq (vac L)) ?(proj1 Hxs) //= [X in _ + X]big1; last first.
  by move=> x /negbTE Hx; rewrite /delta Hx mul0r.
rewrite /delta eqxx mul1r addr0 /ket; elim: (orbs L) => //= o l IH.
by rewrite ifF // /occo /occ /vac; case: (o.1) => /=; rewrite nth_nseq; case: ltnP.
Qed.
Definition tr U : nat -> nat -> F := fun k p => U p k.
(* turning back *)
Lemma rot_back U psi : orth L U -> orth L (tr U) -> eqL L (rot L (tr U) xs (rot L U xs psi)) psi.
Proof.
move=> HU HT.
have K s p phi : (p < L)%N -> eqL L (rot L (tr U) xs (dcr L U s p phi)) (creat s p (rot L (tr U) xs phi)).
  move=> Hp y Hy; rewrite /dcr rot_lin.
  under eq_bigr => k _ do rewrite (rot_creat _ Hh Hxs s _ (ltn_ord k)) // /dcr mulr_sumr.
  rewrite exchange_big (bigD1 (Ordinal Hp)) //= [X in _ + X]big1 ?addr0.
    by under eq_bigr => k _ do rewrite mulrA; rewrite -mulr_suml (HU p p) // eqxx mul1r.
  move=> q Hq; under eq_bigr => k _ do rewrite mulrA.
  rewrite -mulr_suml (HU p q) //; have -> : (p == q :> nat) = false by apply/negP => /eqP E; move/negP: Hq; apply; apply/eqP/val_inj.
  by rewrite mul0r.
have M x : eqL L (rot L (tr U) xs (ket L U x)) (ketl L (@creat (GRing.Field.comRingType F)) (orbs L) x).
  rewrite /ket; have := orbs_inL L; elim: (orbs L) => /= [_ y Hy|o l IH /andP [Ho Hl]]; first exact: rot_vac.
  case: (occo o x); last exact: IH.
  by move=> y Hy; rewrite K // (creat_ext o.1 Ho (IH Hl)).
move=> y Hy; rewrite {2}/rot rot_lin (bigD1_seq y) ?(proj1 Hxs) //=; last by apply/(proj2 Hxs).
rewrite M // ketl_delta // /delta eqxx mulr1 -[RHS]addr0; congr (_ + _).
rewrite big_seq_cond big1 // => x /andP [/(xs_on Hxs) Hx /negbTE Hxy].
by rewrite M // ketl_delta // /delta eq_sym Hxy mulr0.
Qed.
Lemma supp_rot U P psi : supp L P psi -> supp L P (rot L U xs psi).
Proof.
move=> H y Hy N; rewrite /rot big_seq big1 // => x /(xs_on Hxs) Hx.
have [Px|Px] := boolP (P (num x.1) (num x.2)); last by rewrite (H x) // mul0r.
rewrite (supp_ket U Hx) ?mulr0 //; apply: contra N => /andP [/eqP -> /eqP ->] //.
Qed.
End Inter.
