(* The bracket of states on L sites, adjoints of excitations, and total-spin singlets.  Independent of the
   code. *)
From Verif Require Import Base Fock_Spec Fock_Proofs Occ_Spec Hopping_Proofs Hubbard_Proofs Mol_Fock Mol_Row Spin_Algebra.
Local Open Scope ring_scope.

(* a list of all basis states of L sites *)
Definition all_states (L : nat) (xs : seq fock) := uniq xs /\ forall x, x \in xs <-> on_sites L x.
Lemma all_states_exist L : exists xs, all_states L xs.
Proof.
exists [seq (tval u, tval d) | u <- enum {:L.-tuple bool}, d <- enum {:L.-tuple bool}]; split.
  apply: allpairs_uniq; rewrite ?enum_uniq // => [[u d] [u' d']] _ _ [E1 E2].
  by congr pair; apply: val_inj.
move=> [u d]; split.
  by case/allpairsP => [[a b] /= [_ _ [-> ->]]]; split; rewrite /= size_tuple.
move=> [/= /eqP Hu /eqP Hd]; apply/allpairsP; exists (Tuple Hu, Tuple Hd); split; rewrite ?mem_enum //.
Qed.

Section Bracket.
Variables (F : fieldType) (L : nat) (conj : {rmorphism F -> F}) (xs : seq fock).
Hypothesis Hxs : all_states L xs.
Implicit Types (psi phi chi : fock -> F) (x y : fock).
Add Ring RF : (r_theory (GRing.Field.comRingType F)).

(* <phi|chi> *)
Definition bracket phi chi : F := \sum_(x <- xs) conj (phi x) * chi x.
Lemma xs_on x : x \in xs -> on_sites L x. Proof. by move=> H; apply/(proj2 Hxs). Qed.

Lemma bracket_ext phi chi chi' : eqL L chi chi' -> bracket phi chi = bracket phi chi'.
Proof. by move=> H; apply: eq_big_seq => x /xs_on Hx; rewrite H. Qed.
Lemma bracket_extl phi phi' chi : eqL L phi phi' -> bracket phi chi = bracket phi' chi.
Proof. by move=> H; apply: eq_big_seq => x /xs_on Hx; rewrite H. Qed.

Lemma flip_sum s i (f : fock -> F) : (i < L)%N ->
  \sum_(x <- xs | occ s i x) f x = \sum_(y <- xs | ~~ occ s i y) f (setocc s i true y).
Proof.
move=> Hi; rewrite -!(big_filter xs) -[RHS](big_map (setocc s i true) predT f).
apply: perm_big; apply: uniq_perm.
- by rewrite filter_uniq // (proj1 Hxs).
- rewrite map_inj_in_uniq ?filter_uniq ?(proj1 Hxs) // => y y'; rewrite !mem_filter => /andP [Oy /xs_on Hy] /andP [Oy' /xs_on Hy'] E.
  have Z z : on_sites L z -> ~~ occ s i z -> z = setocc s i false (setocc s i true z).
    by move=> Hz /negbTE Oz; rewrite setocc_set -Oz setocc_id // (on_sites_species _ Hz).
  by rewrite (Z y) // (Z y') // E.
move=> x; rewrite mem_filter; apply/idP/mapP.
  move=> /andP [Ox Hx]; have Hx' := xs_on Hx; exists (setocc s i false x).
    by rewrite mem_filter occ_setocc !eqxx /=; apply/(proj2 Hxs); apply: on_sites_setocc.
  by rewrite setocc_set -Ox setocc_id // (on_sites_species _ Hx').
move=> [y]; rewrite mem_filter => /andP [Oy /xs_on Hy] ->; rewrite occ_setocc !eqxx /=.
by apply/(proj2 Hxs); apply: on_sites_setocc.
Qed.

Lemma conj_sgn n : conj (sgn F n) = sgn F n.
Proof. by rewrite /sgn rmorphX rmorphN rmorph1. Qed.

Lemma bracket_creat s i phi chi : (i < L)%N -> bracket phi (creat s i chi) = bracket (annih s i phi) chi.
Proof.
move=> Hi; rewrite /bracket (bigID (fun x => occ s i x)) /= [X in _ + X]big1 ?addr0; last first.
  by move=> x /negbTE Ox; rewrite /creat Ox mulr0.
rewrite flip_sum // [RHS](bigID (fun x => occ s i x)) /= [X in _ = X + _]big1 ?add0r; last first.
  by move=> x Ox; rewrite /annih Ox rmorph0 mul0r.
rewrite -!(big_filter xs); apply: eq_big_seq => y; rewrite mem_filter => /andP [/negbTE Oy /xs_on Hy].
rewrite /creat /annih Oy occ_setocc !eqxx /= (before_self _ _ Hy) // setocc_set.
have -> : setocc s i false y = y by rewrite -{1}Oy setocc_id ?(on_sites_species _ Hy).
rewrite rmorphM conj_sgn; mring (GRing.Field.comRingType F).
Qed.
Lemma bracket_annih s i phi chi : (i < L)%N -> bracket phi (annih s i chi) = bracket (creat s i phi) chi.
Proof.
move=> Hi; rewrite /bracket [RHS](bigID (fun x => occ s i x)) /= [X in _ = _ + X]big1 ?addr0; last first.
  by move=> x /negbTE Ox; rewrite /creat Ox rmorph0 mul0r.
rewrite flip_sum // (bigID (fun x => occ s i x)) /= [X in X + _]big1 ?add0r; last first.
  by move=> x Ox; rewrite /annih Ox mulr0.
rewrite -!(big_filter xs); apply: eq_big_seq => y; rewrite mem_filter => /andP [/negbTE Oy /xs_on Hy].
rewrite /creat /annih Oy occ_setocc !eqxx /= (before_self _ _ Hy) // setocc_set.
have -> : setocc s i false y = y by rewrite -{1}Oy setocc_id ?(on_sites_species _ Hy).
rewrite rmorphM conj_sgn; mring (GRing.Field.comRingType F).
Qed.
Lemma bracket_exc s p t q phi chi : (p < L)%N -> (q < L)%N ->
  bracket phi (exc s p t q chi) = bracket (exc t q s p phi) chi.
Proof. by move=> Hp Hq; rewrite /exc bracket_creat // bracket_annih. Qed.
End Bracket.

Section Singlet.
Variables (F : fieldType) (L : nat) (conj : {rmorphism F -> F}) (xs : seq fock).
Hypothesis Hxs : all_states L xs.
Implicit Types (psi phi chi : fock -> F) (x y : fock).
Add Ring RF2 : (r_theory (GRing.Field.comRingType F)).
Hypothesis two0 : 2%:R != 0 :> F.
Notation bra := (bracket conj xs).

(* no component of the total spin changes the state: S^+_tot psi = 0 and S^-_tot psi = 0 *)
Definition flip_tot s psi : fock -> F := fun x => \sum_(m < L) exc s m (other s) m psi x.
Definition singlet psi := forall x, on_sites L x -> \sum_(m < L) Sp m m psi x = 0 /\ \sum_(m < L) Sm m m psi x = 0.

(* exc s i s j - exc s' i s' j with s' the other spin: plus or minus 2 S^z *)
Definition dif s i j phi : fock -> F := fun x => exc s i s j phi x - exc (other s) i (other s) j phi x.

Lemma sum_pick (f : nat -> F) j : (j < L)%N -> \sum_(m < L) (if (m : nat) == j then f m else 0) = f j.
Proof.
move=> Hj; rewrite (bigD1 (Ordinal Hj)) //= eqxx big1 ?addr0 // => m Hm.
by case: eqP => // E; case/eqP: Hm; apply: val_inj.
Qed.
Lemma exc_sum s p t q (f : nat -> fock -> F) x : exc s p t q (fun y => \sum_(m < L) f m y) x = \sum_(m < L) exc s p t q (f m) x.
Proof.
rewrite /exc /creat; case: (occ s p x); last by rewrite big1.
rewrite /annih; case: (occ t q _); first by rewrite mulr0 big1 // => m _; rewrite mulr0.
by rewrite !mulr_sumr.
Qed.
Lemma exc_flip s p t q u phi x : exc s p t q (flip_tot u phi) x = \sum_(m < L) exc s p t q (exc u m (other u) m phi) x.
Proof. exact: (exc_sum s p t q (fun m => exc u m (other u) m phi) x). Qed.
Lemma other_neq s : (s == other s) = false. Proof. by case: s. Qed.
Lemma neq_other s : (other s == s) = false. Proof. by case: s. Qed.

Lemma flip_dif s i j phi x : on_sites L x -> (i < L)%N -> (j < L)%N ->
  flip_tot s (dif s i j phi) x = dif s i j (flip_tot s phi) x - 2%:R * exc s i (other s) j phi x.
Proof.
move=> Hx Hi Hj; rewrite {2}/dif !exc_flip {1}/flip_tot.
have C m : (m < L)%N -> exc s m (other s) m (dif s i j phi) x
   = exc s i s j (exc s m (other s) m phi) x - exc (other s) i (other s) j (exc s m (other s) m phi) x
     - (if m == j then exc s i (other s) m phi x else 0) - (if m == i then exc s m (other s) j phi x else 0).
  move=> Hm; rewrite excB.
  have := exc_comm s (other s) s s phi Hx Hm Hm Hi Hj; rewrite neq_other eqxx /= => /eqP; rewrite subr_eq => /eqP ->.
  have := exc_comm s (other s) (other s) (other s) phi Hx Hm Hm Hi Hj; rewrite other_neq eqxx /= => /eqP; rewrite subr_eq => /eqP ->.
  mring (GRing.Field.comRingType F).
rewrite (eq_bigr _ (fun (m : 'I_L) _ => C m (ltn_ord m))) !sumrB.
rewrite (sum_pick (fun m => exc s i (other s) m phi x) Hj) (sum_pick (fun m => exc s m (other s) j phi x) Hi).
have -> : 2%:R = 1 + 1 :> F by []. mring (GRing.Field.comRingType F).
Qed.
Lemma flip_exc s k l phi x : on_sites L x -> (k < L)%N -> (l < L)%N ->
  flip_tot s (exc (other s) k s l phi) x = exc (other s) k s l (flip_tot s phi) x + dif s k l phi x.
Proof.
move=> Hx Hk Hl; rewrite /dif !exc_flip {1}/flip_tot.
have C m : (m < L)%N -> exc s m (other s) m (exc (other s) k s l phi) x
   = exc (other s) k s l (exc s m (other s) m phi) x
     + (if m == k then exc s m s l phi x else 0) - (if m == l then exc (other s) k (other s) m phi x else 0).
  move=> Hm; have := exc_comm s (other s) (other s) s phi Hx Hm Hm Hk Hl; rewrite !eqxx /= => /eqP; rewrite subr_eq => /eqP ->.
  mring (GRing.Field.comRingType F).
rewrite (eq_bigr _ (fun (m : 'I_L) _ => C m (ltn_ord m))) sumrB big_split /=.
rewrite (sum_pick (fun m => exc s m s l phi x) Hk) (sum_pick (fun m => exc (other s) k (other s) m phi x) Hl).
mring (GRing.Field.comRingType F).
Qed.

Lemma bracket_flip s phi chi : bra phi (flip_tot s chi) = bra (flip_tot (other s) phi) chi.
Proof.
rewrite /bracket /flip_tot.
transitivity (\sum_(m < L) bra phi (exc s m (other s) m chi)).
  by rewrite /bracket exchange_big; apply: eq_bigr => x _; rewrite mulr_sumr.
rewrite (eq_bigr (fun m : 'I_L => bra (exc (other s) m s m phi) chi)); last first.
  by move=> m _; apply: (bracket_exc conj Hxs).
rewrite /bracket exchange_big; apply: eq_bigr => x _; rewrite -mulr_suml rmorph_sum.
by case: s.
Qed.

Lemma dif_ext s i j phi phi' : (i < L)%N -> (j < L)%N -> eqL L phi phi' -> eqL L (dif s i j phi) (dif s i j phi').
Proof. by move=> Hi Hj H x Hx; rewrite /dif !(exc_ext _ _ Hi Hj H Hx). Qed.

(* <S^+_ij S^-_kl> = <S^-_ij S^+_kl> = 2 <S^z_ij S^z_kl> in a singlet *)
Lemma singlet_flip psi s i j k l : singlet psi -> (i < L)%N -> (j < L)%N -> (k < L)%N -> (l < L)%N ->
  2%:R * bra psi (exc s i (other s) j (exc (other s) k s l psi)) = bra psi (dif s i j (dif s k l psi)).
Proof.
move=> Hs Hi Hj Hk Hl.
have T0 t : eqL L (flip_tot t psi) (fun _ => 0).
  by move=> x Hx; have [H1 H2] := Hs x Hx; case: t.
have Z : bra psi (flip_tot s (dif s i j (exc (other s) k s l psi))) = 0.
  rewrite bracket_flip (bracket_extl conj Hxs _ (T0 _)) /bracket big1 // => x _; by rewrite rmorph0 mul0r.
have E : eqL L (flip_tot s (dif s i j (exc (other s) k s l psi)))
   (fun x => dif s i j (dif s k l psi) x - 2%:R * exc s i (other s) j (exc (other s) k s l psi) x).
  move=> x Hx; rewrite flip_dif //; congr (_ - _).
  apply: (dif_ext s Hi Hj _ Hx) => y Hy; rewrite flip_exc //.
  rewrite (exc_ext _ _ Hk Hl (T0 s) Hy).
  have -> : exc (other s) k s l (fun _ => 0) y = 0 :> F.
    by rewrite /exc /creat /annih; do 2 case: ifP => // _; rewrite ?mulr0.
  by rewrite add0r.
move: Z; rewrite (bracket_ext conj Hxs _ E) /bracket.
rewrite (eq_bigr (fun x => conj (psi x) * dif s i j (dif s k l psi) x
   - 2%:R * (conj (psi x) * exc s i (other s) j (exc (other s) k s l psi) x))); last first.
  by move=> x _; mring (GRing.Field.comRingType F).
by rewrite sumrB -mulr_sumr => /eqP; rewrite subr_eq0 => /eqP.
Qed.

Lemma dif_Sz s i j k l psi x : dif s i j (dif s k l psi) x = 4%:R * Sz i j (Sz k l psi) x.
Proof.
rewrite SzSz /dif !excB.
have -> : 4%:R = 2%:R * 2%:R :> F by rewrite -natrM.
set S := (X in _ = _ * (_ * X)).
have -> : 2%:R * 2%:R * (2%:R^-1 * 2%:R^-1 * S) = (2%:R^-1 * 2%:R) * (2%:R^-1 * 2%:R) * S.
  by have -> : 2%:R = 1 + 1 :> F by []; mring (GRing.Field.comRingType F).
rewrite /S mulVf // !mul1r; case: s => /=; mring (GRing.Field.comRingType F).
Qed.

Lemma singlet_dot psi i j k l : singlet psi -> (i < L)%N -> (j < L)%N -> (k < L)%N -> (l < L)%N ->
  bra psi (S_dot_S i j k l psi) = 3%:R * bra psi (Sz i j (Sz k l psi)).
Proof.
move=> Hs Hi Hj Hk Hl.
have P s : bra psi (exc s i (other s) j (exc (other s) k s l psi)) = 2%:R * bra psi (Sz i j (Sz k l psi)).
  apply: (mulfI two0); rewrite singlet_flip // mulrA -natrM.
  rewrite /bracket mulr_sumr; apply: eq_bigr => x _; rewrite dif_Sz; mring (GRing.Field.comRingType F).
have B : bra psi (S_dot_S i j k l psi) = bra psi (Sz i j (Sz k l psi))
   + 2%:R^-1 * (bra psi (exc Up i Dn j (exc Dn k Up l psi)) + bra psi (exc Dn i Up j (exc Up k Dn l psi))).
  rewrite /bracket /S_dot_S mulrDr !mulr_sumr -!big_split /=; apply: eq_bigr => x _; rewrite /Sp /Sm; mring (GRing.Field.comRingType F).
rewrite B (P Up) (P Dn) mulrDr ![2%:R^-1 * (2%:R * _)]mulrA mulVf // !mul1r.
have -> : 3%:R = 1 + (1 + 1) :> F by [].
mring (GRing.Field.comRingType F).
Qed.
End Singlet.
