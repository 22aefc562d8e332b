(* Rotations of the orbitals of a Fock space: rotated ladder operators, their anticommutation relations, and the
   map from the occupation states of the rotated orbitals to states over the original ones.  Independent of the
   code. *)
From Verif Require Import Base Fock_Spec Fock_Proofs Occ_Spec Hopping_Proofs Hubbard_Proofs Mol_Fock Mol_Row Mol_Adj.
From Verif Require Import Spin_Algebra Spin_Singlet.
Local Open Scope ring_scope.

Section Rot.
Variables (F : fieldType) (L : nat).
Implicit Types (psi phi chi : fock -> F) (x y z : fock) (s t : spin) (o : spin * nat) (U : nat -> nat -> F).
Add Ring RF : (r_theory (GRing.Field.comRingType F)).
Notation delta := (@delta (GRing.Field.comRingType F)).

(* creation and annihilation in the rotated orbital p = sum_k U_kp k *)
Definition dcr U s p phi : fock -> F := fun x => \sum_(k < L) U k p * creat s k phi x.
Definition dan U s p phi : fock -> F := fun x => \sum_(k < L) U k p * annih s k phi x.

Lemma dcr_ext U s p phi phi' : eqL L phi phi' -> eqL L (dcr U s p phi) (dcr U s p phi').
Proof. by move=> H y Hy; apply: eq_bigr => k _; rewrite (creat_ext s (ltn_ord k) H). Qed.
Lemma dan_ext U s p phi phi' : eqL L phi phi' -> eqL L (dan U s p phi) (dan U s p phi').
Proof. by move=> H y Hy; apply: eq_bigr => k _; rewrite (annih_ext s (ltn_ord k) H). Qed.

Lemma dcr_lin U s p (I : Type) (l : seq I) (P : pred I) (c : I -> F) (phi : I -> fock -> F) x :
  dcr U s p (fun y => \sum_(k <- l | P k) c k * phi k y) x = \sum_(k <- l | P k) c k * dcr U s p (phi k) x.
Proof.
rewrite /dcr (eq_bigr (fun k : 'I_L => \sum_(i <- l | P i) U k p * (c i * creat s k (phi i) x))); last first.
  by move=> k _; rewrite creat_lin mulr_sumr.
rewrite exchange_big; apply: eq_bigr => i _; rewrite mulr_sumr; apply: eq_bigr => k _; exact: mulrCA.
Qed.
Lemma dan_lin U s p (I : Type) (l : seq I) (P : pred I) (c : I -> F) (phi : I -> fock -> F) x :
  dan U s p (fun y => \sum_(k <- l | P k) c k * phi k y) x = \sum_(k <- l | P k) c k * dan U s p (phi k) x.
Proof.
rewrite /dan (eq_bigr (fun k : 'I_L => \sum_(i <- l | P i) U k p * (c i * annih s k (phi i) x))); last first.
  by move=> k _; rewrite annih_lin mulr_sumr.
rewrite exchange_big; apply: eq_bigr => i _; rewrite mulr_sumr; apply: eq_bigr => k _; exact: mulrCA.
Qed.
Lemma dcrZ U s p c phi x : dcr U s p (fun y => c * phi y) x = c * dcr U s p phi x.
Proof. by rewrite /dcr mulr_sumr; apply: eq_bigr => k _; rewrite creatZ mulrCA. Qed.
Lemma danZ U s p c phi x : dan U s p (fun y => c * phi y) x = c * dan U s p phi x.
Proof. by rewrite /dan mulr_sumr; apply: eq_bigr => k _; rewrite annihZ mulrCA. Qed.
Lemma dan0 U s p x : dan U s p (fun=> 0) x = 0.
Proof. by rewrite /dan big1 // => k _; rewrite /annih; case: (occ _ _ _); rewrite ?mulr0 ?mulr0. Qed.
Lemma dcr0 U s p x : dcr U s p (fun=> 0) x = 0.
Proof. by rewrite /dcr big1 // => k _; rewrite /creat; case: (occ _ _ _); rewrite ?mulr0 ?mulr0. Qed.

Lemma dcr_dcr U s p t q phi x : dcr U s p (dcr U t q phi) x
  = \sum_(k < L) \sum_(l < L) U k p * U l q * creat s k (creat t l phi) x.
Proof.
rewrite {1}/dcr; apply: eq_bigr => k _; rewrite /dcr creat_lin mulr_sumr; apply: eq_bigr => l _; exact: mulrA.
Qed.
Lemma dan_dan U s p t q phi x : dan U s p (dan U t q phi) x
  = \sum_(k < L) \sum_(l < L) U k p * U l q * annih s k (annih t l phi) x.
Proof.
rewrite {1}/dan; apply: eq_bigr => k _; rewrite /dan annih_lin mulr_sumr; apply: eq_bigr => l _; exact: mulrA.
Qed.
Lemma dan_dcr U s p t q phi x : dan U s p (dcr U t q phi) x
  = \sum_(k < L) \sum_(l < L) U k p * U l q * annih s k (creat t l phi) x.
Proof.
rewrite {1}/dan; apply: eq_bigr => k _; rewrite /dcr annih_lin mulr_sumr; apply: eq_bigr => l _; exact: mulrA.
Qed.
Lemma dcr_dan U s p t q phi x : dcr U s p (dan U t q phi) x
  = \sum_(k < L) \sum_(l < L) U k p * U l q * creat s k (annih t l phi) x.
Proof.
rewrite {1}/dcr; apply: eq_bigr => k _; rewrite /dan creat_lin mulr_sumr; apply: eq_bigr => l _; exact: mulrA.
Qed.

Lemma dcr_anti U s p t q phi x : on_sites L x -> dcr U s p (dcr U t q phi) x = - dcr U t q (dcr U s p phi) x.
Proof.
move=> Hx; apply/eqP; rewrite -addr_eq0; apply/eqP; rewrite !dcr_dcr [X in _ + X]exchange_big -big_split /=.
rewrite big1 // => k _; rewrite -big_split big1 //= => l _.
by rewrite [U l q * _]mulrC -mulrDr (car_creat s t (ltn_ord k) (ltn_ord l)) ?mulr0.
Qed.
Lemma dan_anti U s p t q phi x : on_sites L x -> dan U s p (dan U t q phi) x = - dan U t q (dan U s p phi) x.
Proof.
move=> Hx; apply/eqP; rewrite -addr_eq0; apply/eqP; rewrite !dan_dan [X in _ + X]exchange_big -big_split /=.
rewrite big1 // => k _; rewrite -big_split big1 //= => l _.
by rewrite [U l q * _]mulrC -mulrDr (car_annih s t (ltn_ord k) (ltn_ord l)) ?mulr0.
Qed.

(* the columns of U are orthonormal *)
Definition orth U := forall p q, (p < L)%N -> (q < L)%N -> \sum_(k < L) U k p * U k q = (p == q)%:R.

Lemma dmix U s p t q phi x : orth U -> (p < L)%N -> (q < L)%N -> on_sites L x ->
  dan U s p (dcr U t q phi) x = ((s, p) == (t, q))%:R * phi x - dcr U t q (dan U s p phi) x.
Proof.
move=> HU Hp Hq Hx; apply/eqP; rewrite eq_sym subr_eq eq_sym; apply/eqP.
rewrite dan_dcr dcr_dan [X in _ + X]exchange_big -big_split /=.
under eq_bigr => k _.
  rewrite -big_split /=; under eq_bigr => l _.
    rewrite [U l q * _]mulrC -mulrDr (car_mixed s t (ltn_ord k) (ltn_ord l) phi Hx).
    over.
  rewrite (bigD1 k) //= [X in _ + X]big1 ?addr0; last first.
    by move=> l /negbTE Hl; rewrite [(k : nat) == l]eq_sym [(l : nat) == k]Hl andbF mulr0.
  rewrite eqxx andbT; over.
rewrite xpair_eqE; case: (s == t) => /=; last by rewrite big1 ?mul0r // => k _; rewrite mulr0.
by rewrite -mulr_suml HU.
Qed.
Lemma dcr_sq U s p phi x (half : F) : half + half = 1 -> on_sites L x -> dcr U s p (dcr U s p phi) x = 0.
Proof.
move=> Hh Hx; have := dcr_anti U s p s p phi Hx; set a := dcr _ _ _ _ _ => E.
by rewrite -[a]mul1r -Hh mulrDl {2}E mulrN addrN.
Qed.

(* the list of all orbitals in their order, and the state in which the orbitals occupied in x are filled *)
Definition orbs := [seq (Up, i) | i <- iota 0 L] ++ [seq (Dn, i) | i <- iota 0 L].
Definition vac : fock := (nseq L false, nseq L false).
Definition occo o x := occ o.1 o.2 x.
Definition seto o b x := setocc o.1 o.2 b x.
Definition ketl (A : spin -> nat -> (fock -> F) -> fock -> F) (l : seq (spin * nat)) x : fock -> F :=
  foldr (fun o phi => if occo o x then A o.1 o.2 phi else phi) (delta vac) l.

Lemma occo_seto o o' b x : occo o (seto o' b x) = if o == o' then b else occo o x.
Proof. by case: o o' => [s i] [t j]; rewrite /occo /seto occ_setocc xpair_eqE. Qed.
Lemma ketl_out A l o b x : o \notin l -> ketl A l (seto o b x) = ketl A l x.
Proof.
elim: l => //= o' l IH; rewrite inE negb_or => /andP [Ho Hl].
by rewrite occo_seto eq_sym (negbTE Ho) IH.
Qed.

(* the sign of orbital o in the list *)
Fixpoint sgl (l : seq (spin * nat)) o x : F :=
  if l is o' :: l' then (if o' == o then 1 else (if occo o' x then -1 else 1) * sgl l' o x) else 1.
Lemma sglE l o x : sgl l o x = sgn F (count (fun o' => occo o' x) (take (index o l) l)).
Proof.
elim: l => //= o' l IH; case: eqP => // _ /=; rewrite IH sgnD; congr (_ * _).
by case: (occo o' x).
Qed.
Lemma sgl_orbs s i x : on_sites L x -> (i < L)%N -> sgl orbs (s, i) x = sgn F (before s i x).
Proof.
move=> [H1 H2] Hi; rewrite sglE; congr (sgn F _).
have T (l : seq bool) n : (n <= size l)%N -> count (nth false l) (iota 0 n) = num (take n l).
  by move=> Hn; rewrite /num -[take n l](mkseq_nth false) size_take_min (minn_idPl Hn) /mkseq count_map;
     apply: eq_in_count => j; rewrite mem_iota add0n /= => Hj; rewrite nth_take.
have I t : index (t, i) [seq (t, i0) | i0 <- iota 0 L] = i.
  rewrite index_map; last by move=> a b [].
  by rewrite -{1}[i]add0n -{1}[i](nth_iota 0 0 Hi) index_uniq ?size_iota ?iota_uniq // nth_iota.
have K t : take i [seq (t, i0) | i0 <- iota 0 L] = [seq (t, i0) | i0 <- iota 0 i].
  by rewrite -map_take take_iota (minn_idPl (ltnW Hi)).
have M t : (t, i) \in [seq (t, i0) | i0 <- iota 0 L] by apply/map_f; rewrite mem_iota.
rewrite /orbs index_cat; case: s.
  by rewrite M I take_cat size_map size_iota Hi K count_map (eq_count (a2 := nth false x.1)) // T // H1 ltnW.
rewrite ifF; last by apply/negP => /mapP [].
rewrite I size_map size_iota take_cat size_map size_iota ltnNge leq_addr /= addKn K count_cat !count_map.
rewrite (eq_count (a2 := nth false x.1)) // [X in (_ + X)%N](eq_count (a2 := nth false x.2)) //.
have Hs : (L <= size x.1)%N by rewrite H1.
have Hd : (i <= size x.2)%N by rewrite H2 ltnW.
by rewrite (T _ _ Hs) (T _ _ Hd) take_oversize // H1.
Qed.

Section Ket.
Variables (U : nat -> nat -> F) (half : F).
Hypotheses (HU : orth U) (Hh : half + half = 1).

Definition inL (l : seq (spin * nat)) := all (fun o => (o.2 < L)%N) l.

Lemma dcr_ketl l o x : uniq l -> o \in l ->
  eqL L (dcr U o.1 o.2 (ketl (dcr U) l x))
        (fun y => if occo o x then 0 else sgl l o x * ketl (dcr U) l (seto o true x) y).
Proof.
elim: l => //= o' l IH /andP [Hn Hu]; rewrite inE => /orP [/eqP E|Ho] y Hy.
  rewrite -E in Hn *; rewrite eqxx occo_seto eqxx ketl_out //.
  by case: (occo o x); rewrite ?mul1r // (dcr_sq _ _ _ _ Hh).
have N : o' == o = false by apply/negP => /eqP E; rewrite E Ho in Hn.
rewrite N occo_seto N.
case: (occo o' x); last by rewrite IH // mul1r.
rewrite dcr_anti // (dcr_ext _ _ _ (IH Hu Ho)) //.
by case: (occo o x); rewrite ?dcr0 ?oppr0 // dcrZ mulN1r mulNr.
Qed.

Lemma dan_vac s p : (p < L)%N -> eqL L (dan U s p (delta vac)) (fun=> 0).
Proof.
move=> Hp y Hy; rewrite /dan big1 // => k _; rewrite (annih_delta _ s (ltn_ord k)) //.
  by rewrite ifF ?mulr0 // /occ; case: s => /=; rewrite nth_nseq; case: ltnP.
by split; rewrite /= size_nseq.
Qed.
Lemma dan_ketl_out l o x : inL l -> (o.2 < L)%N -> o \notin l -> eqL L (dan U o.1 o.2 (ketl (dcr U) l x)) (fun=> 0).
Proof.
elim: l => [_ Ho _|o' l IH /= /andP [Ho' Hl] Ho]; first exact: dan_vac.
rewrite inE negb_or => /andP [/negbTE N Hn] y Hy.
case: (occo o' x); last exact: IH.
rewrite dmix // -!surjective_pairing N mul0r add0r (dcr_ext _ _ _ (IH Hl Ho Hn)) // dcr0; exact: oppr0.
Qed.
Lemma dan_ketl l o x : inL l -> uniq l -> o \in l ->
  eqL L (dan U o.1 o.2 (ketl (dcr U) l x))
        (fun y => if occo o x then sgl l o x * ketl (dcr U) l (seto o false x) y else 0).
Proof.
elim: l => //= o' l IH /andP [Ho' Hl] /andP [Hn Hu]; rewrite inE => /orP [/eqP E|Ho] y Hy.
  rewrite -E in Hn Ho' *; rewrite eqxx occo_seto eqxx ketl_out //.
  case: (occo o x); last by rewrite dan_ketl_out.
  by rewrite dmix // eqxx !mul1r (dcr_ext _ _ _ (dan_ketl_out _ Hl Ho' Hn)) // dcr0 subr0.
have N : o' == o = false by apply/negP => /eqP E; rewrite E Ho in Hn.
have Ho2 : (o.2 < L)%N by move/allP: Hl => /(_ _ Ho).
rewrite N occo_seto N.
case: (occo o' x); last by rewrite IH // mul1r.
rewrite dmix // -!surjective_pairing eq_sym N mul0r add0r (dcr_ext _ _ _ (IH Hl Hu Ho)) //.
by case: (occo o x); rewrite ?dcr0 ?oppr0 // dcrZ mulN1r mulNr.
Qed.

Lemma orbs_uniq : uniq orbs.
Proof.
rewrite /orbs cat_uniq !map_inj_uniq ?iota_uniq /= ?andbT; try by move=> a b [].
by apply/hasPn => o /mapP [i _ ->]; apply/negP => /mapP [].
Qed.
Lemma orbs_in o : (o \in orbs) = (o.2 < L)%N.
Proof.
case: o => [s i]; rewrite /orbs mem_cat; apply/orP/idP.
  by case=> /mapP [j]; rewrite mem_iota => Hj [_ ->].
by move=> /= Hi; case: s; [left | right]; apply/map_f; rewrite mem_iota.
Qed.
Lemma orbs_inL : inL orbs.
Proof. by apply/allP => o; rewrite orbs_in. Qed.

Definition ket x := ketl (dcr U) orbs x.
Lemma dcr_ket s p x : (p < L)%N -> on_sites L x ->
  eqL L (dcr U s p (ket x)) (fun y => if occ s p x then 0 else sgn F (before s p x) * ket (setocc s p true x) y).
Proof.
move=> Hp Hx y Hy; have Ho : (s, p) \in orbs by rewrite orbs_in.
by rewrite (dcr_ketl x orbs_uniq Ho) // sgl_orbs.
Qed.
Lemma dan_ket s p x : (p < L)%N -> on_sites L x ->
  eqL L (dan U s p (ket x)) (fun y => if occ s p x then sgn F (before s p x) * ket (setocc s p false x) y else 0).
Proof.
move=> Hp Hx y Hy; have Ho : (s, p) \in orbs by rewrite orbs_in.
by rewrite (dan_ketl x orbs_inL orbs_uniq Ho) // sgl_orbs.
Qed.

(* the state with amplitudes psi in the rotated orbitals *)
Variable xs : seq fock.
Hypothesis Hxs : all_states L xs.
Definition rot psi : fock -> F := fun y => \sum_(x <- xs) psi x * ket x y.

Lemma rot_ext psi psi' y : eqL L psi psi' -> rot psi y = rot psi' y.
Proof. by move=> H; apply: eq_big_seq => x /(xs_on Hxs) Hx; rewrite H. Qed.
Lemma rot_lin (I : Type) (l : seq I) (P : pred I) (c : I -> F) (phi : I -> fock -> F) y :
  rot (fun x => \sum_(k <- l | P k) c k * phi k x) y = \sum_(k <- l | P k) c k * rot (phi k) y.
Proof.
rewrite /rot; under eq_bigr => x _ do rewrite mulr_suml.
rewrite exchange_big; apply: eq_bigr => k _; rewrite mulr_sumr; apply: eq_bigr => x _; exact/esym/mulrA.
Qed.
Lemma rot_creat s p psi : (p < L)%N -> eqL L (rot (creat s p psi)) (dcr U s p (rot psi)).
Proof.
move=> Hp y Hy; rewrite /rot dcr_lin; apply: esym.
rewrite (bigID (fun x => occ s p x)) /= [X in X + _]big1_seq ?add0r; last first.
  by move=> x /andP [Ox /(xs_on Hxs) Hx]; rewrite dcr_ket // Ox mulr0.
rewrite [RHS](bigID (fun x => occ s p x)) /= [X in _ = _ + X]big1 ?addr0; last first.
  by move=> x /negbTE Ox; rewrite /creat Ox mul0r.
rewrite (flip_sum Hxs _ _ Hp) -!(big_filter xs); apply: eq_big_seq => z; rewrite mem_filter => /andP [/negbTE Oz /(xs_on Hxs) Hz].
rewrite dcr_ket // Oz /creat occ_setocc !eqxx /= (before_self _ _ Hz) // setocc_set.
have -> : setocc s p false z = z by rewrite -{1}Oz setocc_id ?(on_sites_species _ Hz).
by rewrite mulrCA mulrA.
Qed.
Lemma rot_annih s p psi : (p < L)%N -> eqL L (rot (annih s p psi)) (dan U s p (rot psi)).
Proof.
move=> Hp y Hy; rewrite /rot dan_lin; apply: esym.
rewrite (bigID (fun x => occ s p x)) /= [X in _ + X]big1_seq ?addr0; last first.
  by move=> x /andP [/negbTE Ox /(xs_on Hxs) Hx]; rewrite dan_ket // Ox mulr0.
rewrite [RHS](bigID (fun x => occ s p x)) /= [X in _ = X + _]big1 ?add0r; last first.
  by move=> x Ox; rewrite /annih Ox mul0r.
rewrite (flip_sum Hxs _ _ Hp) -!(big_filter xs); apply: eq_big_seq => z; rewrite mem_filter => /andP [/negbTE Oz /(xs_on Hxs) Hz].
have Hz' : on_sites L (setocc s p true z) by apply: on_sites_setocc.
rewrite dan_ket // /annih Oz occ_setocc !eqxx /= (before_self _ _ Hz) // setocc_set.
have -> : setocc s p false z = z by rewrite -{1}Oz setocc_id ?(on_sites_species _ Hz).
by rewrite mulrCA mulrA.
Qed.
End Ket.
End Rot.
