(* C108: the reference states of H2O.py. *)
From Verif Require Import Base Fock_Spec Occ_Model Occ_Spec AbInitioOtf_Model Elec_Model Elec_Props Update_Proto QGPS_Model QGPS_Props
  Slater_Model Slater_Pos Slater_Props Pfaff_Spec Pfaff_Model Pfaff_Proofs Pfaff_Props Backflow_Model Backflow_Props Fast_Props H2O_Ref_Model.
From Coq Require Import FunctionalExtensionality.
Import Num.Theory Order.TTheory.
Local Open Scope ring_scope.

Section Update.
Variables (F : fieldType) (R : realFieldType) (absv : F -> R) (expf : F -> F).
Variables (norb n M : nat) (eps : nat -> nat -> nat -> F) (s : symset).
Hypothesis Hs : if sy_perms s is Some ps then all (fun p => perm_eq p (iota 0 norb)) ps else true.

(* evaluating PfaffianqGPS from the cache of x and an update list is evaluating it at the updated
   configuration: value, nan and cache, for any chain of updates *)
Variables (f : nat -> nat -> F) (rots : seq (F * F * F)).
Local Notation pfull := (pfaffian_qgps_full absv expf norb n M eps s f rots).
Local Notation pfast := (pfaffian_qgps_fast absv expf norb n M eps s f rots).
Theorem C108_pfaffian_qgps_update x y sites occs : size x = norb -> nonvanishing eps M s x ->
  denotes x y sites occs -> pfast (pfull x).2 occs sites = pfull y.
Proof.
move=> Hx Hn Hd; rewrite /pfaffian_qgps_fast /pfaffian_qgps_full; cbn [fst snd pfaffian_qgps].
by rewrite (C32_qgps_fast_update Hs Hx Hn Hd) /full_x (denotes_write Hd).
Qed.
Fixpoint chain_of (x : seq nat) (us : seq (seq nat * (seq nat * seq nat))) : Prop :=
  if us is u :: us' then [/\ nonvanishing eps M s x, denotes x u.1 u.2.1 u.2.2 & chain_of u.1 us'] else True.
Theorem C108_pfaffian_qgps_chain x us : size x = norb -> chain_of x us ->
  foldl (fun r u => pfast r.2 u.2.2 u.2.1) (pfull x) us = pfull (last x (map fst us)).
Proof.
elim: us x => [//|[y [sites occs]] us IH] x Hx [/= H1 H2 H3]; rewrite -IH //; last by case: H2 => ->.
by congr foldl; exact: C108_pfaffian_qgps_update.
Qed.

(* and for SlaterqGPS with its switch *)
Variables (blocked constant_time : bool) (cs : seq (component F (n + n))) (chi : seq F).
Hypothesis Hcs : wf_comps norb blocked cs.
Local Notation sfull := (slater_m_full expf norb M eps s blocked constant_time cs chi).
Local Notation sfast := (slater_m_fast expf norb M eps s constant_time cs chi).
Theorem C108_slater_qgps_update x y sites occs : regular norb cs eps M s x -> in_sector norb n n y ->
  denotes x y sites occs -> (sfast (sfull x).2 occs sites).1 = (sfull y).1.
Proof.
case=> Hx Hu Hn Hy Hd.
have HxL : size x = norb by case: Hx.
have [E1 E2] := C37_slater_fast_update constant_time chi Hx Hy Hd Hcs Hu.
have A : slater_amplitude chi (slater_fast norb constant_time cs (slater_full norb blocked constant_time cs x) occs sites)
  = slater_amplitude chi (slater_full norb blocked constant_time cs y).
  have H1 (T : Type) (g : T -> F) l : \sum_(p <- zip chi l) p.1 * g p.2 = \sum_(p <- zip chi (map g l)) p.1 * p.2.
    elim: l chi => [|a l IH] [|b l']; rewrite ?big_nil //; last by rewrite /= !big_cons IH.
  by rewrite /slater_amplitude !(H1 _ (@cc_det F n n)) E1 C37_slater_full_evaluation.
rewrite /slater_m_fast /slater_m_full /slater_m.
have -> : (if M == 0%N then (slater_amplitude chi (slater_full norb blocked constant_time cs x), (slater_full norb blocked constant_time cs x, qgps_full eps M s x))
   else slater_qgps expf chi (slater_full norb blocked constant_time cs x, qgps_full eps M s x)).2
  = (slater_full norb blocked constant_time cs x, qgps_full eps M s x) by case: ifP.
cbn [fst snd]; case: ifP => _; cbn [fst]; first exact: A.
by rewrite /slater_qgps; cbn [fst snd]; rewrite A (C32_qgps_fast_update Hs HxL Hn Hd).
Qed.
End Update.

(* the occupied sites of a configuration, in increasing order *)
Definition occ_sites (sp : spin) (x : seq nat) : seq nat := [seq k <- iota 0 (size x) | has_spin sp (nth 0%N x k)].
(* Hartree-Fock amplitude: the product of the minors of phi over the up and the down sites *)
Definition hf_amplitude (F : fieldType) (n : nat) (phi : nat -> nat -> F) (x : seq nat) : F :=
  \det (\matrix_(i < n, k < n) phi (nth 0%N (occ_sites Up x) i) k) * \det (\matrix_(i < n, k < n) phi (nth 0%N (occ_sites Dn x) i) k).

Section States.
Variables (F : fieldType) (R : realFieldType) (absv : F -> R).
Hypothesis Habs : is_abs absv.
Variables (norb n : nat) (phi : nat -> nat -> F).
Add Ring RF : (r_theory (GRing.Field.comRingType F)).

Lemma electrons_plist x : in_sector norb n n x -> electrons norb n x = plist norb x.
Proof.
case=> Hsz Hv Hu Hd; rewrite /electrons.
have Hsec y : y \in [:: x] -> valid y /\ n_spin Up y = n /\ n_spin Dn y = n by rewrite inE => /eqP ->.
rewrite (@row_lemma [:: x] n n 0%N Hsec isT) plist_split /= Hsz.
set us := [seq k <- _ | has_spin Up _]; set ds := [seq k <- _ | has_spin Dn _].
have Su : size us = n by rewrite /us -Hsz (size_iota_filter (has_spin Up)).
apply: (@eq_from_nth _ 0%N) => [|k]; rewrite size_map size_iota size_cat Su ?size_cat ?size_map ?Su // => Hk.
rewrite (nth_map 0%N) ?size_iota ?size_cat ?Su // nth_iota ?size_cat ?Su // add0n !nth_cat Su.
by case: ltnP => // Hnk; rewrite (nth_map 0%N) //; lia.
Qed.

(* the orbitals after a spin rotation, by numbers *)
Definition V (ca sa : F) (p k : nat) : F :=
  if (p < norb)%N then if (k < n)%N then ca * phi p k else - (sa * phi p (k - n)%N)
  else if (k < n)%N then sa * phi (p - norb)%N k else ca * phi (p - norb)%N (k - n)%N.
Definition J (k l : nat) : F := ((k < n)%N && (l == k + n)%N)%:R - ((l < n)%N && (k == l + n)%N)%:R.

Lemma sum_double (G : nat -> F) : \sum_(k < n.*2) G k = \sum_(k < n) G k + \sum_(k < n) G (k + n)%N.
Proof.
rewrite -addnn big_split_ord /=; congr (_ + _); apply: eq_bigr => k _; by rewrite addnC.
Qed.

Lemma sum_pick (G : nat -> F) m (a : nat) : (a < m)%N -> \sum_(k < m) (k == a :> nat)%:R * G k = G a.
Proof.
move=> Ha; rewrite (bigD1 (Ordinal Ha)) //= eqxx mul1r big1 ?addr0 // => k Hk.
by rewrite -[_ == a]/(k == Ordinal Ha) (negbTE Hk) mul0r.
Qed.

Lemma J_congruent (S : nat -> nat -> F) i j :
  congruent n.*2 S J i j = \sum_(k < n) S i k * S j (k + n)%N - \sum_(k < n) S i (k + n)%N * S j k.
Proof.
rewrite /congruent.
have E k : \sum_(l < n.*2) S i k * J k l * S j l
  = S i k * (\sum_(l < n.*2) ((k < n)%N && (l == k + n :> nat)%N)%:R * S j l - \sum_(l < n.*2) ((l < n)%N && (k == l + n)%N)%:R * S j l).
  by rewrite -sumrB mulr_sumr; apply: eq_bigr => l _; rewrite /J; mring (GRing.Field.comRingType F).
under eq_bigr => k _ do rewrite (E k).
rewrite (sum_double (fun k => S i k * (\sum_(l < n.*2) ((k < n)%N && (l == k + n :> nat)%N)%:R * S j l - \sum_(l < n.*2) ((l < n)%N && (k == l + n :> nat)%N)%:R * S j l))).
rewrite -sumrN; congr (_ + _); apply: eq_bigr => k _; have Hk := ltn_ord k.
  rewrite Hk /= (sum_pick (S j)); last by lia.
  rewrite big1 ?subr0 // => l _; case: eqP => [|_]; last by rewrite andbF mul0r.
  by move=> H; lia.
rewrite big1; last by move=> l _; rewrite ltnNge leq_addl mul0r.
rewrite sub0r mulrN; congr (- (_ * _)).
rewrite -[RHS](sum_pick (S j) (m := n.*2)); last by lia.
apply: eq_bigr => l _; congr ((_ : bool)%:R * _); rewrite eqn_add2r eq_sym.
by case: eqP => [->|_]; rewrite ?Hk ?andbF.
Qed.

Lemma J_skew : skew n.*2 J.
Proof. by split=> *; rewrite /J ?opprB ?subrr. Qed.

Lemma pf_J : pf J n (iota 0 n.*2) = (-1) ^+ 'C(n, 2).
Proof.
rewrite -addnn iotaD pf_bipartite ?size_iota //; last first.
  by move=> u v; rewrite !mem_iota !add0n /= /J => Hu Hv; rewrite Hu Hv /= !ltn_eqF ?subrr //; lia.
rewrite (_ : \matrix_(i, j) _ = 1%:M) ?det1 ?mulr1 //; apply/matrixP => i j; rewrite !mxE !nth_iota //.
have := ltn_ord i; have := ltn_ord j => Hj Hi.
rewrite /J !add0n Hi ltnNge leq_addr /= subr0 [(n + j)%N]addnC eqn_add2r eq_sym //.
Qed.

Lemma rotated_V ca sa p q : (p < 2 * norb)%N -> (q < 2 * norb)%N ->
  rotated_F norb (pfaffian_init n phi) ca sa p q = \sum_(k < n) V ca sa p k * V ca sa q (k + n)%N.
Proof.
move=> Hp Hq; rewrite /rotated_F /pfaffian_init /V.
have Mo r : (r < 2 * norb)%N -> (r %% norb = if (r < norb)%N then r else (r - norb)%N)%N.
  move=> Hr; case: ltnP => H; first by rewrite modn_small.
  by rewrite -{1}(subnK H) modnDr modn_small //; lia.
rewrite !Mo //.
by case: (ltnP p norb) => Hpn; case: (ltnP q norb) => Hqn; rewrite ?mulNr !mulr_suml -?sumrN; apply: eq_bigr => k _;
  rewrite ltn_ord ltnNge leq_addl /= addnK; mring (GRing.Field.comRingType F).
Qed.

Lemma det_cast m m' (G : nat -> nat -> F) : m = m' -> \det (\matrix_(i < m, j < m) G i j) = \det (\matrix_(i < m', j < m') G i j).
Proof. by move=> ->. Qed.

Lemma rotated_pf ca sa y : size y = n.*2 -> all (fun p => p < 2 * norb)%N y ->
  pf (fun p q => rotated_F norb (pfaffian_init n phi) ca sa p q - rotated_F norb (pfaffian_init n phi) ca sa q p) n y
  = (-1) ^+ 'C(n, 2) * \det (\matrix_(i < n.*2, k < n.*2) V ca sa (nth 0%N y i) k).
Proof.
move=> Hy Ay.
rewrite -{1}[y](mkseq_nth 0%N) /mkseq Hy pf_map.
rewrite (@eq_pf _ _ _ (congruent n.*2 (fun i k => V ca sa (nth 0%N y i) k) J)); last first.
  move=> i j; rewrite !mem_iota !add0n /= => Hi Hj.
  have B k : (k < n.*2)%N -> (nth 0%N y k < 2 * norb)%N by move=> Hk; apply: (allP Ay); rewrite mem_nth // Hy.
  rewrite J_congruent !rotated_V ?B //; congr (_ - _).
  by apply: eq_bigr => k _; rewrite mulrC.
by rewrite pf_congruent ?pf_J 1?mulrC //; exact: J_skew.
Qed.

Definition refdet (r : F * F * F) (x : seq nat) : F := \det (\matrix_(i < n.*2, k < n.*2) V r.1.1 r.1.2 (nth 0%N (plist norb x) i) k).

Lemma plist_lt x : all (fun p => p < 2 * norb)%N (plist norb x).
Proof. by apply/allP => p; rewrite mem_plist => /andP[]. Qed.

Lemma block_entry p (j : 'I_(n + n)) : block_U norb (slater_init n phi) (slater_init n phi) p 0 j
  = if (p < norb)%N then if (j < n)%N then phi p j else 0 else if (j < n)%N then 0 else phi (p - norb)%N (j - n)%N.
Proof.
by rewrite /block_U; case: ifP => _; rewrite mxE; case: splitP => k E; rewrite mxE ?E ?addKn.
Qed.
Lemma rotation_entry ca sa p (j : 'I_(n + n)) : (p < 2 * norb)%N ->
  apply_rotation norb ca sa (block_U norb (slater_init n phi) (slater_init n phi)) p 0 j = V ca sa p j.
Proof.
move=> Hp; rewrite /apply_rotation /V; case: (ltnP p norb) => Hpn; rewrite !mxE !block_entry.
  have -> : (p + norb < norb)%N = false by lia.
  by rewrite Hpn addnK; case: ltnP => _; mring (GRing.Field.comRingType F).
have -> : (p - norb < norb)%N by lia.
have -> : (p < norb)%N = false by lia.
by case: ltnP => _; mring (GRing.Field.comRingType F).
Qed.

Lemma refdetE c ca sa w x : in_sector norb n n x ->
  (forall p (j : 'I_(n + n)), (p < 2 * norb)%N -> orbital norb c p 0 j = V ca sa p j) ->
  \det (orbital_matrix norb c x) = refdet (ca, sa, w) x.
Proof.
move=> Hx H; rewrite /refdet /=; transitivity (\det (\matrix_(i < n + n, k < n + n) V ca sa (nth 0%N (plist norb x) i) k)).
  congr (\det _); apply/matrixP => i j; rewrite !mxE H //.
  by apply: (allP (plist_lt x)); rewrite mem_nth // (size_plist Hx).
exact: (det_cast (fun i k => V ca sa (nth 0%N (plist norb x) i) k) (addnn n)).
Qed.

Lemma amplitude_sum (chi : seq F) (l : seq (comp_cache F n n)) : \sum_(p <- zip chi l) p.1 * cc_det p.2
  = \sum_(p <- zip chi (map (@cc_det F n n) l)) p.1 * p.2.
Proof. by elim: l chi => [|a l IH] [|b l']; rewrite ?big_nil //; last by rewrite /= !big_cons IH. Qed.

Lemma orb_id U p : orbital norb (Component U id : component F (n + n)) p = U p.
Proof. by rewrite /orbital /=; case: ltnP => // H; rewrite subnK. Qed.

Lemma ref2_det ct rots x : in_sector norb n n x ->
  slater_amplitude [seq r.2 | r <- rots] (slater_full norb false ct (ref2 norb n phi rots) x)
  = \sum_(r <- rots) r.2 * refdet r x.
Proof.
move=> Hx.
rewrite /slater_amplitude amplitude_sum C37_slater_full_evaluation //; last first.
  move=> k c0; rewrite size_map => Hk; split=> // i Hi.
  by rewrite (nth_map (0, 0, 0)).
elim: rots => [|[[ca sa] w] rots IH]; first by rewrite !big_nil.
rewrite /= !big_cons IH; congr (_ * _ + _); apply: refdetE => // p j Hp.
by rewrite orb_id rotation_entry.
Qed.

(* one rotation: the Pfaffian is the determinant of the rotated orbitals up to the ordering sign *)
Lemma pfaffian_rotation r x a : in_sector norb n n x ->
  amplitude absv (rotated_F norb (pfaffian_init n phi) r.1.1 r.1.2) (electrons norb n x) = Some a ->
  a = (-1) ^+ 'C(n, 2) * refdet r x.
Proof.
move=> Hx; rewrite electrons_plist // => E.
have Hsz : size (plist norb x) = n.*2 by rewrite (size_plist Hx) addnn.
by rewrite (amplitude_pf Habs Hsz E) rotated_pf // plist_lt.
Qed.
Lemma pfaffian_finite r x : in_sector norb n n x -> refdet r x != 0 ->
  exists a, amplitude absv (rotated_F norb (pfaffian_init n phi) r.1.1 r.1.2) (electrons norb n x) = Some a.
Proof.
move=> Hx Hd; rewrite electrons_plist //.
have Hsz : size (plist norb x) = n.*2 by rewrite (size_plist Hx) addnn.
set Fm := rotated_F _ _ _ _; rewrite /amplitude Hsz.
have Hsk := occ_skew Fm (plist norb x) n.*2.
have [|-> _] := C39_log_pfaffian_partial Habs Hsk; last by eexists.
rewrite -(pf_sq Hsk) expf_neq0 // -(pf_map (fun p q => Fm p q - Fm q p) (nth 0%N (plist norb x))).
rewrite -Hsz map_nth_iota0 // take_size rotated_pf //; last exact: plist_lt.
by rewrite mulf_neq0 // signr_eq0.
Qed.

(* any S2 projection (any list of rotations with characters): the projected Pfaffian of
   pfaffian_init is, up to one sign common to all configurations, the projected Slater determinant
   of slater_init *)
Theorem C108_projected_partial ct rots x a : in_sector norb n n x ->
  zero_mag_pfaffian absv norb (pfaffian_init n phi) rots [:: electrons norb n x] = Some a ->
  a = (-1) ^+ 'C(n, 2) * slater_amplitude [seq r.2 | r <- rots] (slater_full norb false ct (ref2 norb n phi rots) x).
Proof.
move=> Hx; rewrite ref2_det //; elim: rots a => [|[[ca sa] w] rots IH] a.
  by rewrite big_nil mulr0 => -[<-].
rewrite /zero_mag_pfaffian /= -/(zero_mag_pfaffian absv norb (pfaffian_init n phi) rots [:: electrons norb n x]).
rewrite -/(amplitude _ _ _).
case E: (amplitude _ _ _) => [b|] //=.
case E2: (zero_mag_pfaffian _ _ _ _ _) => [c|] //= -[<-].
rewrite big_cons (IH _ E2) (@pfaffian_rotation (ca, sa, w) x b Hx E) /=.
mring (GRing.Field.comRingType F).
Qed.

(* the value is a number where none of the rotated determinants vanishes *)
Theorem C108_projected ct rots x : in_sector norb n n x -> nonsingular norb (ref2 norb n phi rots) x ->
  zero_mag_pfaffian absv norb (pfaffian_init n phi) rots [:: electrons norb n x]
  = Some ((-1) ^+ 'C(n, 2) * slater_amplitude [seq r.2 | r <- rots] (slater_full norb false ct (ref2 norb n phi rots) x)).
Proof.
move=> Hx Hns.
have [a E] : exists a, zero_mag_pfaffian absv norb (pfaffian_init n phi) rots [:: electrons norb n x] = Some a.
  elim: rots Hns => [|[[ca sa] w] rots IH] Hns; first by exists 0.
  rewrite /zero_mag_pfaffian /= -/(zero_mag_pfaffian absv norb (pfaffian_init n phi) rots [:: electrons norb n x]) -/(amplitude _ _ _).
  have [|c ->] := IH; first by move=> k c0 Hk; exact: (Hns k.+1 c0 Hk).
  have Hd : refdet (ca, sa, w) x != 0.
    have := Hns 0%N (ref1 norb n phi) isT; rewrite /= unitmxE unitfE (@refdetE _ ca sa w) // => p j Hp.
    by rewrite orb_id rotation_entry.
  by have [b ->] := pfaffian_finite Hx Hd; eexists.
by rewrite E; congr Some; exact: C108_projected_partial E.
Qed.

(* the unrotated orbitals *)
Lemma sector_split x i : in_sector norb n n x -> (i < n)%N ->
  nth 0%N (plist norb x) i = nth 0%N (occ_sites Up x) i /\ (nth 0%N (occ_sites Up x) i < norb)%N /\
  nth 0%N (plist norb x) (n + i) = (nth 0%N (occ_sites Dn x) i + norb)%N.
Proof.
case=> Hsz Hv Hu Hd Hi; rewrite plist_split /occ_sites Hsz.
have Su : size [seq k <- iota 0 norb | has_spin Up (nth 0%N x k)] = n by rewrite -Hsz (size_iota_filter (has_spin Up)).
have Sd : size [seq k <- iota 0 norb | has_spin Dn (nth 0%N x k)] = n by rewrite -Hsz (size_iota_filter (has_spin Dn)).
rewrite !nth_cat Su Hi (_ : (n + i < n)%N = false) /=; last by lia.
rewrite addKn (nth_map 0%N) ?Sd //; split=> //; split=> //.
have : nth 0%N [seq k <- iota 0 norb | has_spin Up (nth 0%N x k)] i \in [seq k <- iota 0 norb | has_spin Up (nth 0%N x k)] by rewrite mem_nth // Su.
by rewrite mem_filter mem_iota => /and3P[].
Qed.

Lemma block_det c x : in_sector norb n n x ->
  (forall p (j : 'I_(n + n)), (p < 2 * norb)%N -> orbital norb c p 0 j = block_U norb (slater_init n phi) (slater_init n phi) p 0 j) ->
  \det (orbital_matrix norb c x) = hf_amplitude n phi x.
Proof.
move=> Hx H; rewrite block_zero.
  rewrite /hf_amplitude; congr (_ * _); congr (\det _); apply/matrixP => i j; rewrite !mxE.
    have [E1 [E2 E3]] := sector_split Hx (ltn_ord i).
    rewrite /= E1 H ?block_entry /= ?E2 ?ltn_ord //; lia.
  have [E1 [E2 E3]] := sector_split Hx (ltn_ord i).
  rewrite /= E3 H ?block_entry /=; last first.
    by rewrite -E3; apply: (allP (plist_lt x)); rewrite mem_nth // (size_plist Hx) ltn_add2l.
  by rewrite !ltnNge leq_addl leq_addr /= addnK addKn.
apply/matrixP => i j; rewrite !mxE.
have [E1 [E2 E3]] := sector_split Hx (ltn_ord i).
rewrite /= E1 H ?block_entry /= ?E2; last by lia.
by rewrite ltnNge leq_addr.
Qed.

(* reference states 1 and 5 are the Hartree-Fock determinant *)
Theorem C108_slater_reference ct x : in_sector norb n n x ->
  slater_amplitude [:: 1] (slater_full norb true ct [:: ref1 norb n phi] x) = hf_amplitude n phi x
  /\ slater_amplitude [:: 1] (slater_full norb false ct [:: ref5 norb n phi] x) = hf_amplitude n phi x.
Proof.
move=> Hx; split; rewrite /slater_amplitude amplitude_sum C37_slater_full_evaluation //.
- rewrite /= big_cons big_nil addr0 mul1r; apply: block_det => // p j Hp; by rewrite orb_id.
- case=> // c0 _; split=> //= _; by exists (slater_init n phi), (slater_init n phi).
- rewrite /= big_cons big_nil addr0 mul1r; apply: block_det => // p j Hp; by rewrite orb_id block_entry mxE.
by case=> // c0 _; split.
Qed.

(* reference state 3, where the determinant does not vanish *)
Theorem C108_pfaffian_reference x : in_sector norb n n x -> hf_amplitude n phi x != 0 ->
  zero_mag_pfaffian absv norb (pfaffian_init n phi) [:: (1, 0, 1)] [:: electrons norb n x]
  = Some ((-1) ^+ 'C(n, 2) * hf_amplitude n phi x).
Proof.
move=> Hx Hd.
have E : \det (orbital_matrix norb (nth (ref1 norb n phi) (ref2 norb n phi [:: (1, 0, 1)]) 0) x) = hf_amplitude n phi x.
  apply: block_det => // p j Hp; rewrite orb_id /= rotation_entry // block_entry /V.
  by case: ifP => _; case: ifP => _; rewrite ?mul1r ?mul0r ?oppr0.
rewrite (@C108_projected true) //; last by case=> // c0 _; rewrite unitmxE unitfE E.
congr Some; congr (_ * _); rewrite ref2_det // big_cons big_nil addr0 mul1r -E; symmetry.
apply: refdetE => // p j Hp; by rewrite orb_id rotation_entry.
Qed.

(* the models of the script started from these parameters: the Hartree-Fock state, times the exponential
   of the qGPS for M > 0, for the Pfaffian up to a sign *)
Theorem C108_amplitudes (expf : F -> F) M (eps : nat -> nat -> nat -> F) s ct x : in_sector norb n n x -> hf_amplitude n phi x != 0 ->
  let correl := if M is 0%N then 1 else expf (\sum_(y <- sym_copies s x) \sum_(m < M) \prod_(i < size y) eps (nth 0%N y i) m i) in
  (pfaffian_qgps_full absv expf norb n M eps s (pfaffian_init n phi) [:: (1, 0, 1)] x).1
    = Some ((-1) ^+ 'C(n, 2) * hf_amplitude n phi x * correl)
  /\ (slater_m_full expf norb M eps s true ct [:: ref1 norb n phi] [:: 1] x).1 = hf_amplitude n phi x * correl.
Proof.
move=> Hx Hd correl.
have Hq : default_out (ca_prod (qgps_full eps M s x)) = \sum_(y <- sym_copies s x) \sum_(m < M) \prod_(i < size y) eps (nth 0%N y i) m i.
  rewrite /default_out /= /get_site_prod big_map; apply: eq_bigr => y _.
  by rewrite /site_prod big_map -(big_mkord predT (fun m => \prod_(i < size y) eps (nth 0%N y i) m i)) /index_iota subn0.
have [H1 _] := C108_slater_reference ct Hx.
rewrite /pfaffian_qgps_full /pfaffian_qgps /slater_m_full /slater_m C108_pfaffian_reference // Hq /correl /slater_qgps Hq /=.
by case: M {Hq correl} => [|M']; rewrite ?mulr1 /= H1.
Qed.

(* spin rotations: the closed-shell determinant is a singlet *)
Definition im (i : nat) : nat := if (i < n)%N then i else (i - n)%N.
Definition K (ca sa : F) (i k : nat) : F :=
  if (k < n)%N then (k == im i)%:R * (if (i < n)%N then ca else sa)
  else ((k - n)%N == im i)%:R * (if (i < n)%N then - sa else ca).

Lemma rotation_det ca sa : ca ^+ 2 + sa ^+ 2 = 1 -> \det (\matrix_(i < n.*2, j < n.*2) K ca sa i j) = 1.
Proof.
move=> H1; have H := pf_congruent (K ca sa) J_skew.
rewrite (@eq_pf _ _ _ J) in H; last first.
  move=> i j; rewrite !mem_iota !add0n /= => Hi Hj; rewrite J_congruent.
  have Hm i' : (i' < n.*2)%N -> (im i' < n)%N by move=> Hi'; rewrite /im; case: (ltnP i' n) => // *; lia.
  have D a b (c d : F) : (a < n)%N -> \sum_(k < n) ((k == a :> nat)%:R * c) * ((k == b :> nat)%:R * d) = (a == b)%:R * (c * d).
    move=> Ha; rewrite -[RHS](sum_pick (fun k => (k == b)%:R * (c * d)) Ha); apply: eq_bigr => k _.
    by mring (GRing.Field.comRingType F).
  have E1 (k : 'I_n) i' : K ca sa i' k = (k == im i' :> nat)%:R * (if (i' < n)%N then ca else sa) by rewrite /K ltn_ord.
  have E2 (k : 'I_n) i' : K ca sa i' (k + n)%N = (k == im i' :> nat)%:R * (if (i' < n)%N then - sa else ca).
    by rewrite /K ltnNge leq_addl /= addnK.
  under eq_bigr => k _ do rewrite E1 E2.
  under [X in _ - X]eq_bigr => k _ do rewrite E1 E2.
  rewrite !D ?Hm // -mulrBr /J /im.
  case: (ltnP i n) => Hin; case: (ltnP j n) => Hjn /=.
  - rewrite !(@ltn_eqF _ (_ + n)%N) ?subrr; try lia.
    by mring (GRing.Field.comRingType F).
  - rewrite subr0 mulNr opprK -!expr2 H1 mulr1; congr ((_ : bool)%:R).
    by apply/eqP/eqP => E; lia.
  - rewrite mulrN -opprD -!expr2 addrC H1 mulrN1 add0r; congr (- (_ : bool)%:R).
    by apply/eqP/eqP => E; lia.
  by rewrite [sa * ca]mulrC !subrr mulr0.
have N0 : pf J n (iota 0 n.*2) != 0 by rewrite pf_J signr_eq0.
by apply: (mulIf N0); rewrite -H mul1r.
Qed.

Lemma refdet_rotation ca sa w x : ca ^+ 2 + sa ^+ 2 = 1 -> refdet (ca, sa, w) x = refdet (1, 0, w) x.
Proof.
move=> H1; rewrite /refdet /= -[RHS]mulr1 -[X in _ = _ * X](rotation_det H1) -det_mulmx; congr (\det _).
apply/matrixP => i j; rewrite !mxE.
under eq_bigr => l _ do rewrite !mxE.
set p := nth _ _ _; rewrite (sum_double (fun l => V 1 0 p l * K ca sa l j)).
have E1 (l : 'I_n) : V 1 0 p l * K ca sa l j = (if (p < norb)%N then phi p l else 0) * ((if (j < n)%N then j : nat else (j - n)%N) == l)%:R * (if (j < n)%N then ca else - sa).
  by rewrite /V /K /im ltn_ord; case: ifP => _; case: ifP => _; mring (GRing.Field.comRingType F).
have E2 (l : 'I_n) : V 1 0 p (l + n)%N * K ca sa (l + n)%N j = (if (p < norb)%N then 0 else phi (p - norb)%N l) * ((if (j < n)%N then j : nat else (j - n)%N) == l)%:R * (if (j < n)%N then sa else ca).
  have H0 : (l + n < n)%N = false by lia.
  by rewrite /V /K /im H0 addnK; case: ifP => _; case: ifP => _; mring (GRing.Field.comRingType F).
under eq_bigr => l _ do rewrite E1.
under [X in _ + X]eq_bigr => l _ do rewrite E2.
have Hj := ltn_ord j.
have Hjm : ((if (j < n)%N then j : nat else (j - n)%N) < n)%N by case: (ltnP j n) => // *; lia.
have P (G : nat -> F) c : \sum_(l < n) G l * ((if (j < n)%N then j : nat else (j - n)%N) == l)%:R * c = G (if (j < n)%N then j : nat else (j - n)%N) * c.
  rewrite -(sum_pick (fun l => G l * c) Hjm); apply: eq_bigr => l _.
  by rewrite eq_sym; mring (GRing.Field.comRingType F).
rewrite (P (fun l => if (p < norb)%N then phi p l else 0)) (P (fun l => if (p < norb)%N then 0 else phi (p - norb)%N l)).
by rewrite /V; case: ifP => _; case: ifP => _; mring (GRing.Field.comRingType F).
Qed.

Lemma refdet_hf w x : in_sector norb n n x -> refdet (1, 0, w) x = hf_amplitude n phi x.
Proof.
move=> Hx; rewrite -(block_det (c := ref1 norb n phi) Hx) => [|p j Hp]; last by rewrite orb_id.
symmetry; apply: refdetE => // p j Hp; rewrite orb_id block_entry /V.
by case: ifP => _; case: ifP => _; rewrite ?mul1r ?mul0r ?oppr0.
Qed.

(* whatever the quadrature of the projection, reference states 2 and 4 are the Hartree-Fock
   determinant times the sum of the characters (and the sign) *)
Theorem C108_projection_trivial ct rots x : in_sector norb n n x -> all (fun r => r.1.1 ^+ 2 + r.1.2 ^+ 2 == 1) rots ->
  slater_amplitude [seq r.2 | r <- rots] (slater_full norb false ct (ref2 norb n phi rots) x)
  = (\sum_(r <- rots) r.2) * hf_amplitude n phi x
  /\ (hf_amplitude n phi x != 0 ->
      zero_mag_pfaffian absv norb (pfaffian_init n phi) rots [:: electrons norb n x]
      = Some ((-1) ^+ 'C(n, 2) * (\sum_(r <- rots) r.2) * hf_amplitude n phi x)).
Proof.
move=> Hx Hr.
have E r : r \in rots -> refdet r x = hf_amplitude n phi x.
  by case: r => [[ca sa] w] Hin; have /eqP /= H1 := allP Hr _ Hin; rewrite (refdet_rotation _ _ H1) refdet_hf.
have Es : slater_amplitude [seq r.2 | r <- rots] (slater_full norb false ct (ref2 norb n phi rots) x)
  = (\sum_(r <- rots) r.2) * hf_amplitude n phi x.
  by rewrite ref2_det // mulr_suml; apply: eq_big_seq => r Hin; rewrite E.
split=> // Hd; rewrite (@C108_projected ct) // ?Es ?mulrA // => k c0; rewrite size_map => Hk.
rewrite (nth_map (0, 0, 0)) // unitmxE unitfE.
have := E _ (mem_nth (0, 0, 0) Hk); case: (nth _ _ _) => [[ca sa] w] E1.
rewrite (@refdetE _ ca sa w) ?E1 // => p j Hp; by rewrite orb_id rotation_entry.
Qed.
End States.

(* with any reading [val] of the amplitudes as numbers, the local energies of the script through the
   cache are those without it *)
Theorem C108_pfaffian_energies (F : fieldType) (R : realFieldType) (absv : F -> R) expf norb n M eps s f rots (val : entry F -> F) x :
  let full := pfaffian_qgps_full absv expf norb n M eps s f rots in
  let fast := pfaffian_qgps_fast absv expf norb n M eps s f rots in
  (if sy_perms s is Some ps then all (fun p => perm_eq p (iota 0 norb)) ps else true) ->
  size x = norb -> valid x -> nonvanishing eps M s x -> val (full x).1 != 0 ->
  same_energies (fun occs sites => val (fast (full x).2 occs sites).1) (fun y => val (full y).1) x.
Proof.
move=> full fast Hs Hx Hv Hn Hp; apply: C89_contract_suffices => // y sites occs Hd _ _.
by rewrite /fast /full (C108_pfaffian_qgps_update absv expf n Hs f rots Hx Hn Hd).
Qed.

(* where the Hartree-Fock amplitude is zero the Pfaffian reference can be nan, the Slater reference is zero *)
Theorem C108_nan_refuted : exists (phi : nat -> nat -> rat) (x : seq nat),
  [/\ forall k l, (k < 2)%N -> (l < 2)%N -> \sum_(i < 3) phi i k * phi i l = (k == l)%:R,
      in_sector 3 2 2 x,
      slater_amplitude [:: 1] (slater_full 3 true true [:: ref1 3 2 phi] x) = 0 &
      zero_mag_pfaffian (fun q : rat => `|q|) 3 (pfaffian_init 2 phi) [:: (1, 0, 1)] [:: electrons 3 2 x] = None].
Proof.
pose phi (i k : nat) : rat := (i == k.+1)%:R.
exists phi, [:: 3; 3; 0]%N; split.
- by move=> [|[|k]] [|[|l]] // _ _; rewrite !big_ord_recl big_ord0; apply/eqP; vm_compute.
- by split.
- have [] // := @C108_slater_reference rat_fieldType 3 2 phi true [:: 3; 3; 0]%N; move=> -> _; rewrite /hf_amplitude.
  have -> : \det (\matrix_(i < 2, k < 2) phi (nth 0%N (occ_sites Up [:: 3; 3; 0]%N) i) k) = 0; last by rewrite mul0r.
  by rewrite (expand_det_row _ 0) !big_ord_recl big_ord0 !mxE /= !mul0r !addr0.
have E : pfaffian_init 2 phi =2 (fun i j => phi i 0%N * phi j 0%N + phi i 1%N * phi j 1%N).
  by move=> i j; rewrite /pfaffian_init !big_ord_recl big_ord0 addr0.
have -> : pfaffian_init 2 phi = (fun i j => phi i 0%N * phi j 0%N + phi i 1%N * phi j 1%N).
  by apply: functional_extensionality => i; apply: functional_extensionality => j; apply: E.
by vm_compute.
Qed.

Example C108_example :
  let phi i j : rat := nth 0 (nth [::] [:: [:: 1; 2%:R]; [:: 0; 1]; [:: 1; 1]] i) j in
  let x := [:: 3; 1; 2]%N in
  [/\ in_sector 3 2 2 x, hf_amplitude 2 phi x = -1 &
   zero_mag_pfaffian (fun q : rat => `|q|) 3 (pfaffian_init 2 phi) [:: (3%:R / 5%:R, 4%:R / 5%:R, 1 / 2%:R); (1, 0, 1)] [:: electrons 3 2 x]
   = Some (3%:R / 2%:R)].
Proof.
move=> phi x.
have Hx : in_sector 3 2 2 x by split.
have Hd : hf_amplitude 2 phi x = -1 by rewrite /hf_amplitude !det22 !mxE; apply/eqP; vm_compute.
split=> //; have [|_ ->] := @C108_projection_trivial rat_fieldType rat_realFieldType (fun q : rat => `|q|) C39_example_abs 3 2 phi true
  [:: (3%:R / 5%:R, 4%:R / 5%:R, 1 / 2%:R); (1, 0, 1)] x Hx.
- by vm_compute.
- by rewrite !big_cons big_nil Hd; congr Some; apply/eqP; vm_compute.
by rewrite Hd.
Qed.

Print Assumptions C108_pfaffian_qgps_chain. Print Assumptions C108_slater_qgps_update. Print Assumptions C108_pfaffian_energies.
Print Assumptions C108_projected. Print Assumptions C108_projection_trivial. Print Assumptions C108_slater_reference.
Print Assumptions C108_pfaffian_reference.
Print Assumptions C108_amplitudes. Print Assumptions C108_nan_refuted.
