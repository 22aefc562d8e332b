(* C94: the initial backflow state is the Hartree-Fock determinant; and C74 for given orbitals. *)
From Verif Require Import Base Fock_Spec Occ_Spec Occ_Model AbInitioOtf_Model Elec_Model QGPS_Model Jastrow_Model Slater_Model Slater_Pos Backflow_Model Backflow_Props HF_Model.
Local Open Scope ring_scope.

(* C74, the orbitals handed to Backflow: the amplitude is the determinant of orbitals plus corrections.
   One symmetry (the identity) *)
Section Orbitals.
Variables (F : fieldType) (L nu nd : nat) (phi : nat -> nat -> F) (corr : nat -> nat -> nat -> F).
Hypothesis HL : (0 < L)%N.

Theorem C74_orbitals_restricted x ct : size x = L -> nu = nd ->
  bf_amp L nu nd true true [:: id] (Some phi) corr x
  = slater_amplitude [:: 1] (slater_full L true ct
      [:: Component (block_U L (fun p => \row_(j < nu) (phi p j + corr p j 0%N)) (fun p => \row_(j < nd) (phi p j + corr p j 0%N))) id] x).
Proof.
move=> Hx Hn; subst nd; rewrite /bf_amp; cbn [fst size]; rewrite big_ord1.
rewrite slater_one; rewrite /evaluate_SD /submat; cbn [co_U co_sym]; congr (_ * _); congr (\det _); apply/matrixP => i j; rewrite !mxE ?add0n.
  by rewrite /bf_entry block_up ?nonzero_size ?mxE ?map_id // -Hx nonzero_lt // Hx.
by rewrite /bf_entry block_dn ?nonzero_size ?mxE ?map_id.
Qed.
Theorem C74_orbitals_unrestricted x ct : size x = L ->
  bf_amp L nu nd true false [:: id] (Some phi) corr x
  = slater_amplitude [:: 1] (slater_full L true ct
      [:: Component (block_U L (fun p => \row_(j < nu) (phi p j + corr p j 0%N)) (fun p => \row_(j < nd) (phi p (nu + j)%N + corr p (nu + j)%N 0%N))) id] x).
Proof.
move=> Hx; rewrite /bf_amp; cbn [fst size]; rewrite big_ord1.
rewrite slater_one; rewrite /evaluate_SD /submat; cbn [co_U co_sym]; congr (_ * _); congr (\det _); apply/matrixP => i j; rewrite !mxE ?add0n.
  by rewrite /bf_entry block_up ?nonzero_size ?mxE ?map_id // -Hx nonzero_lt // Hx.
by rewrite /bf_entry block_dn ?nonzero_size ?mxE ?map_id.
Qed.
Theorem C74_orbitals_general x restricted ct : size x = L ->
  bf_amp L nu nd false restricted [:: id] (Some phi) corr x
  = slater_amplitude [:: 1] (slater_full L false ct [:: Component (fun p => \row_(j < nu + nd) (phi p j + corr p j 0%N)) id] x).
Proof.
move=> Hx; rewrite /bf_amp; cbn [fst size]; rewrite big_ord1.
by rewrite slater_one; rewrite /evaluate_SD /submat; cbn [co_U co_sym]; congr (\det _); apply/matrixP => i j; rewrite !mxE !map_id.
Qed.
End Orbitals.

(* the positions of the electrons of one spin, in increasing order *)
Definition electrons_at (s : spin) (x : seq nat) : seq nat := [seq k <- iota 0 (size x) | has_spin s (nth 0%N x k)].
(* the Hartree-Fock determinant: the up electrons in the first columns of A, the down electrons in those of B *)
Definition hf_amplitude (F : fieldType) (n0 n1 : nat) (A B : nat -> nat -> F) (x : seq nat) : F :=
  \det (\matrix_(i < n0, j < n0) A (nth 0%N (electrons_at Up x) i) j)
  * \det (\matrix_(i < n1, j < n1) B (nth 0%N (electrons_at Dn x) i) j).

Section C94.
Variables (F : fieldType) (L n0 n1 M : nat).
Hypotheses (HL : (0 < L)%N) (HM : (0 < M)%N) (H0 : (n0 <= L)%N) (H1 : (n1 <= L)%N).
(* the model of get_backflow_model (models.py L51-88) with orbitals o and zero noise, evaluated at x *)
Definition initial_backflow (fixed restricted : bool) (o : arr F) (x : seq nat) : F :=
  (bf_full L n0 n1 fixed restricted [:: id] None (qcorr_full M (a_rows o) (a_cols o) (bf_init (a_rows o) (a_cols o) (a_ent o))) x).1.

Variables (A B : nat -> nat -> F) (x : seq nat).
Hypotheses (Hx : size x = L) (Hv : valid x) (Hu : n_spin Up x = n0) (Hd : n_spin Dn x = n1).

Notation up := (electrons_at Up x).
Notation dn := (electrons_at Dn x).
Lemma up_pos : nonzero_sized n0 (fun k => has (nth 0%N x k) 1) (size x) = up.
Proof. by rewrite -Hu; apply: (nonzero_sector Up Hv). Qed.
Lemma dn_pos : nonzero_sized n1 (fun k => has (nth 0%N x k) 2) (size x) = dn.
Proof. by rewrite -Hd; apply: (nonzero_sector Dn Hv). Qed.
Lemma up_lt i : (nth 0%N up i < L)%N. Proof. by rewrite -up_pos -Hx nonzero_lt // Hx. Qed.
Lemma dn_lt i : (nth 0%N dn i < L)%N. Proof. by rewrite -dn_pos -Hx nonzero_lt // Hx. Qed.
Lemma size_up : size up = n0. Proof. by rewrite -up_pos nonzero_size. Qed.
Lemma size_dn : size dn = n1. Proof. by rewrite -dn_pos nonzero_size. Qed.

Lemma initial_fixed restricted (o : arr F) :
  a_rows o = L -> (if restricted then n0 = n1 /\ a_cols o = n0 else a_cols o = (n0 + n1)%N) ->
  (forall r c, (r < L)%N -> (c < n0)%N -> a_ent o r c = A r c) ->
  (forall r c, (r < L)%N -> (c < n1)%N -> a_ent o r ((if restricted then 0 else n0) + c)%N = B r c) ->
  initial_backflow true restricted o x = hf_amplitude n0 n1 A B x.
Proof.
move=> Hr Hc HA HB; rewrite /initial_backflow /bf_full /bf_amp [qcorr_full _ _ _ _ _]surjective_pairing; cbn [fst size]; rewrite big_ord1.
rewrite /hf_amplitude up_pos dn_pos !map_id.
have Xs : (0 < size x)%N by rewrite Hx.
congr (_ * _); congr (\det _); apply/matrixP => i j; rewrite !mxE /bf_entry (init_corr _ HM) //= ?Hr ?up_lt ?dn_lt //.
- by rewrite HA ?up_lt.
- by case: (restricted) Hc => [[_ ->]|->] //; apply: leq_trans (ltn_ord j) (leq_addr _ _).
- by rewrite HB ?dn_lt.
by case: (restricted) Hc => [[E ->]|->] //; rewrite ?add0n ?E ?ltn_add2l.
Qed.

Lemma initial_general restricted (o : arr F) :
  a_rows o = (2 * L)%N -> a_cols o = (n0 + n1)%N ->
  (forall r c, (r < L)%N -> (c < n0)%N -> a_ent o r c = A r c) ->
  (forall r c, (r < L)%N -> (c < n1)%N -> a_ent o r (n0 + c)%N = 0) ->
  (forall r c, (r < L)%N -> (c < n0)%N -> a_ent o (L + r)%N c = 0) ->
  (forall r c, (r < L)%N -> (c < n1)%N -> a_ent o (L + r)%N (n0 + c)%N = B r c) ->
  initial_backflow false restricted o x = hf_amplitude n0 n1 A B x.
Proof.
move=> Hr Hc HA HAB HBA HB; rewrite /initial_backflow /bf_full /bf_amp [qcorr_full _ _ _ _ _]surjective_pairing; cbn [fst size]; rewrite big_ord1.
rewrite /hf_amplitude up_pos dn_pos !map_id -(det_ublock _ 0); congr (\det _); apply/matrixP => i j.
have Xs : (0 < size x)%N by rewrite Hx.
have Y k : (nth 0%N (up ++ [seq (i + L)%N | i <- dn]) k < 2 * L)%N.
  rewrite nth_cat; case: ifP => _; first by have := up_lt k; lia.
  case: (ltnP (k - size up) (size dn)) => Hk; last by rewrite nth_default ?size_map //; lia.
  by rewrite (nth_map 0%N) //; have := dn_lt (k - size up); lia.
rewrite mxE /bf_entry (init_corr _ HM) ?Hr ?Hc //.
case: (split_ordP i) => i' ->; case: (split_ordP j) => j' ->; rewrite ?block_mxEul ?block_mxEur ?block_mxEdl ?block_mxEdr !mxE nth_cat size_up /=.
- by rewrite ltn_ord HA ?up_lt.
- by rewrite ltn_ord HAB ?up_lt.
- rewrite ltnNge leq_addr /= addKn (nth_map 0%N) ?size_dn // addnC HBA ?dn_lt //.
by rewrite ltnNge leq_addr /= addKn (nth_map 0%N) ?size_dn // addnC HB ?dn_lt.
Qed.
End C94.

Lemma assign_ok (F : fieldType) (a : arr F) r0 r1 c0 c1 (v : arr F) :
  (r0 <= r1)%N -> (c0 <= c1)%N -> (r1 <= a_rows a)%N -> (c1 <= a_cols a)%N -> a_rows v = (r1 - r0)%N -> a_cols v = (c1 - c0)%N ->
  exists o, [/\ assign a r0 r1 c0 c1 v = Some o, a_rows o = a_rows a, a_cols o = a_cols a &
    forall r c, a_ent o r c = if ((r0 <= r < r1) && (c0 <= c < c1))%N then a_ent v (r - r0)%N (c - c0)%N else a_ent a r c].
Proof.
move=> Hr Hc Hr1 Hc1 Ev Ec; rewrite /assign (minn_idPl Hr1) (minn_idPl Hc1) Ev Ec !eqxx /=; eexists; split; try reflexivity.
move=> r c /=; rewrite !subnKC // -!andbA; case: andP => // [[A1 /and3P [A2 A3 A4]]].
by congr (a_ent v _ _); case: eqP => //; move: A1 A2 A3 A4; lia.
Qed.
Section Files.
Variables (F : fieldType) (L n0 n1 M : nat).
Hypotheses (HL : (0 < L)%N) (HM : (0 < M)%N) (H0 : (n0 <= L)%N) (H1 : (n1 <= L)%N).
Variables (A B : nat -> nat -> F) (x : seq nat).
Hypotheses (Hx : size x = L) (Hv : valid x) (Hu : n_spin Up x = n0) (Hd : n_spin Dn x = n1).
Notation trafo := (Arr L L A).

Lemma half_sum n : ((n + n) %/ 2 = n)%N. Proof. lia. Qed.

(* molecules, orbitals saved by get_molecular_system: restricted and unrestricted *)
Theorem C94_file_restricted given : n0 = n1 ->
  exists s o, [/\ saved_orbitals trafo n0 n1 = Some s, get_hf_orbitals_from_file given true true n0 n1 s = Some o &
    initial_backflow L n0 n1 M true true o x = hf_amplitude n0 n1 A A x].
Proof.
move=> E; exists (take_cols n0 trafo), (take_cols n0 trafo); rewrite /saved_orbitals /get_hf_orbitals_from_file E eqxx half_sum /= (minn_idPl H1) eqxx; split=> //.
by apply: initial_fixed => //=; rewrite ?(minn_idPl H1) // -?E.
Qed.
Theorem C94_file_unrestricted given :
  exists s o, [/\ saved_orbitals trafo n0 n1 = Some s, get_hf_orbitals_from_file given false true n0 n1 s = Some o &
    initial_backflow L n0 n1 M true false o x = hf_amplitude n0 n1 A A x].
Proof.
rewrite /saved_orbitals /get_hf_orbitals_from_file; case: (altP (n0 =P n1)) => [E|N].
  move: Hd; rewrite -E => Hd'; rewrite half_sum; exists (take_cols n0 trafo); eexists; rewrite /= (minn_idPl H0) eqxx /hcat eqxx /= (minn_idPl H0); split; try reflexivity.
  by apply: initial_fixed => //= r c Hr Hc; rewrite ?Hc // ltnNge leq_addr /= addKn.
exists (Arr L (n0 + n1) (fun r c => if (c < n0)%N then A r c else A r (c - n0)%N)), (Arr L (n0 + n1) (fun r c => if (c < n0)%N then A r c else A r (c - n0)%N)).
rewrite /hcat /= eqxx (minn_idPl H0) (minn_idPl H1) eqxx; split=> //.
  by case: eqP => // K; exfalso; move: N K; lia.
by apply: initial_fixed => //= r c Hr Hc; rewrite ?Hc // ltnNge leq_addr /= addKn.
Qed.
(* generalised orbitals: as many up as down electrons *)
Theorem C94_file_general_partial given restricted r' : n0 = n1 ->
  exists s o, [/\ saved_orbitals trafo n0 n1 = Some s, get_hf_orbitals_from_file given restricted false n0 n1 s = Some o &
    initial_backflow L n0 n1 M false r' o x = hf_amplitude n0 n1 A A x].
Proof.
move=> E; move: Hd; rewrite -E => Hd'; exists (take_cols n0 trafo).
have T : take_cols n0 (take_cols n0 trafo) = take_cols n0 trafo by rewrite /take_cols /= minnA minnn.
have G : exists o, [/\ (if assign (zeros F (2 * L) (n0 + n0)) 0 L 0 n0 (take_cols n0 trafo) is Some o then assign o L (2 * L) n0 (n0 + n0) (take_cols n0 trafo) else None) = Some o,
    a_rows o = (2 * L)%N, a_cols o = (n0 + n0)%N & forall r c, a_ent o r c = if ((L <= r < 2 * L) && (n0 <= c < n0 + n0))%N then A (r - L)%N (c - n0)%N
       else if ((r < L) && (c < n0))%N then A r c else 0].
  have [] := @assign_ok F (zeros F (2 * L) (n0 + n0)) 0 L 0 n0 (take_cols n0 trafo); rewrite /= ?(minn_idPl H0) ?subn0 //; try lia.
  move=> o1 [-> R1 C1 V1].
  have [] := @assign_ok F o1 L (2 * L) n0 (n0 + n0) (take_cols n0 trafo); rewrite /= ?(minn_idPl H0) ?R1 ?C1 //; try lia.
  move=> o2 [-> R2 C2 V2]; exists o2; rewrite R2 C2; split=> // r c.
  by rewrite V2; case: ifP => // _; rewrite V1 /= !subn0.
case: G => o [G R C V]; exists o; rewrite /saved_orbitals eqxx half_sum; split=> //.
  rewrite /get_hf_orbitals_from_file; case: given; first by rewrite T /=.
  by rewrite /= (minn_idPl H0) muln2 -addnn half_sum.
by apply: initial_general => //= r c Hr Hc; rewrite V; do ?case: ifP; rewrite ?addKn //; move: Hr Hc; lia.
Qed.

(* Hubbard models, unrestricted calculation, conserved magnetisation or not; A and B are the two sets of orbitals *)
Theorem C94_hubbard_unrestricted :
  exists2 o, get_hf_orbitals true L n0 n1 (inr (Arr L L A, Arr L L B)) = Some o &
    initial_backflow L n0 n1 M true false o x = hf_amplitude n0 n1 A B x.
Proof.
rewrite /get_hf_orbitals /hcat /= eqxx; eexists; first by reflexivity.
by apply: initial_fixed => //=; rewrite !(minn_idPl _) // => r c Hr Hc; rewrite ?Hc // ltnNge leq_addr /= addKn.
Qed.
Theorem C94_hubbard_general r' :
  exists2 o, get_hf_orbitals false L n0 n1 (inr (Arr L L A, Arr L L B)) = Some o &
    initial_backflow L n0 n1 M false r' o x = hf_amplitude n0 n1 A B x.
Proof.
rewrite /get_hf_orbitals.
have [] := @assign_ok F (zeros F (2 * L) (n0 + n1)) 0 L 0 n0 (take_cols n0 (Arr L L A)); rewrite /= ?(minn_idPl H0) ?subn0 //; try lia.
move=> o1 [-> R1 C1 V1].
have [] := @assign_ok F o1 L (2 * L) n0 (n0 + n1) (take_cols n1 (Arr L L B)); rewrite /= ?(minn_idPl H1) ?R1 ?C1 //; try lia.
move=> o2 [-> R2 C2 V2]; exists o2 => //.
by apply: initial_general; rewrite ?R2 ?C2 // => r c Hr Hc; rewrite V2 V1 /=; do ?case: ifP; rewrite ?addKn ?subn0 //; move: Hr Hc; lia.
Qed.
Theorem C94_hubbard_restricted : n0 = n1 ->
  exists2 o, get_hf_orbitals true L n0 n1 (inl (Arr L L A)) = Some o &
    initial_backflow L n0 n1 M true true o x = hf_amplitude n0 n1 A A x.
Proof.
move=> E; rewrite /get_hf_orbitals; eexists; first by reflexivity.
by apply: initial_fixed => //=; rewrite ?(minn_idPl H0).
Qed.
(* a restricted calculation without conserved magnetisation raises *)
Theorem C94_hubbard_restricted_general_fails : get_hf_orbitals false L n0 n1 (inl (Arr L L A)) = None.
Proof. by []. Qed.

(* generalised orbitals from a file with different numbers of up and down electrons: the assignment to the wrong
   columns raises, unless there is exactly one down electron *)
Theorem C94_file_general_fails restricted s : n0 <> n1 -> n1 <> 1%N -> saved_orbitals trafo n0 n1 = Some s ->
  get_hf_orbitals_from_file true restricted false n0 n1 s = None.
Proof.
move=> N N1; rewrite /saved_orbitals; case: eqP => // _; rewrite /hcat eqxx => [[<-]] /=.
rewrite /get_hf_orbitals_from_file /= (minn_idPl H0) (minn_idPl H1).
case: (assign _ _ _ _ _ _) (@assign_ok F (zeros F (2 * L) (n0 + n1)) 0 L 0 n0 (take_cols n0 (Arr L (n0 + n1) (fun r c => if (c < n0)%N then A r c else A r (c - n0)%N)))) => // o1.
rewrite /= => [[]]; rewrite ?subn0 ?(minn_idPl (leq_addr _ _)) //; try lia.
move=> o2 [[->] R C _]; rewrite /assign R C /= (minn_idPl (leq_addl _ _)) minnn.
case: ifP => // /andP [_] /orP [] /eqP; lia.
Qed.
End Files.

Definition hf_id (r c : nat) : rat := if r == c then 1 else 0.
(* three up and two down electrons on three orbitals: no orbitals, although the determinant is well defined *)
Theorem C94_file_general_refuted : exists (s : arr rat_fieldType) (x : seq nat),
  [/\ saved_orbitals (Arr (F := rat_fieldType) 3 3 hf_id) 3 2 = Some s, get_hf_orbitals_from_file true false false 3 2 s = None,
      valid x /\ size x = 3%N, n_spin Up x = 3%N /\ n_spin Dn x = 2%N &
      hf_amplitude 3 2 hf_id hf_id x != 0].
Proof.
eexists; exists [:: 3; 3; 1]%N; split; try reflexivity; try by [].
suff -> : hf_amplitude 3 2 hf_id hf_id [:: 3; 3; 1]%N = 1 by [].
rewrite /hf_amplitude [X in \det X](_ : _ = 1%:M); last first.
  by apply/matrixP => i j; rewrite !mxE /electrons_at /hf_id; case: i => [[|[|[|i]]] Hi] //=; case: j => [[|[|[|j]]] Hj].
rewrite det1 mul1r [X in \det X](_ : _ = 1%:M) ?det1 //.
by apply/matrixP => i j; rewrite !mxE /electrons_at /hf_id; case: i => [[|[|i]] Hi] //=; case: j => [[|[|j]] Hj].
Qed.

Example C94_ex : hf_amplitude 1 1 (fun r c => (r + 2)%:R : rat) (fun r c => (r + 5)%:R) [:: 1; 2]%N = 12%:R.
Proof.
rewrite /hf_amplitude !det_mx11 !mxE /electrons_at /=; apply/eqP; vm_compute; reflexivity.
Qed.
Print Assumptions C74_orbitals_restricted.
Print Assumptions C74_orbitals_unrestricted.
Print Assumptions C74_orbitals_general.
Print Assumptions C94_file_restricted.
Print Assumptions C94_file_unrestricted.
Print Assumptions C94_file_general_partial.
Print Assumptions C94_file_general_fails.
Print Assumptions C94_file_general_refuted.
Print Assumptions C94_hubbard_restricted.
Print Assumptions C94_hubbard_unrestricted.
Print Assumptions C94_hubbard_general.
Print Assumptions C94_hubbard_restricted_general_fails.
