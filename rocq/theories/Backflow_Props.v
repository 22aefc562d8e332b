(* C73: Slater-qGPS products; C74: backflow determinants, their fast update and initial state;
   C75: BackflowJastrow. *)
From Verif Require Import Base Fock_Spec Occ_Model Occ_Spec AbInitioOtf_Model Elec_Model Elec_Props Update_Proto QGPS_Model QGPS_Props Jastrow_Model
  Slater_Model Slater_Pos Slater_Props Backflow_Model.
Local Open Scope ring_scope.

Section C73.
Variables (F : fieldType) (expf : F -> F) (L nu nd : nat) (blocked constant_time : bool).
Variables (cs : seq (component F (nu + nd))) (chi : seq F) (eps : nat -> nat -> nat -> F) (M : nat) (s : symset).
Local Notation full := (slater_qgps_full expf L blocked constant_time cs chi eps M s).
Local Notation fast := (slater_qgps_fast expf L constant_time cs chi eps M s).
Hypothesis Hs : if sy_perms s is Some ps then all (fun p => perm_eq p (iota 0 L)) ps else true.
Hypothesis Hcs : wf_comps L blocked cs.

(* the configurations whose orbital matrices can be inverted and whose qGPS factors do not vanish *)
Definition regular (x : seq nat) : Prop := [/\ in_sector L nu nd x, nonsingular L cs x & nonvanishing eps M s x].

(* value: determinants of the occupied orbitals, times the exponential of the qGPS sum, of the
   updated configuration, also where its determinant vanishes *)
Theorem C73_slater_qgps_fast_update x y sites occs :
  regular x -> in_sector L nu nd y -> denotes x y sites occs ->
  (fast (full x).2 occs sites).1
  = (\sum_(p <- zip chi cs) p.1 * \det (orbital_matrix L p.2 y))
    * expf (\sum_(c <- sym_copies s y) \sum_(m < M) \prod_(i < size c) eps (nth 0%N c i) m i).
Proof.
case=> Hx Hu Hn Hy Hd; rewrite /slater_qgps_fast /slater_qgps_full /slater_qgps; cbn [fst snd].
have [_ ->] := C37_slater_fast_update constant_time chi Hx Hy Hd Hcs Hu.
have HxL : size x = L by case: Hx.
rewrite (C32_qgps_fast_update Hs HxL Hn Hd) /default_out /= /get_site_prod big_map; congr (_ * expf _).
by apply: eq_bigr => c _; rewrite /site_prod big_map -[X in iota 0 X]subn0 -/(index_iota 0 M) big_mkord.
Qed.

(* any run of updates through regular configurations: value and both caches *)
Inductive run_of : seq nat -> seq (seq nat * seq nat) -> seq nat -> Prop :=
| Run_nil x : run_of x [::] x
| Run_cons x y z sites occs us : regular y -> denotes x y sites occs -> run_of y us z -> run_of x ((sites, occs) :: us) z.
Theorem C73_slater_qgps_run x us z : regular x -> run_of x us z ->
  foldl (fun r u => fast r.2 u.2 u.1) (full x) us = full z.
Proof.
move=> Hx Hr; elim: Hr Hx => [//|x1 y z1 sites occs us1 Hy Hd _ IH] Hx /=; rewrite -IH //; congr foldl.
have [H1 H2 H3] := Hx; have [H4 H5 H6] := Hy.
rewrite /slater_qgps_fast /slater_qgps_full; cbn [fst snd slater_qgps].
have HxL : size x1 = L by case: H1.
rewrite (C32_qgps_fast_update Hs HxL H3 Hd).
rewrite (@fast_full F L nu nd blocked constant_time x1 y sites occs) // => k c0 Hk.
by split; [apply: Hcs|apply: H2|apply: H5].
Qed.
End C73.

Section C74.
Variables (F : fieldType) (L nu nd : nat) (fm restricted : bool) (syms : seq (nat -> nat)).
Variable orbitals : option (nat -> nat -> F).

(* C74 for any correction module whose own fast update is right *)
Theorem C74_backflow_fast_update (C : Type) (corr_full : seq nat -> (nat -> nat -> nat -> F) * C) corr_fast x y sites occs :
  corr_fast (corr_full x).2 occs sites = corr_full y -> denotes x y sites occs ->
  bf_fast L nu nd fm restricted syms orbitals corr_fast (bf_full L nu nd fm restricted syms orbitals corr_full x).2 occs sites
  = bf_full L nu nd fm restricted syms orbitals corr_full y.
Proof.
move=> Hc Hd; rewrite /bf_full /bf_fast; case E : (corr_full x) => [cx c]; rewrite E /= in Hc *; rewrite Hc.
case: (corr_full y) => cy c'; have -> // : bf_update_config x sites occs = y by exact: denotes_write Hd.
Qed.

(* C74 for the qGPS correction of the scripts: any support dimension, shape and parameters, and
   runs of any length *)
Variables (M rows cols : nat) (eps : nat -> nat -> nat -> F).
Local Notation full := (bf_full L nu nd fm restricted syms orbitals (qcorr_full M rows cols eps)).
Local Notation fast := (bf_fast L nu nd fm restricted syms orbitals (qcorr_fast M rows cols eps)).
Definition factors_ok (x : seq nat) : Prop :=
  forall m i, (m < M * rows * cols)%N -> (i < size x)%N -> eps (nth 0%N x i) m i != 0.
Fixpoint bf_chain_ok (x : seq nat) (us : seq (seq nat * (seq nat * seq nat))) : Prop :=
  if us is u :: us' then [/\ factors_ok x, denotes x u.1 u.2.1 u.2.2 & bf_chain_ok u.1 us'] else True.
Theorem C74_backflow_update_chain x us : bf_chain_ok x us ->
  foldl (fun r u => fast r.2 u.2.2 u.2.1) (full x) us = full (last x (map fst us)).
Proof.
elim: us x => [//|[y [sites occs]] us IH] x [/= H1 H2 H3]; rewrite -IH //; congr foldl.
have Hc : qcorr_fast M rows cols eps (qcorr_full M rows cols eps x).2 occs sites = qcorr_full M rows cols eps y.
  rewrite /qcorr_fast /qcorr_full; cbn [snd].
  rewrite (@C32_qgps_fast_update F eps _ (size x) (SymSet None false) x y) // => c m i.
  by rewrite /sym_copies /= inE => /eqP ->; exact: H1.
exact: C74_backflow_fast_update Hc H2.
Qed.
End C74.

(* the corrections at the initial parameters are the orbitals *)
Lemma init_corr (F : fieldType) M rows cols (phi : nat -> nat -> F) x r j :
  (0 < M)%N -> (0 < size x)%N -> (r < rows)%N -> (j < cols)%N ->
  (qcorr_full M rows cols (bf_init rows cols phi) x).1 r j 0%N = phi r j.
Proof.
move=> HM Hx Hr Hj; rewrite /qcorr_full /out_trafo /= /site_prod.
have Hrj : (r * cols + j < rows * cols)%N by nia.
have E k : (k < M)%N -> nth 0 [seq \prod_(i < size x) bf_init rows cols phi (nth 0%N x i) m i | m <- iota 0 (total_supp_dim M rows cols)] (k * (rows * cols) + (r * cols + j))%N
   = if k == 0%N then phi r j else 0.
  move=> Hk; have Hb : (k * (rows * cols) + (r * cols + j) < total_supp_dim M rows cols)%N.
    by rewrite /total_supp_dim -mulnA; nia.
  rewrite (nth_map 0%N) ?size_iota // nth_iota // add0n.
  case: (x) Hx => // o x' _; rewrite /= big_ord_recl big1 ?mulr1 /bf_init /=; last first.
    by move=> i _; rewrite !andbF.
  rewrite !andbT; case: (altP (k =P 0%N)) => [->|Hk0].
    by rewrite mul0n add0n Hrj /= divnMDl ?divn_small ?addn0 ?modnMDl ?modn_small //; lia.
  have -> : (k * (rows * cols) + (r * cols + j) < rows * cols)%N = false by apply/negbTE; rewrite -leqNgt; nia.
  by [].
rewrite (bigD1 (Ordinal HM)) //= (E 0%N) //= big1 ?addr0 // => k Hk; rewrite E //.
by case: k Hk => [[|k] Hk].
Qed.

Lemma nonzero_size n mask len : size (nonzero_sized n mask len) = n.
Proof. by rewrite /nonzero_sized size_take size_cat size_nseq; case: ltnP => // H; apply/eqP; rewrite eqn_leq H leq_addl. Qed.
Lemma nonzero_lt n mask len i : (0 < len)%N -> (nth 0%N (nonzero_sized n mask len) i < len)%N.
Proof.
move=> Hl; case: (ltnP i (size (nonzero_sized n mask len))) => Hi; last by rewrite nth_default.
have : nth 0%N (nonzero_sized n mask len) i \in nonzero_sized n mask len by apply: mem_nth.
by move/mem_take; rewrite mem_cat mem_filter mem_iota mem_nseq => /orP[/andP[_ ]|/andP[_ /eqP ->]].
Qed.

Lemma slater_one (F : fieldType) L nu nd b ct (c : component F (nu + nd)) x :
  slater_amplitude [:: 1] (slater_full L b ct [:: c] x) = evaluate_SD b (submat L c x).
Proof. by rewrite /slater_amplitude /= big_seq1 /= mul1r. Qed.

Lemma block_up (F : fieldType) L nu nd (Uu : nat -> 'rV[F]_nu) (Ud : nat -> 'rV[F]_nd) (up dn : seq nat) (i j : 'I_nu) :
  size up = nu -> (nth 0%N up i < L)%N ->
  block_U L Uu Ud (nth 0%N ([seq k | k <- up] ++ [seq (k + L)%N | k <- dn]) (lshift nd i)) 0 (lshift nd j) = Uu (nth 0%N up i) 0 j.
Proof. by move=> Hs Hi; rewrite map_id nth_cat /= Hs ltn_ord /block_U Hi row_mxEl. Qed.
Lemma block_dn (F : fieldType) L nu nd (Uu : nat -> 'rV[F]_nu) (Ud : nat -> 'rV[F]_nd) (up dn : seq nat) (i j : 'I_nd) :
  size up = nu -> size dn = nd ->
  block_U L Uu Ud (nth 0%N ([seq k | k <- up] ++ [seq (k + L)%N | k <- dn]) (rshift nu i)) 0 (rshift nu j) = Ud (nth 0%N dn i) 0 j.
Proof.
move=> Hs Hd; rewrite map_id nth_cat /= Hs ltnNge leq_addr /= addKn (nth_map 0%N) ?Hd // /block_U.
by rewrite ltnNge leq_addl /= addnK row_mxEr.
Qed.

Section C74b.
Variables (F : fieldType) (L nu nd M : nat) (phi : nat -> nat -> F).
Hypotheses (HL : (0 < L)%N) (HM : (0 < M)%N).

(* C74: with the initial parameters of the scripts (no noise) the backflow amplitude is the
   Slater determinant of the mean-field orbitals.  Restricted orbitals (L, nu), nu = nd *)
Theorem C74_initial_restricted x ct : size x = L -> nu = nd ->
  (bf_full L nu nd true true [:: id] None (qcorr_full M L nu (bf_init L nu phi)) x).1
  = slater_amplitude [:: 1] (slater_full L true ct
      [:: Component (block_U L (fun p => \row_(j < nu) phi p j) (fun p => \row_(j < nd) phi p j)) id] x).
Proof.
move=> Hx Hn; subst nd; rewrite /bf_full /bf_amp [qcorr_full _ _ _ _ _]surjective_pairing; cbn [fst size]; rewrite big_ord1.
rewrite slater_one; rewrite /evaluate_SD /submat; cbn [co_U co_sym]; congr (_ * _); congr (\det _); apply/matrixP => i j; rewrite !mxE ?add0n.
  rewrite /bf_entry (init_corr phi HM) //; [|by rewrite Hx|by rewrite map_id -Hx nonzero_lt // Hx].
  by rewrite block_up ?nonzero_size ?mxE ?map_id // -Hx nonzero_lt // Hx.
rewrite /bf_entry (init_corr phi HM) //; [|by rewrite Hx|by rewrite map_id -Hx nonzero_lt // Hx].
by rewrite block_dn ?nonzero_size ?mxE ?map_id.
Qed.

(* unrestricted orbitals (L, nu + nd) *)
Theorem C74_initial_unrestricted x ct : size x = L ->
  (bf_full L nu nd true false [:: id] None (qcorr_full M L (nu + nd) (bf_init L (nu + nd) phi)) x).1
  = slater_amplitude [:: 1] (slater_full L true ct
      [:: Component (block_U L (fun p => \row_(j < nu) phi p j) (fun p => \row_(j < nd) phi p (nu + j)%N)) id] x).
Proof.
move=> Hx; rewrite /bf_full /bf_amp [qcorr_full _ _ _ _ _]surjective_pairing; cbn [fst size]; rewrite big_ord1.
rewrite slater_one; rewrite /evaluate_SD /submat; cbn [co_U co_sym]; congr (_ * _); congr (\det _); apply/matrixP => i j; rewrite !mxE ?add0n.
  have Hj : (j < nu + nd)%N by apply: leq_trans (ltn_ord j) (leq_addr _ _).
  rewrite /bf_entry (init_corr phi HM) //; [|by rewrite Hx|by rewrite map_id -Hx nonzero_lt // Hx].
  by rewrite block_up ?nonzero_size ?mxE ?map_id // -Hx nonzero_lt // Hx.
rewrite /bf_entry (init_corr phi HM) //; [|by rewrite Hx|by rewrite map_id -Hx nonzero_lt // Hx|by rewrite ltn_add2l].
by rewrite block_dn ?nonzero_size ?mxE ?map_id.
Qed.

(* general orbitals (2L, nu + nd), magnetisation not conserved *)
Theorem C74_initial_general x restricted ct : size x = L ->
  (bf_full L nu nd false restricted [:: id] None (qcorr_full M (2 * L) (nu + nd) (bf_init (2 * L) (nu + nd) phi)) x).1
  = slater_amplitude [:: 1] (slater_full L false ct [:: Component (fun p => \row_(j < nu + nd) phi p j) id] x).
Proof.
move=> Hx; rewrite /bf_full /bf_amp [qcorr_full _ _ _ _ _]surjective_pairing; cbn [fst size]; rewrite big_ord1.
rewrite slater_one; rewrite /evaluate_SD /submat; cbn [co_U co_sym]; congr (\det _); apply/matrixP => i j; rewrite !mxE !map_id.
rewrite /bf_entry (init_corr phi HM) //; first by rewrite Hx.
rewrite nth_cat nonzero_size; case: (ltnP i nu) => Hi; first by have := nonzero_lt nu (fun k => has (nth 0%N x k) 1) i (_ : (0 < size x)%N); lia.
rewrite (nth_map 0%N); last by rewrite nonzero_size ltn_subLR.
by have := nonzero_lt nd (fun k => has (nth 0%N x k) 2) (i - nu) (_ : (0 < size x)%N); lia.
Qed.
End C74b.

(* C75: BackflowJastrow cannot be evaluated: it hands the orbitals over as the correction and
   the correction as the orbitals *)
Section C75.
Variables (F : fieldType) (expf : F -> F) (L nu nd : nat) (fm restricted : bool) (syms : seq (nat -> nat)).
Theorem C75_backflow_jastrow_fails K perms (orbs : seq (nat -> nat -> F)) (corrs : seq (seq nat -> nat -> nat -> nat -> F)) x :
  (0 < size orbs)%N -> size orbs = size corrs ->
  backflow_jastrow expf L nu nd fm restricted syms K perms (map (@PyArray F) orbs) (map (@PyModule F) corrs) x = None.
Proof.
move=> H0 Hs; rewrite /backflow_jastrow !size_map Hs eqxx.
by case: orbs corrs H0 Hs => [//|o orbs] [//|f corrs].
Qed.
(* with the fields exchanged by the caller the value is the Jastrow factor times the sum of the
   backflow determinants *)
Theorem C75_exchanged_fields_partial K perms (orbs : seq (nat -> nat -> F)) (corrs : seq (seq nat -> nat -> nat -> nat -> F)) x :
  size orbs = size corrs ->
  backflow_jastrow expf L nu nd fm restricted syms K perms (map (@PyModule F) corrs) (map (@PyArray F) orbs) x
  = Some (expf (jastrow K perms x) * \sum_(q <- zip orbs corrs) bf_amp L nu nd fm restricted syms (Some q.1) (q.2 x) x).
Proof.
move=> Hs; rewrite /backflow_jastrow !size_map Hs eqxx.
set terms := map _ _.
have -> : terms = [seq Some (bf_amp L nu nd fm restricted syms (Some q.1) (q.2 x) x) | q <- zip orbs corrs].
  apply: (@eq_from_nth _ None); first by rewrite !size_map size_iota size_zip Hs minnn.
  move=> d; rewrite size_map size_iota => Hd.
  rewrite (nth_map 0%N) ?size_iota // nth_iota // add0n.
  rewrite (nth_map (fun _ _ => 0, fun _ _ _ _ => 0)); last by rewrite size_zip Hs minnn.
  rewrite nth_zip // (nth_map (fun _ _ _ _ => 0)) // (nth_map (fun _ _ => 0)) ?Hs //.
have -> : all isSome [seq Some (bf_amp L nu nd fm restricted syms (Some q.1) (q.2 x) x) | q <- zip orbs corrs].
  by elim: (zip _ _) => //=.
congr (Some (_ * _)); elim: (zip orbs corrs) => [|q l IH] /=; first by rewrite !big_nil.
by rewrite !big_cons IH.
Qed.
End C75.

(* two sites, one electron of each spin, orbital (1, 2): moving the down electron onto the up
   electron changes the amplitude from 1 * 2 to 1 * 1 *)
Definition bf_ex_eps := bf_init 2 1 (fun r _ : nat => (r.+1)%:R : rat).
Definition bf_ex_full := bf_full 2 1 1 true true [:: id] None (qcorr_full 1 2 1 bf_ex_eps).
Example C74_example :
  [/\ bf_chain_ok 1 2 1 bf_ex_eps [:: 1; 2]%N [:: ([:: 3; 0], ([:: 1; 0], [:: 0; 3]))]%N,
      (bf_ex_full [:: 1; 2]%N).1 = 2%:R &
      (bf_fast 2 1 1 true true [:: id] None (qcorr_fast 1 2 1 bf_ex_eps) (bf_ex_full [:: 1; 2]%N).2 [:: 0; 3]%N [:: 1; 0]%N).1 = 1].
Proof.
have H : bf_chain_ok 1 2 1 bf_ex_eps [:: 1; 2]%N [:: ([:: 3; 0], ([:: 1; 0], [:: 0; 3]))]%N.
  split=> //; last by apply: denotes_once => //; case=> [|[|i]] //=; rewrite !inE.
  by move=> m i; case: m => [|[|m]] //; case: i => [|[|i]].
have E z : size z = 2%N -> (bf_ex_full z).1 =
    ((nth 0%N (nonzero_sized 1 (fun k => has (nth 0%N z k) 1) 2) 0).+1)%:R * ((nth 0%N (nonzero_sized 1 (fun k => has (nth 0%N z k) 2) 2) 0).+1)%:R.
  move=> Hz; rewrite /bf_ex_full /bf_full /bf_amp [qcorr_full _ _ _ _ _]surjective_pairing; cbn [fst size]; rewrite big_ord1 !det_mx11 !mxE /bf_entry.
  by rewrite !map_id Hz !init_corr // ?Hz ?nonzero_lt.
split=> //; first by rewrite E.
have := C74_backflow_update_chain 2 1 1 true true [:: id] None H; cbn [foldl fst snd last map].
by rewrite -/bf_ex_full => ->; rewrite E.
Qed.
(* two up electrons on three sites: determinant 1, product 1 * 2 * 2 of the qGPS factors, with
   1 + z standing for the exponential *)
Section Example73.
Let c : component rat_fieldType (2 + 0) := Component (fun p => \row_(j < 2) (p%:R ^+ j)) id.
Let x : seq nat := [:: 1; 1; 0]%N.
Let y : seq nat := [:: 0; 1; 1]%N.
Let eps (o m i : nat) : rat := (o.+1)%:R.
Let s := SymSet None false.
Let expf (z : rat) : rat := 1 + z.
Example C73_example :
  regular 3 [:: c] eps 1 s x /\
  (slater_qgps_fast expf 3 true [:: c] [:: 1] eps 1 s (slater_qgps_full expf 3 false true [:: c] [:: 1] eps 1 s x).2 [:: 0; 1]%N [:: 0; 2]%N).1 = 5%:R.
Proof.
have Hr : regular 3 [:: c] eps 1 s x.
  split=> //; first by case=> [|k] // c0 _; rewrite unitmxE ex_det.
  by move=> q m i _ _ _; rewrite Num.Theory.pnatr_eq0.
split=> //; have Hd : denotes x y [:: 0; 2]%N [:: 0; 1]%N.
  by split=> // [[|[|k]]|[|[|[|j]]]] //; rewrite !nth_default.
have Hc : wf_comps 3 false [:: c] by case=> [|k] // c0 _; split.
rewrite (@C73_slater_qgps_fast_update rat_fieldType expf 3 2 0 false true [:: c] [:: 1] eps 1 s _ Hc x y) //.
by rewrite /= big_seq1 /= ex_det /sym_copies /= big_seq1 big_ord1 !big_ord_recl big_ord0.
Qed.
End Example73.
(* in particular for one determinant whose value would be 2, see C74_example *)
Theorem C75_backflow_jastrow_refuted : exists (orb : nat -> nat -> rat) (corr : seq nat -> nat -> nat -> nat -> rat) x,
  bf_amp 2 1 1 true true [:: id] (Some orb) (corr x) x = 2%:R /\
  backflow_jastrow (fun z : rat => z) 2 1 1 true true [:: id] (fun _ _ => 0) [:: [:: 0; 1]%N] [:: PyArray orb] [:: PyModule corr] x = None.
Proof.
exists (fun r _ => (r.+1)%:R), (fun _ _ _ _ => 0), [:: 1; 2]%N; split=> //.
by rewrite /bf_amp big_ord1 !det_mx11 !mxE.
Qed.
(* one backflow determinant: any field values of the declared kinds fail *)
Example C75_example : backflow_jastrow (fun z : rat => z) 2 1 1 true true [:: id] (fun _ _ => 0) [:: [:: 0; 1]%N]
  [:: PyArray (fun r _ => (r.+1)%:R)] [:: PyModule (fun _ _ _ _ => 0)] [:: 1; 2]%N = None.
Proof. by []. Qed.

Print Assumptions C73_slater_qgps_fast_update.
Print Assumptions C73_slater_qgps_run.
Print Assumptions C74_backflow_fast_update.
Print Assumptions C74_backflow_update_chain.
Print Assumptions C74_initial_restricted.
Print Assumptions C74_initial_unrestricted.
Print Assumptions C74_initial_general.
Print Assumptions C75_backflow_jastrow_fails.
Print Assumptions C75_backflow_jastrow_refuted.
Print Assumptions C75_exchanged_fields_partial.
