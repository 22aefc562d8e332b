(* C103: complex amplitudes of the symmetrised autoregressive models and of the modulus-phase models. *)
From Coq Require Import Reals.
From Verif Require Import Base Rstruct Calc Numq QGPS_Model QGPS_Proofs QGPS_Group QGPS_Props AR_Model AR_Sym AR_Proofs AR_Lemmas AR_Site AR_Sector AR_Props AR_Phase_Model.
Import Num.Theory Order.TTheory.
Local Open Scope ring_scope.
Local Notation RR := R_realFieldType.

Definition abs2 (z : RR * RR) : RR := z.1 ^+ 2 + z.2 ^+ 2.
Lemma abs2_amplitude p phase : 0 <= p -> abs2 (amplitude p phase) = p.
Proof.
move=> /RleP p0; rewrite /abs2 /amplitude /= !exprMn -mulrDr.
have -> : (cos phase : RR) ^+ 2 + (sin phase : RR) ^+ 2 = 1.
  by have := sin2_cos2 phase; rewrite /Rsqr RplusE !RmultE -!expr2 addrC => ->.
by rewrite mulr1 expr2 -RmultE sqrt_sqrt.
Qed.

Section Sums.
Variables (R : fieldType) (D L : nat) (s : symset).
Hypothesis Hg : group_ok L s.
Hypothesis Hf : sy_flip s -> D = 2%N.
Lemma tuple_ok (t : L.-tuple 'I_D) : size (map val t) = L /\ all (fun o => (o < D)%N) (map val t).
Proof. by rewrite size_map size_tuple; split=> //; apply/allP => o /mapP[k _ ->]; apply: ltn_ord. Qed.
Lemma copies_sum (p : seq nat -> R) (t : L.-tuple 'I_D) : \sum_(y <- sym_copies s (map val t)) p y
  = \sum_(u : L.-tuple 'I_D) p (map val u) *+ count_mem (map val u) (sym_copies s (map val t)).
Proof.
have [Hs Ha] := tuple_ok t; have H := copies_ok Hg Hs Ha Hf.
elim: (sym_copies _ _) H => [|y l IH] H; first by rewrite big_nil big1 // => u _; rewrite mulr0n.
rewrite big_cons IH => [|z Hz]; last by apply: H; rewrite inE Hz orbT.
have [Hy1 Hy2] := H y (mem_head _ _).
have Hy3 : forall i : 'I_L, (nth 0%N y i < D)%N by move=> i; move/all_nthP: Hy2; apply; rewrite Hy1.
pose u0 : L.-tuple 'I_D := [tuple Ordinal (Hy3 i) | i < L].
have E0 : map val u0 = y.
  apply: (@eq_from_nth _ 0%N); rewrite size_map size_tuple ?Hy1 // => i Hi.
  by rewrite -[i]/(nat_of_ord (Ordinal Hi)) (nth_map (tnth u0 (Ordinal Hi))) ?size_tuple // -tnth_nth tnth_mktuple.
rewrite [RHS](eq_bigr (fun u : L.-tuple 'I_D => p (map val u) *+ (y == map val u) + p (map val u) *+ count_mem (map val u) l)).
  2: by move=> u _; rewrite -mulrnDr.
rewrite big_split /=; congr (_ + _); rewrite (bigD1 u0) //= E0 eqxx mulr1n big1 ?addr0 // => u Hu.
case: eqP => // E; case/negP: Hu; apply/eqP/val_inj/(inj_map val_inj); by rewrite -E -E0.
Qed.
Lemma symmetrised_total (p : seq nat -> R) : (forall t : L.-tuple 'I_D, (size (sym_copies s (map val t)))%:R != 0 :> R) ->
  \sum_(t : L.-tuple 'I_D) (\sum_(y <- sym_copies s (map val t)) p y) / (size (sym_copies s (map val t)))%:R
  = \sum_(t : L.-tuple 'I_D) p (map val t).
Proof.
move=> H0; under eq_bigr => t _ do rewrite copies_sum mulr_suml.
rewrite exchange_big; apply: eq_bigr => u _ /=.
have [Hs Ha] := tuple_ok u.
have -> : \sum_(t : L.-tuple 'I_D) p (map val u) *+ count_mem (map val u) (sym_copies s (map val t)) / (size (sym_copies s (map val t)))%:R
  = \sum_(t : L.-tuple 'I_D) p (map val u) / (size (sym_copies s (map val u)))%:R *+ count_mem (map val t) (sym_copies s (map val u)).
  apply: eq_bigr => t _; have [Hts Hta] := tuple_ok t.
  rewrite (count_copies Hg Hts Hs) ?mulrnAl; last by move=> E; rewrite -(Hf E) Ha Hta.
  by rewrite (size_copies s Hts Hs).
rewrite -(copies_sum (fun _ => p (map val u) / (size (sym_copies s (map val u)))%:R)).
by rewrite big_const_seq count_predT iter_addr_0 -[LHS]mulr_natr mulfVK.
Qed.
End Sums.

Section Claim.
Variables (V : comRingType) (wexp im : V -> RR) (carg : RR * RR -> RR) (out : seq V -> V) (M L : nat).
Hypothesis wexp_pos : forall v, 0 < wexp v.
Variable md : model V.
Hypothesis md_ok : if md is ARPlaq masks plaquettes _ then
    forall i j, (i < L)%N -> (j < L)%N -> masks i j -> (plaquettes i j < i)%N else True.

(* the symmetry operations: permutations of the sites that form a group, possibly with spin flips *)
Definition symmetry_group (s : symset) : Prop :=
  (if sy_perms s is Some ps then
     [&& (0 < size ps)%N, uniq ps, all (fun p => perm_eq p (iota 0 L)) ps &
         all (fun p => all (fun q => [seq nth 0%N p j | j <- q] \in ps) ps) ps] else true).
Lemma symmetry_group_ok s : symmetry_group s -> group_ok L s.
Proof. by rewrite /symmetry_group /group_ok; case: (sy_perms s) => // ps /andP[]. Qed.
Lemma copies_nonempty s x : symmetry_group s -> (0 < size (sym_copies s x))%N.
Proof.
rewrite /symmetry_group /sym_copies; case: (sy_perms s) => [ps /andP[H _]|_].
  by case: ifP => _; rewrite ?size_cat !size_map ?addn_gt0 H.
by case: ifP.
Qed.

Section Gen.
Variables (D : nat) (constrained : bool) (count_spins : nat -> seq nat) (renorm : seq nat -> nat -> seq bool).
Local Notation site := (model_site out D M L md).
Local Notation c0 := (cache0 V D M).
Local Notation prb := (prob wexp D L constrained count_spins renorm c0 site).
Local Notation psi := (ar_psi wexp im D L constrained count_spins renorm c0 site carg).

Lemma prob_ge0 s x : 0 <= prb s x.
Proof.
apply: divr_ge0; last exact: ler0n.
apply: sumr_ge0 => y _; apply: prodr_ge0 => i _; rewrite /conditionals.
case: (ltnP i (size (log_conditionals D L constrained count_spins renorm c0 site y))) => Hi; last first.
  by rewrite (@nth_default _ [::]) ?size_map // nth_nil.
rewrite (nth_map [::]) // /normalized; move: (nth [::] _ i) => lp.
have H0 u : u \in weights wexp lp -> 0 <= u.
  by case/mapP => va _ ->; case: ifP => _; [apply: ltW|].
case: (ltnP (nth 0%N y i) (size (weights wexp lp))) => Hk; last by rewrite nth_default ?lexx // size_map.
rewrite (nth_map 0) //; apply: divr_ge0; first by apply: H0; apply: mem_nth.
by rewrite big_seq; apply: sumr_ge0 => u; apply: H0.
Qed.

(* |psi|^2 is the probability the sampler uses *)
Theorem C103_modulus s x : abs2 (psi s x) = prb s x.
Proof. by rewrite abs2_amplitude // prob_ge0. Qed.

(* the symmetrised amplitude, modulus and phase, is the same for all images of a configuration *)
Theorem C103_invariant s x y : symmetry_group s -> size x = L -> (sy_flip s -> all (fun o => (o < 2)%N) x) ->
  y \in sym_copies s x -> psi s y = psi s x.
Proof.
move=> Hg Hx Hb Hy; have Hp := group_lemma Hx Hb (symmetry_group_ok Hg) Hy.
rewrite /ar_psi /phase_symm /phase_sum /prob !(perm_big _ Hp) /=; by rewrite (seq.perm_size Hp).
Qed.

(* and its phase is that of the sum of exp(i phi) over the images, phi the summed imaginary parts of the
   log-amplitudes chosen at the sites: |z| psi = sqrt(p) z, for z = 0 with any phase *)
Theorem C103_phase s x :
  (forall z, z <> (0, 0) -> sqrt (abs2 z) * cos (carg z) = z.1 /\ sqrt (abs2 z) * sin (carg z) = z.2 :> RR) ->
  let phi y := \sum_(i < L) im (nth (0, true) (nth [::] (log_conditionals D L constrained count_spins renorm c0 site y) i) (nth 0%N y i)).1 in
  let z : RR * RR := (\sum_(y <- sym_copies s x) (cos (phi y) : RR), \sum_(y <- sym_copies s x) (sin (phi y) : RR)) in
  let r : RR := sqrt (abs2 z) in let q : RR := sqrt (prb s x) in
  r * (psi s x).1 = q * z.1 /\ r * (psi s x).2 = q * z.2.
Proof.
move=> Hc phi z r q.
have Ep : psi s x = (q * (cos (carg z) : RR), q * (sin (carg z) : RR)) by [].
rewrite Ep; move: z @r @q Ep => z r q _; rewrite [(_, _).1]/= [(_, _).2]/=.
case: (z =P (0, 0)) => [E|/Hc[H1 H2]]; last by rewrite -H1 -H2 ![r * (q * _)]mulrCA.
by rewrite /r E /abs2 /= expr0n addr0 sqrt_0 !mul0r !mulr0.
Qed.
(* no symmetries: the sum of the phases itself *)
Theorem C103_phase_plain x :
  (forall z, z <> (0, 0) -> sqrt (abs2 z) * cos (carg z) = z.1 /\ sqrt (abs2 z) * sin (carg z) = z.2 :> RR) ->
  let phi := \sum_(i < L) im (nth (0, true) (nth [::] (log_conditionals D L constrained count_spins renorm c0 site x) i) (nth 0%N x i)).1 in
  psi (SymSet None false) x = (sqrt (prb (SymSet None false) x) * (cos phi : RR), sqrt (prb (SymSet None false) x) * (sin phi : RR)).
Proof.
move=> Hc phi; have := C103_phase (SymSet None false) x Hc.
rewrite /sym_copies /= !big_seq1 -/phi.
have -> : abs2 (cos phi, sin phi) = 1.
  by rewrite /abs2 /=; have := sin2_cos2 phi; rewrite /Rsqr RplusE !RmultE -!expr2 addrC => ->.
have S1 : (sqrt (1 : RR) : RR) = 1 by exact: sqrt_1.
by rewrite S1 !mul1r /ar_psi /amplitude => -[E1 E2]; congr pair.
Qed.

Lemma symm_norm s : symmetry_group s -> (sy_flip s -> D = 2%N) ->
  \sum_(t : L.-tuple 'I_D) prob_one wexp D L constrained count_spins renorm c0 site (map val t) = 1 ->
  \sum_(t : L.-tuple 'I_D) abs2 (psi s (map val t)) = 1.
Proof.
move=> Hg Hf H1; under eq_bigr => t _ do rewrite C103_modulus.
rewrite /prob symmetrised_total ?symmetry_group_ok //.
by move=> t; rewrite pnatr_eq0 -lt0n copies_nonempty.
Qed.
End Gen.

(* the symmetrised states are normalised: spins with zero magnetisation, free spins, electrons *)
Theorem C103_spin_norm c s : (if c then ~~ odd L else (4 <= L)%N) -> symmetry_group s ->
  \sum_(t : L.-tuple 'I_2) abs2 (ar_psi wexp im 2 L c count_spins2 (renorm2 L) (cache0 V 2 M) (model_site out 2 M L md) carg s (map val t)) = 1.
Proof.
move=> HL Hg; apply: symm_norm => //.
have Ha : all (fun o => (o < 2)%N) (nseq L 0%N) by apply/allP => o /nseqP[->].
by have [] := C26_spin_sampler out M wexp_pos md_ok HL (size_nseq L 0%N) Ha.
Qed.
Theorem C103_electron_norm nu nd s : (nu <= L)%N -> (nd <= L)%N -> symmetry_group s -> sy_flip s = false ->
  \sum_(t : L.-tuple 'I_4) abs2 (ar_psi wexp im 4 L true count_spins4 (renorm4 L nu nd) (cache0 V 4 M) (model_site out 4 M L md) carg s (map val t)) = 1.
Proof.
move=> Hnu Hnd Hg Hf; apply: symm_norm => //; first by rewrite Hf.
have Ha : all (fun o => (o < 4)%N) (nseq L 0%N) by apply/allP => o /nseqP[->].
by have [] := C26_electron_sampler out M wexp_pos md_ok Hnu Hnd (size_nseq L 0%N) Ha.
Qed.
End Claim.

Section ModPhase.
Variables (wexp : RR -> RR) (out : seq RR -> RR) (M L : nat).
Hypothesis wexp_pos : forall v, 0 < wexp v.
Variables (md : model [comRingType of RR]) (eps : nat -> nat -> nat -> RR).
Variables (D : nat) (constrained : bool) (count_spins : nat -> seq nat) (renorm : seq nat -> nat -> seq bool).
Local Notation site := (model_site out D M L md).
Local Notation c0 := (cache0 _ D M).
Local Notation prb := (prob wexp D L constrained count_spins renorm c0 site).
Local Notation psi := (modphase_psi wexp D L constrained count_spins renorm c0 site eps).

(* whatever the phase, |psi|^2 is the probability of the autoregressive model *)
Theorem C103_modphase_modulus s x : abs2 (psi s x) = prb s x.
Proof. by rewrite abs2_amplitude // prob_ge0. Qed.
(* the amplitude is invariant if and only if, up to multiples of a full turn, the phase is *)
Theorem C103_modphase_partial s x y : symmetry_group L s -> size x = L -> (sy_flip s -> all (fun o => (o < 2)%N) x) ->
  y \in sym_copies s x -> 0 < prb s x ->
  (psi s y = psi s x <-> cos (modphase_phase L eps y) = cos (modphase_phase L eps x) /\ sin (modphase_phase L eps y) = sin (modphase_phase L eps x)).
Proof.
move=> Hg Hx Hb Hy p0; have Hp := group_lemma Hx Hb (symmetry_group_ok Hg) Hy.
have E : prb s y = prb s x by rewrite /prob !(perm_big _ Hp) /= (seq.perm_size Hp).
rewrite /modphase_psi E /amplitude; split; last by case=> -> ->.
have s0 : (sqrt (prb s x) : RR) != 0 by rewrite gt_eqF //; apply/RltP/sqrt_lt_R0/RltP.
by case=> /(mulfI s0) -> /(mulfI s0) ->.
Qed.
End ModPhase.

(* two sites with the exchange of the sites as symmetry, free modulus, phase parameters with a phase of pi/2 for (0,1) and
   none for (1,0): the modulus-phase model is not symmetric *)
Theorem C103_modphase_refuted : exists (wexp : RR -> RR) out M L (md : model [comRingType of RR]) eps s x y,
  [/\ forall v, 0 < wexp v, symmetry_group L s, size x = L /\ all (fun o => (o < 2)%N) x, y \in sym_copies s x &
   modphase_psi wexp 2 L true count_spins2 (renorm2 L) (cache0 _ 2 M) (model_site out 2 M L md) eps s y <>
   modphase_psi wexp 2 L true count_spins2 (renorm2 L) (cache0 _ 2 M) (model_site out 2 M L md) eps s x].
Proof.
pose s := SymSet (Some [:: [:: 0; 1]; [:: 1; 0]]%N) false.
pose eps (o m i : nat) : RR := if (m == 0)%N && (o == i) then (if i == 0%N then PI / (1 + 1) else 1) else 0.
exists (fun _ => 1), (fun l => \sum_(v <- l) v), 1%N, 2%N, (ARq (fun _ _ _ => 1)), eps, s, [:: 1; 0]%N, [:: 0; 1]%N.
split=> // [v|]; first exact: ltr01.
have Hp x : size x = 2%N -> all (fun o => (o < 2)%N) x -> count_mem 0%N x == count_mem 1%N x ->
    0 < prob_one (fun _ : RR => 1 : RR) 2 2 true count_spins2 (renorm2 2) (cache0 _ 2 1)
      (model_site (fun l => \sum_(v <- l) v) 2 1 2 (ARq (fun _ _ _ => 1))) x.
  move=> Hs Ha Hc.
  have [|_ -> _ //] := @C29_zero_magnetisation _ _ (fun _ : RR => 1 : RR) (fun l => \sum_(v <- l) v) 1 2 _ (ARq (fun _ _ _ => 1)) x isT Hs Ha.
  by move=> v; apply: ltr01.
have Pp : modphase_phase 2 eps [:: 0; 1]%N = (PI / (1 + 1) : RR).
  rewrite /modphase_phase /default_out /get_site_prod /sym_copies /= big_seq1 /site_prod /= !big_cons big_nil !big_ord_recl !big_ord0 /= /eps /=.
  by rewrite !mulr1 !mul0r !addr0.
have P0 : modphase_phase 2 eps [:: 1; 0]%N = 0.
  rewrite /modphase_phase /default_out /get_site_prod /sym_copies /= big_seq1 /site_prod /= !big_cons big_nil !big_ord_recl !big_ord0 /= /eps /=.
  by rewrite !mul0r !addr0.
move/C103_modphase_partial; rewrite Pp P0; case=> //.
- rewrite /prob /sym_copies /= !big_cons big_nil addr0; apply: divr_gt0; last exact: ltr0n.
  by apply: addr_gt0; apply: Hp.
- rewrite cos_0; have -> : (PI / (1 + 1) : RR) = (Rdiv PI 2)%R by rewrite RdivE //; apply/eqP/not_eq_sym/Rlt_not_eq/Rlt_0_2.
  by rewrite cos_PI2 => E _; apply: R1_neq_R0; rewrite E.
Qed.

(* two sites, all parameters one, exchange of the sites: the two configurations have probability one half each *)
Example C103_example : let s := SymSet (Some [:: [:: 0; 1]; [:: 1; 0]]%N) false in
  abs2 (ar_psi (fun _ : RR => 1) id 2 2 true count_spins2 (renorm2 2) (cache0 _ 2 1)
    (model_site (fun l => \sum_(v <- l) v) 2 1 2 (ARq (fun _ _ _ => 1))) (fun _ => 0) s [:: 1; 0]%N) = (1 + 1)^-1 /\ symmetry_group 2 s.
Proof.
split=> //; rewrite C103_modulus; last by move=> v; apply: ltr01.
rewrite /prob /sym_copies /= !big_cons big_nil addr0 /prob_one !big_ord_recl !big_ord0 /conditionals /log_conditionals /= /weights /normalized /= !big_cons !big_nil.
by numq RR.
Qed.

Print Assumptions C103_modulus.
Print Assumptions C103_invariant.
Print Assumptions C103_phase.
Print Assumptions C103_phase_plain.
Print Assumptions C103_spin_norm.
Print Assumptions C103_electron_norm.
Print Assumptions C103_modphase_modulus.
Print Assumptions C103_modphase_partial.
Print Assumptions C103_modphase_refuted.
