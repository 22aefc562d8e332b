(* Property theorem C116: pruning of the integrals below a threshold (scripts/cpd-backflow/cpd_backflow/systems.py
   L153-155, scripts/GPS_for_ab_initio/H_chain_timing_analysis.py L60-66) moves energies by at most the threshold times
   the number of integrals. *)
From Verif Require Import Base Fock_Spec Fock_Proofs Occ_Model Occ_Spec Hopping_Model Hopping_Proofs Hubbard_Proofs.
From Verif Require Import AbInitioOtf_Model AbInitio_Model AbInitio_Lemmas AbInitio_Lemmas2 AbInitio_Props Sparse_Model Sparse_Proofs Sparse_Props Fast_Contract.
From Verif Require Import Mol_Fock Mol_Row Mol_Adj Spin_Algebra Spin_Singlet Basis_Fock Basis_Rot Argps_Model Basis_Model Basis_Props Prune_Model.
Import Order.Theory Num.Theory.
Local Open Scope ring_scope.

Section Bound.
Variables (F : numFieldType) (conj : {rmorphism F -> F}) (L : nat) (xs : seq fock).
Hypothesis Hc : forall x : F, conj x * x = `|x| ^+ 2.
Hypothesis Hxs : all_states L xs.
Implicit Types (psi phi chi : fock -> F) (s : spin).
Notation br := (bracket conj xs).
Definition nrm psi : F := \sum_(x <- xs) `|psi x| ^+ 2.

Lemma norm_conj x : `|conj x| = `|x|.
Proof.
have [->|N] := eqVneq x 0; first by rewrite rmorph0.
apply: (mulIf (x := `|x|)); first by rewrite normr_eq0.
by rewrite -normrM Hc ger0_norm ?expr2 ?mulr_ge0.
Qed.
Lemma nrm_ge0 psi : 0 <= nrm psi.
Proof. by apply: sumr_ge0 => x _; rewrite exprn_ge0. Qed.
Lemma mean2 (a b : F) : `|a| * `|b| + `|a| * `|b| <= `|a| ^+ 2 + `|b| ^+ 2.
Proof.
rewrite -subr_ge0; have -> : `|a| ^+ 2 + `|b| ^+ 2 - (`|a| * `|b| + `|a| * `|b|) = (`|a| - `|b|) ^+ 2.
  by rewrite sqrrB mulr2n addrAC.
by apply: real_exprn_even_ge0 => //; apply: realB; apply: normr_real.
Qed.
Lemma bracket_le phi chi (N : F) : nrm phi <= N -> nrm chi <= N -> `|br phi chi| <= N.
Proof.
move=> H1 H2; have T : `|br phi chi| + `|br phi chi| <= nrm phi + nrm chi.
  have A : `|br phi chi| <= \sum_(x <- xs) `|phi x| * `|chi x|.
    apply: le_trans (ler_norm_sum _ _ _) _; apply: ler_sum => x _; by rewrite normrM norm_conj.
  apply: le_trans (ler_add A A) _; rewrite -!big_split; apply: ler_sum => x _ /=; exact: mean2.
have : `|br phi chi| *+ 2 <= N *+ 2 by rewrite !mulr2n; apply: le_trans T (ler_add H1 H2).
by rewrite ler_muln2r.
Qed.
Lemma nrm_annih s i psi : (i < L)%N -> nrm (annih s i psi) <= nrm psi.
Proof.
move=> Hi; rewrite /nrm (bigID (fun x => occ s i x)) /= big1 ?add0r; last by move=> x O; rewrite /annih O normr0 expr0n.
rewrite [X in _ <= X](bigID (fun x => occ s i x)) /= (flip_sum Hxs s (fun x => `|psi x| ^+ 2) Hi).
rewrite -[X in X <= _]addr0; apply: ler_add; last by apply: sumr_ge0 => x _; rewrite exprn_ge0.
apply: ler_sum => x O; rewrite /annih (negbTE O) normrM /sgn normrX normrN normr1 expr1n mul1r //.
Qed.
Lemma hop_le s p q psi : (p < L)%N -> (q < L)%N -> `|br psi (hop s p q psi)| <= nrm psi.
Proof. by move=> Hp Hq; rewrite /hop (bracket_creat conj Hxs) //; apply: bracket_le; apply: nrm_annih. Qed.
Lemma two_le s s' p q r t psi : (p < L)%N -> (q < L)%N -> (r < L)%N -> (t < L)%N ->
  `|br psi (creat s p (creat s' r (annih s' t (annih s q psi))))| <= nrm psi.
Proof.
move=> Hp Hq Hr Ht; rewrite !(bracket_creat conj Hxs) //.
by apply: bracket_le; apply: le_trans (nrm_annih _ _ _) (nrm_annih _ _ _).
Qed.

Lemma br_lin (I : Type) (l : seq I) phi (f : I -> fock -> F) :
  br phi (fun x => \sum_(k <- l) f k x) = \sum_(k <- l) br phi (f k).
Proof. by rewrite /bracket exchange_big; apply: eq_bigr => x _; rewrite mulr_sumr. Qed.
Lemma brZ phi c (f : fock -> F) : br phi (fun x => c * f x) = c * br phi f.
Proof. by rewrite /bracket mulr_sumr; apply: eq_bigr => x _; rewrite mulrCA. Qed.
Definition mol_br (half : F) (h : nat -> nat -> F) (g : nat -> nat -> nat -> nat -> F) psi : F :=
  (\sum_(s <- [:: Up; Dn]) \sum_(p < L) \sum_(q < L) h p q * br psi (hop s p q psi))
  + half * (\sum_(s <- [:: Up; Dn]) \sum_(s' <- [:: Up; Dn]) \sum_(p < L) \sum_(q < L) \sum_(r < L) \sum_(t < L)
        g p q r t * br psi (creat s p (creat s' r (annih s' t (annih s q psi))))).
Lemma br_mol half h g psi : br psi (molecular L half h g psi) = mol_br half h g psi.
Proof.
rewrite {1}/bracket /molecular /mol_br.
under eq_bigr => x _ do rewrite mulrDr.
rewrite big_split; congr (_ + _).
  rewrite -/(bracket conj xs psi (fun x => _)) br_lin; apply: eq_bigr => s _; rewrite br_lin; apply: eq_bigr => p _.
  by rewrite br_lin; apply: eq_bigr => q _; rewrite brZ.
rewrite -/(bracket conj xs psi (fun x => _)) brZ; congr (_ * _).
rewrite br_lin; apply: eq_bigr => s _; rewrite br_lin; apply: eq_bigr => s' _; rewrite br_lin; apply: eq_bigr => p _.
rewrite br_lin; apply: eq_bigr => q _; rewrite br_lin; apply: eq_bigr => r _; rewrite br_lin; apply: eq_bigr => t _.
by rewrite brZ.
Qed.
Lemma mol_brB half h g h' g' psi : mol_br half h g psi - mol_br half h' g' psi
  = mol_br half (fun p q => h p q - h' p q) (fun p q r t => g p q r t - g' p q r t) psi.
Proof.
rewrite /mol_br opprD addrACA -mulrBr -!sumrB; congr (_ + _ * _).
  apply: eq_bigr => s _; rewrite -sumrB; apply: eq_bigr => p _; rewrite -sumrB; apply: eq_bigr => q _; by rewrite mulrBl.
apply: eq_bigr => s _; rewrite -sumrB; apply: eq_bigr => s' _; rewrite -sumrB; apply: eq_bigr => p _.
rewrite -sumrB; apply: eq_bigr => q _; rewrite -sumrB; apply: eq_bigr => r _; rewrite -sumrB; apply: eq_bigr => t _.
by rewrite mulrBl.
Qed.
Lemma sum_le (f : 'I_L -> F) (B : F) : (forall i, `|f i| <= B) -> `|\sum_(i < L) f i| <= L%:R * B.
Proof.
move=> H; apply: le_trans (ler_norm_sum _ _ _) _; have -> : L%:R * B = \sum_(i < L) B by rewrite sumr_const card_ord mulr_natl.
by apply: ler_sum => i _; apply: H.
Qed.
Lemma spin_le (f : spin -> F) (B : F) : (forall s, `|f s| <= B) -> `|\sum_(s <- [:: Up; Dn]) f s| <= 2%:R * B.
Proof.
move=> H; rewrite !big_cons big_nil addr0; apply: le_trans (ler_norm_add _ _) _.
by rewrite mulr_natl mulr2n; apply: ler_add.
Qed.
Lemma mol_br_le half h g psi (t : F) : half + half = 1 -> 0 <= t ->
  (forall p q, (p < L)%N -> (q < L)%N -> `|h p q| <= t) ->
  (forall p q r u, (p < L)%N -> (q < L)%N -> (r < L)%N -> (u < L)%N -> `|g p q r u| <= t) ->
  `|mol_br half h g psi| <= t * (2%:R * L%:R ^+ 2 + 2%:R * L%:R ^+ 4) * nrm psi.
Proof.
move=> Hh Ht H1 H2.
have Eh : half * 2%:R = 1 by rewrite mulr_natr mulr2n.
have Nh : `|half| = half.
  by have -> : half = 2%:R^-1; [apply: (mulIf (x := 2%:R)); rewrite ?pnatr_eq0 // Eh mulVf ?pnatr_eq0 | rewrite ger0_norm // invr_ge0 ler0n].
apply: le_trans (ler_norm_add _ _) _; rewrite mulrDr mulrDl; apply: ler_add.
  have -> : t * (2%:R * L%:R ^+ 2) * nrm psi = 2%:R * (L%:R * (L%:R * (t * nrm psi))).
    by rewrite expr2 -!mulrA mulrCA; congr (_ * _); rewrite mulrCA; congr (_ * _); rewrite mulrCA.
  apply: spin_le => s; apply: sum_le => p; apply: sum_le => q; rewrite normrM; apply: ler_pmul => //.
    by apply: H1.
  by apply: hop_le.
rewrite normrM Nh.
have -> : t * (2%:R * L%:R ^+ 4) * nrm psi = half * (2%:R * (2%:R * (L%:R * (L%:R * (L%:R * (L%:R * (t * nrm psi))))))).
  rewrite [half * _]mulrA Eh mul1r !exprS expr0 mulr1 -!mulrA mulrCA; congr (_ * _).
  by rewrite mulrCA; congr (_ * _); rewrite mulrCA; congr (_ * _); rewrite mulrCA; congr (_ * _); rewrite mulrCA.
apply: ler_wpmul2l; first by rewrite -Nh.
apply: spin_le => s; apply: spin_le => s'; apply: sum_le => p; apply: sum_le => q; apply: sum_le => r.
apply: sum_le => u; rewrite normrM; apply: ler_pmul => //; [by apply: H2 | by apply: two_le].
Qed.
End Bound.

Section Prune.
Variables (F : numFieldType) (conj : {rmorphism F -> F}) (half : F) (n nu nd : nat).
Hypotheses (Hc : forall x : F, conj x * x = `|x| ^+ 2) (Hh : half + half = 1).
Variables (h : nat -> nat -> F) (g : nat -> nat -> nat -> nat -> F) (thr : option F).
Notation t := (odflt 0 thr).
Hypotheses (Hg : pair_symmetric n g) (Ht : 0 <= t).
Notation h' := (prune1 (@keep_abs F) thr h).
Notation g' := (prune2 (@keep_abs F) thr g).

Lemma prune_le (u v : F) : 0 <= u -> `|v - (if keep_abs u v then v else 0)| <= u.
Proof.
move=> Hu; rewrite /keep_abs; case: ifP => H; first by rewrite subrr normr0.
rewrite subr0; apply: ltW; rewrite real_ltNge ?normr_real ?H //; exact: ger0_real.
Qed.
Lemma prune1_le p q : `|h p q - h' p q| <= t.
Proof.
rewrite /prune1; case: thr Ht => [u|] /= Hu; last by rewrite subrr normr0.
by case: eqP => [_|_]; [rewrite subrr normr0 | exact: prune_le].
Qed.
Lemma prune2_le p q r s : `|g p q r s - g' p q r s| <= t.
Proof.
rewrite /prune2; case: thr Ht => [u|] /= Hu; last by rewrite subrr normr0.
by case: eqP => [_|_]; [rewrite subrr normr0 | exact: prune_le].
Qed.
Lemma prune2_symm : pair_symmetric n g'.
Proof. by move=> p q r s Hp Hq Hr Hs; rewrite /prune2; case: thr => [u|]; rewrite ?(Hg Hp Hq Hr Hs) //; case: eqP => _; rewrite (Hg Hp Hq Hr Hs). Qed.

Section State.
Variable psi : cfg -> F.
Definition sector_psi (f : fock) : F := if sec nu nd (num f.1) (num f.2) then psi (cfg_of f) else 0.
Lemma sector_psiE z : in_space n nu nd z -> sector_psi (fock_of z) = psi z.
Proof.
move=> Hz; have [_ E1 E2] := in_space_fock Hz; rewrite /sector_psi E1 E2 /sec !eqxx cfg_ofK //.
by case/and4P: Hz.
Qed.
Lemma molecular_sector (h0 : nat -> nat -> F) (g0 : nat -> nat -> nat -> nat -> F) x : pair_symmetric n g0 -> in_space n nu nd x ->
  molecular n half h0 g0 (fun f => psi (cfg_of f)) (fock_of x) = molecular n half h0 g0 sector_psi (fock_of x).
Proof.
move=> H0 Hx; have /and4P [Hv /eqP Hs /eqP Hu /eqP Hd] := Hx.
rewrite -!(C08_ab_initio_conn_is_molecular_hamiltonian h0 Hh _ 0%N Hv Hs H0).
apply: eq_big_seq => e; rewrite mem_pmap => /mapP [p Hp Hpe].
have [x' [mel [Ep Vp Sp Np]]] := C04_ab_initio_sector Hv Hp.
move: Hpe; rewrite Ep => -[->] /=; congr (_ * _); rewrite cfg_ofK //; apply/esym/sector_psiE.
by rewrite /in_space Vp Sp !Np Hs Hu Hd !eqxx.
Qed.
Variables (cs : seq cfg) (fast : option (seq nat -> seq nat -> F)).
Hypotheses (Hcs : uniq cs) (Ics : forall x, (x \in cs) = in_space n nu nd x).
Hypothesis Hf : forall x, x \in cs -> fast_ok fast psi x.
Lemma sector_sum xs (G : fock -> F) : all_states n xs -> (forall y, ~~ sec nu nd (num y.1) (num y.2) -> G y = 0) ->
  \sum_(x <- cs) G (fock_of x) = \sum_(y <- xs) G y.
Proof.
move=> [Ux Ix] G0; rewrite (bigID (fun y : fock => sec nu nd (num y.1) (num y.2))) /= [X in _ + X]big1 ?addr0 //.
rewrite -[RHS]big_filter -[LHS](big_map (@fock_of) predT G); apply: perm_big; apply: uniq_perm.
- rewrite map_inj_in_uniq // => x y; rewrite !Ics => /and4P [Hx _ _ _] /and4P [Hy _ _ _] E.
  by rewrite -(cfg_ofK Hx) -(cfg_ofK Hy) E.
- exact: filter_uniq.
move=> y; rewrite mem_filter; apply/mapP/andP.
  move=> [x]; rewrite Ics => Hx ->; have [H1 H2 H3] := in_space_fock Hx; split; last by apply/Ix.
  by rewrite /sec H2 H3 !eqxx.
move=> [Hy /Ix Hon]; have [E1 E2 E3] := fock_cfg Hon; exists (cfg_of y); last by rewrite E1.
by rewrite Ics /in_space E2 E3 eqxx /= !n_spin_fock E1.
Qed.
(* the energy from local energies, as a bracket *)
Lemma energy_br xs (E : cfg -> F) h0 g0 : all_states n xs -> pair_symmetric n g0 ->
  (forall x, x \in cs -> psi x != 0 -> E x * psi x = molecular n half h0 g0 (fun f => psi (cfg_of f)) (fock_of x)) ->
  \sum_(x <- cs) `|psi x| ^+ 2 * E x = mol_br conj n xs half h0 g0 sector_psi.
Proof.
move=> Hxs H0 HE; rewrite -(br_mol conj n xs).
rewrite /bracket -(sector_sum (G := fun y => conj (sector_psi y) * molecular n half h0 g0 sector_psi y) Hxs); last first.
  by move=> y /negbTE N; rewrite /sector_psi N rmorph0 mul0r.
apply: eq_big_seq => x Hx; have Hx' := Hx; rewrite Ics in Hx'.
rewrite sector_psiE // -molecular_sector // -Hc.
have [->|N] := eqVneq (psi x) 0; first by rewrite rmorph0 !mul0r.
by rewrite -HE // -mulrA [psi x * _]mulrC.
Qed.
(* C116: local energies of the Hamiltonian chosen by the threshold against those of the full Hamiltonian *)
Theorem C116_energy :
  `|\sum_(x <- cs) `|psi x| ^+ 2 * pruned_energy half n thr (nu, nd) h g fast psi x
    - \sum_(x <- cs) `|psi x| ^+ 2 * ab_otf half (nu, nd) (t_mat half n h g) g fast psi x|
  <= t * (2%:R * n%:R ^+ 2 + 2%:R * n%:R ^+ 4) * \sum_(x <- cs) `|psi x| ^+ 2.
Proof.
have [xs Hxs] := all_states_exist n.
rewrite (energy_br (h0 := h') (g0 := g') Hxs prune2_symm); last first.
  move=> x Hx N; have /and4P [Hv /eqP Hs /eqP Hu /eqP Hd] : in_space n nu nd x by rewrite -Ics.
  have En : (nu, nd) = (n_spin Up x, n_spin Dn x) by rewrite Hu Hd.
  have A := C10_ab_initio_on_the_fly_hamiltonian h' Hh (Hf Hx) Hv Hs En N prune2_symm.
  have B := C12_sparse_energy_hamiltonian h' Hh (Hf Hx) Hv Hs En N prune2_symm.
  by move: A B; rewrite /pruned_energy; case: (thr) => [u|] A B //; case: ifP.
rewrite (energy_br (h0 := h) (g0 := g) Hxs Hg); last first.
  move=> x Hx N; have /and4P [Hv /eqP Hs /eqP Hu /eqP Hd] : in_space n nu nd x by rewrite -Ics.
  by apply: (C10_ab_initio_on_the_fly_hamiltonian _ Hh (Hf Hx) Hv Hs) => //; rewrite Hu Hd.
rewrite distrC mol_brB.
have -> : \sum_(x <- cs) `|psi x| ^+ 2 = nrm xs sector_psi.
  rewrite /nrm -(sector_sum (G := fun y => `|sector_psi y| ^+ 2) Hxs).
    by apply: eq_big_seq => x; rewrite Ics => Hx; rewrite sector_psiE.
  by move=> y /negbTE N; rewrite /sector_psi N normr0 expr0n.
apply: (mol_br_le Hc Hxs) => // [p q _ _|p q r s _ _ _ _]; [exact: prune1_le | exact: prune2_le].
Qed.
End State.

(* index symmetries of the integrals survive *)
Theorem C116_symmetries p q r s p' q' r' s' :
  (h p q = h p' q' -> h' p q = h' p' q') /\ (g p q r s = g p' q' r' s' -> g' p q r s = g' p' q' r' s').
Proof. by split=> E; rewrite ?/prune1 ?/prune2; case: thr => [u|] //; case: eqP => _; rewrite E. Qed.
End Prune.
Print Assumptions C116_energy.

(* one electron on two orbitals, hopping 1/10 pruned by the threshold 1/5: the energy of the uniform state moves by the
   two elements 1/10 *)
Example C116_example :
  let h (p q : nat) : rat := if p == q then 1 else 10%:R^-1 in
  let e (p q r s : nat) : rat := 0 in
  let E thr := \sum_(x <- [:: [:: 1; 0]%N; [:: 0; 1]%N]) `|1| ^+ 2 * pruned_energy 2%:R^-1 2 thr (1, 0)%N h e None (fun=> 1) x in
  E (Some 20%:R^-1) = 2%:R + 5%:R^-1 /\ E (Some 5%:R^-1) = 2%:R.
Proof. by rewrite /pruned_energy /sp_otf !unlock; split; apply/eqP; vm_compute. Qed.
