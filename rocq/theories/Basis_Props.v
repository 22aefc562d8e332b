(* Property theorems C114 and C115: the spectrum of the ab-initio Hamiltonian does not depend on the orthonormal
   basis; integrals kept on disk belong to one orthonormal basis; every rank gets the same integrals. *)
From Coq Require Import String.
From Verif Require Import Base Fock_Spec Fock_Proofs Occ_Model Occ_Spec Hopping_Model Hopping_Proofs Hubbard_Proofs.
From Verif Require Import AbInitio_Model AbInitio_Lemmas AbInitio_Lemmas2 AbInitio_Props Sparse_Proofs.
From Verif Require Import Mol_Fock Mol_Row Mol_Adj Spin_Algebra Spin_Singlet Basis_Fock Basis_Rot Argps_Model Basis_Model.
Local Open Scope ring_scope.

Section Spectrum.
Variables (F : fieldType) (half : F) (n : nat).
Hypothesis Hh : half + half = 1.
Add Ring RF : (r_theory (GRing.Field.comRingType F)).
Notation mat := (nat -> nat -> F).
Notation ten := (nat -> nat -> nat -> nat -> F).

(* the Hamiltonian built from h and g, on amplitudes psi, at configuration x *)
Definition ham (h : mat) (g : ten) (psi : cfg -> F) (x : cfg) : F :=
  \sum_(e <- pmap id (ob_buf (ab_conn_flattened half (t_mat half n h g) g [:: x] [:: 0%N]).1)) e.2 * psi e.1.
(* x is a configuration of the Hilbert space FermionicDiscreteHilbert(n, (nu, nd)) *)
Definition in_space (nu nd : nat) (x : cfg) : bool :=
  [&& valid x, size x == n, n_spin Up x == nu & n_spin Dn x == nd].
Definition eigenvalue (h : mat) (g : ten) (nu nd : nat) (E : F) : Prop :=
  exists psi : cfg -> F, (exists2 x, in_space nu nd x & psi x != 0) /\
    forall x, in_space nu nd x -> ham h g psi x = E * psi x.
(* the columns of C are orthonormal with respect to the overlap S *)
Definition orthonormal (S C : mat) : Prop := forall p q, (p < n)%N -> (q < n)%N ->
  \sum_(m < n) \sum_(k < n) C m p * S m k * C k q = (p == q)%:R.
Definition pair_symmetric (g : ten) : Prop := forall p q r s,
  (p < n)%N -> (q < n)%N -> (r < n)%N -> (s < n)%N -> g p q r s = g r s p q.

(* eigenvalues over the Fock space *)
Definition sec nu nd (a b : nat) : bool := (a == nu) && (b == nd).
Definition feig h g nu nd E := exists psi : fock -> F,
  [/\ exists2 y, on_sites n y & psi y != 0, supp n (sec nu nd) psi & eqL n (molecular n half h g psi) (fun y => E * psi y)].

Lemma in_space_fock nu nd x : in_space nu nd x ->
  [/\ on_sites n (fock_of x), num (fock_of x).1 = nu & num (fock_of x).2 = nd].
Proof.
move=> /and4P [_ /eqP Hs /eqP <- /eqP <-]; split; first by rewrite -Hs; apply: on_sites_fock.
- exact: esym (n_spin_fock Up x).
- exact: esym (n_spin_fock Dn x).
Qed.
Lemma fock_cfg y : on_sites n y -> [/\ fock_of (cfg_of y) = y, valid (cfg_of y) & size (cfg_of y) = n].
Proof.
case: y => [u d] [/= Hu Hd]; move: Hd; rewrite -Hu => Hd.
have A : fock_of (cfg_of (u, d)) = (u, d) /\ valid (cfg_of (u, d)).
  rewrite /cfg_of /fock_of /valid /= -map_comp -map_comp all_map; elim: u d Hd {Hu} => [|a u IH] [|b d] //= [Hd].
  by case: (IH d Hd) => [[-> ->] ->]; rewrite andbT; case: a; case: b.
by case: A => A1 A2; split=> //; rewrite /cfg_of size_map size_zip /= Hd minnn.
Qed.
Lemma eig_fock h g nu nd E : pair_symmetric g -> eigenvalue h g nu nd E <-> feig h g nu nd E.
Proof.
move=> Hg; split=> [[psi [[x Hx Nx] H]]|[psi [[y Hy Ny] Hs H]]].
  pose Psi (f : fock) := if sec nu nd (num f.1) (num f.2) then psi (cfg_of f) else 0.
  have PsiE z : in_space nu nd z -> Psi (fock_of z) = psi z.
    move=> Hz; have [_ E1 E2] := in_space_fock Hz; rewrite /Psi E1 E2 /sec !eqxx cfg_ofK //.
    by case/and4P: Hz.
  have Hsup : supp n (sec nu nd) Psi by move=> y Hy /negbTE N; rewrite /Psi N.
  exists Psi; split=> //.
    by exists (fock_of x); [case: (in_space_fock Hx) | rewrite PsiE].
  move=> y Hy; have [Ps|Ps] := boolP (sec nu nd (num y.1) (num y.2)); last first.
    by rewrite (supp_molecular _ _ _ Hsup) // (Hsup y) // mulr0.
  have [E1 E2 E3] := fock_cfg Hy.
  have Hz : in_space nu nd (cfg_of y).
    by rewrite /in_space E2 E3 eqxx /= !n_spin_fock E1.
  rewrite -{1 2}E1 PsiE // -H // -(C08_ab_initio_conn_is_molecular_hamiltonian h Hh Psi 0%N E2 E3 Hg).
  apply: eq_big_seq => e; rewrite mem_pmap => /mapP [p Hp Hpe].
  have [x' [mel [Ep Vp Sp Np]]] := C04_ab_initio_sector E2 Hp.
  move: Hpe; rewrite Ep => -[->] /=; congr (_ * _); apply: PsiE.
  by case/and4P: Hz => _ _ Hu Hd; rewrite /in_space Vp Sp E3 !Np Hu Hd eqxx.
exists (fun x => psi (fock_of x)); split.
  have [E1 E2 E3] := fock_cfg Hy; exists (cfg_of y); last by rewrite E1.
  rewrite /in_space E2 E3 eqxx /= !n_spin_fock E1.
  by apply: contraNT Ny => N; rewrite (Hs y).
move=> x Hx; have [Hon _ _] := in_space_fock Hx; rewrite -(H _ Hon).
case/and4P: Hx => Hv /eqP Hsz _ _.
by rewrite -(C08_ab_initio_conn_is_molecular_hamiltonian h Hh psi 0%N Hv Hsz Hg).
Qed.

Section Two.
Variables (S hcore : mat) (eri : ten) (C C' : mat).
Hypotheses (HC : orthonormal S C) (HC' : orthonormal S C').

Let mx (A : mat) : 'M[F]_n := \matrix_(i, j) A i j.
Lemma orth_mx (A B : mat) : (forall p q, (p < n)%N -> (q < n)%N ->
  \sum_(m < n) \sum_(k < n) A m p * B m k * A k q = (p == q)%:R) -> (mx A)^T *m mx B *m mx A = 1%:M.
Proof.
move=> H; apply/matrixP => p q; rewrite !mxE -(H p q) //.
under eq_bigr => k _ do rewrite !mxE mulr_suml.
rewrite exchange_big; apply: eq_bigr => m _; apply: eq_bigr => k _; by rewrite !mxE.
Qed.
Definition rotU : mat := fun k p => \sum_(m < n) \sum_(l < n) C m k * S m l * C' l p.
Lemma rotU_mx : mx rotU = (mx C)^T *m mx S *m mx C'.
Proof.
apply/matrixP => k p; rewrite !mxE /rotU exchange_big; apply: eq_bigr => l _.
by rewrite !mxE mulr_suml; apply: eq_bigr => m _; rewrite !mxE.
Qed.
Lemma rot_tt : (mx rotU)^T *m mx rotU = 1%:M.
Proof.
have E1 := orth_mx HC; have E2 := orth_mx HC'.
rewrite rotU_mx !trmx_mul trmxK -!mulmxA [(mx C)^T *m _]mulmxA [mx C *m _]mulmxA (mulmx1C E1) mul1mx.
by apply: trmx_inj; rewrite !trmx_mul !trmxK trmx1 E2.
Qed.
Lemma rot_orth : orth n rotU.
Proof.
move=> p q Hp Hq; have /matrixP /(_ (Ordinal Hp) (Ordinal Hq)) := rot_tt; rewrite !mxE => E.
by apply: etrans E; apply: eq_bigr => k _; rewrite !mxE.
Qed.
Lemma rot_orthT : orth n (tr rotU).
Proof.
move=> p q Hp Hq; have /matrixP /(_ (Ordinal Hp) (Ordinal Hq)) := mulmx1C rot_tt; rewrite !mxE => E.
by apply: etrans E; apply: eq_bigr => k _; rewrite !mxE.
Qed.
Lemma C_of m k : (m < n)%N -> (k < n)%N -> C m k = \sum_(p < n) C' m p * rotU k p.
Proof.
move=> Hm Hk; have E : mx C = mx C' *m (mx rotU)^T.
  have E2 : (mx C')^T *m (mx S)^T *m mx C' = 1%:M by apply: trmx_inj; rewrite !trmx_mul !trmxK trmx1 mulmxA orth_mx.
  by rewrite rotU_mx !trmx_mul trmxK !mulmxA -[mx C' *m _ *m _]mulmxA (mulmx1C E2) mul1mx.
have /matrixP /(_ (Ordinal Hm) (Ordinal Hk)) := E; rewrite !mxE /= => ->.
by apply: eq_bigr => p _; rewrite !mxE.
Qed.

Lemma dot3E (A B : mat) p q : dot3 n A B p q = \sum_(m < n) \sum_(k < n) A m p * A k q * B m k.
Proof.
rewrite /dot3 exchange_big; apply: eq_bigr => k _; rewrite mulr_suml; apply: eq_bigr => m _.
by rewrite -mulrA mulrC [RHS]mulrC -!mulrA [A k q * _]mulrC !mulrA.
Qed.
Lemma rot_h k l : (k < n)%N -> (l < n)%N ->
  dot3 n C hcore k l = \sum_(p < n) \sum_(q < n) dot3 n C' hcore p q * (rotU k p * rotU l q).
Proof.
move=> Hk Hl; rewrite dot3E.
transitivity (\sum_(Q : 'I_n * 'I_n) \sum_(P : 'I_n * 'I_n)
    C' Q.1 P.1 * C' Q.2 P.2 * hcore Q.1 Q.2 * (rotU k P.1 * rotU l P.2)).
  rewrite -(pair_bigA _ (fun a b : 'I_n => \sum_(P : 'I_n * 'I_n) C' a P.1 * C' b P.2 * hcore a b * (rotU k P.1 * rotU l P.2))) /=.
  apply: eq_bigr => a _; apply: eq_bigr => b _; rewrite !C_of // big_distrlr pair_bigA mulr_suml /=.
  by apply: eq_bigr => P _; mring F.
rewrite exchange_big -(pair_bigA _ (fun p q : 'I_n => \sum_(Q : 'I_n * 'I_n) C' Q.1 p * C' Q.2 q * hcore Q.1 Q.2 * (rotU k p * rotU l q))) /=.
apply: eq_bigr => p _; apply: eq_bigr => q _; rewrite -mulr_suml dot3E; congr (_ * _).
by rewrite -(pair_bigA _ (fun a b : 'I_n => C' a p * C' b q * hcore a b)).
Qed.
Lemma prod4 (a b c d : 'I_n -> F) : (\sum_i a i) * (\sum_i b i) * (\sum_i c i) * (\sum_i d i)
  = \sum_(P : ('I_n * 'I_n) * ('I_n * 'I_n)) a P.1.1 * b P.1.2 * c P.2.1 * d P.2.2.
Proof.
rewrite -mulrA [X in X * _]big_distrlr [X in _ * X]big_distrlr !pair_bigA big_distrlr pair_bigA /=.
by apply: eq_bigr => P _; rewrite mulrA.
Qed.
Lemma rot_eri k l m o : (k < n)%N -> (l < n)%N -> (m < n)%N -> (o < n)%N ->
  eri_in n C eri k l m o = \sum_(p < n) \sum_(q < n) \sum_(r < n) \sum_(u < n)
    eri_in n C' eri p q r u * (rotU k p * rotU l q * rotU m r * rotU o u).
Proof.
move=> Hk Hl Hm Ho; rewrite /eri_in !sum4.
pose V (P Q : ('I_n * 'I_n) * ('I_n * 'I_n)) := C' Q.1.1 P.1.1 * C' Q.1.2 P.1.2 * C' Q.2.1 P.2.1 * C' Q.2.2 P.2.2.
pose W (P : ('I_n * 'I_n) * ('I_n * 'I_n)) := rotU k P.1.1 * rotU l P.1.2 * rotU m P.2.1 * rotU o P.2.2.
transitivity (\sum_(Q : ('I_n * 'I_n) * ('I_n * 'I_n)) \sum_(P : ('I_n * 'I_n) * ('I_n * 'I_n))
    V P Q * eri Q.1.1 Q.1.2 Q.2.1 Q.2.2 * W P).
  apply: eq_bigr => Q _; rewrite !C_of //.
  rewrite prod4 mulr_suml; apply: eq_bigr => P _; rewrite /V /W; mring F.
rewrite exchange_big; apply: eq_bigr => P _; rewrite -mulr_suml; congr (_ * _).
by rewrite sum4.
Qed.

Hypothesis Heri : pair_symmetric eri.
Lemma eri_in_symm (A : mat) : pair_symmetric (eri_in n A eri).
Proof.
move=> p q r s Hp Hq Hr Hs; rewrite /eri_in !sum4.
rewrite (reindex_inj (h := fun P : ('I_n * 'I_n) * ('I_n * 'I_n) => (P.2, P.1))) /=; last by move=> [P Q] [P' Q'] [-> ->].
by apply: eq_bigr => P _; rewrite Heri //; mring F.
Qed.
Lemma feig_rot nu nd E : feig (dot3 n C' hcore) (eri_in n C' eri) nu nd E -> feig (dot3 n C hcore) (eri_in n C eri) nu nd E.
Proof.
move=> [psi [[y Hy Ny] Hs H]]; have [xs Hxs] := all_states_exist n.
exists (rot n rotU xs psi); split.
- have [/hasP [z Hz Nz]|N] := boolP (seq.has (fun z => rot n rotU xs psi z != 0) xs).
    by exists z => //; apply/(proj2 Hxs).
  case/negP: Ny; apply/eqP; rewrite -(rot_back Hh Hxs psi rot_orth rot_orthT Hy).
  rewrite {1}/rot big_seq big1 // => z Hz.
  by move/hasPn: N => /(_ _ Hz) /negPn /eqP ->; rewrite mul0r.
- exact: supp_rot.
move=> z Hz; rewrite -(rot_molecular Hh Hxs rot_orth psi Hz rot_h rot_eri).
rewrite (rot_ext _ _ _ H) //; exact: rotZ.
Qed.
End Two.

(* C114: the eigenvalues in a sector of electron numbers are those in any other orthonormal basis *)
Theorem C114_spectrum (S hcore : mat) (eri : ten) (C C' : mat) :
  orthonormal S C -> orthonormal S C' -> pair_symmetric eri ->
  forall nu nd E, eigenvalue (dot3 n C hcore) (eri_in n C eri) nu nd E
    <-> eigenvalue (dot3 n C' hcore) (eri_in n C' eri) nu nd E.
Proof.
move=> HC HC' He nu nd E; have Hs A := eri_in_symm He A.
split=> /(eig_fock _ _ _ _ (Hs _)) H; apply/(eig_fock _ _ _ _ (Hs _)).
  exact: (feig_rot HC' HC).
exact: (feig_rot HC HC').
Qed.

Lemma is_eyeP (S C : mat) : is_eye n C S -> orthonormal S C.
Proof.
move=> /allP H p q Hp Hq; have := H p; rewrite mem_iota => /(_ Hp) /allP /(_ q).
rewrite mem_iota => /(_ Hq) /eqP <-; rewrite /dot3 exchange_big; apply: eq_bigr => k _; rewrite mulr_suml; exact: eq_bigr.
Qed.

(* the ARGPS script: the local basis, once the assertion passed, has the spectrum of the molecular orbitals *)
Theorem C114_argps (hcore S : mat) (eri : ten) (mo loc : mat) h g h' g' :
  argps_integrals n hcore S eri mo true loc = Some (h, g) ->
  argps_integrals n hcore S eri mo false loc = Some (h', g') ->
  orthonormal S mo -> pair_symmetric eri ->
  forall nu nd E, eigenvalue h g nu nd E <-> eigenvalue h' g' nu nd E.
Proof.
rewrite /argps_integrals; case: ifP => // Hl [<- <-] [<- <-] Hm He.
by apply: (C114_spectrum (S := S)) => //; apply: is_eyeP.
Qed.

(* only the integrals of the n orbitals matter *)
Lemma eig_ext (h h' : mat) (g g' : ten) nu nd E : pair_symmetric g -> pair_symmetric g' ->
  (forall p q, (p < n)%N -> (q < n)%N -> h p q = h' p q) ->
  (forall p q r s, (p < n)%N -> (q < n)%N -> (r < n)%N -> (s < n)%N -> g p q r s = g' p q r s) ->
  eigenvalue h g nu nd E -> eigenvalue h' g' nu nd E.
Proof.
move=> Hg Hg' Eh Eg /(eig_fock _ _ _ _ Hg) [psi [H1 H2 H3]]; apply/(eig_fock _ _ _ _ Hg'); exists psi; split=> //.
move=> y Hy; rewrite -(H3 y Hy) /molecular; congr (_ + _ * _).
  by apply: eq_bigr => s _; apply: eq_bigr => p _; apply: eq_bigr => q _; rewrite Eh.
apply: eq_bigr => s _; apply: eq_bigr => t _; apply: eq_bigr => p _; apply: eq_bigr => q _.
by apply: eq_bigr => r _; apply: eq_bigr => u _; rewrite Eg.
Qed.
End Spectrum.

(* two orbitals with energies 1 and 2 and no repulsion, rotated by the angle with cosine 3/5: the Hamiltonian of one
   electron is no longer diagonal, the eigenvalue 1 stays *)
Section SpectrumExample.
Let eye (i j : nat) : rat := (i == j)%:R.
Let turn (i j : nat) : rat := if i == j then 3%:R / 5%:R else if (i < j)%N then - (4%:R / 5%:R) else 4%:R / 5%:R.
Let hc (i j : nat) : rat := if i == j then i.+1%:R else 0.
Let zero4 (i j k l : nat) : rat := 0.
Example C114_rotated : dot3 2 turn hc 0 1 != 0 /\
  eigenvalue 2%:R^-1 2 (dot3 2 turn hc) (eri_in 2 turn zero4) 1 0 1.
Proof.
split; first by rewrite /dot3 !big_ord_recl !big_ord0.
have O (C : nat -> nat -> rat) : is_eye 2 C eye -> orthonormal 2 eye C by exact: is_eyeP.
have H2 : 2%:R^-1 + 2%:R^-1 = 1 :> rat by [].
have Z p q r s : eri_in 2 eye zero4 p q r s = 0.
  by rewrite /eri_in big1 // => k _; rewrite big1 // => l _; rewrite big1 // => m _; rewrite big1 // => o _; rewrite mulr0.
apply/(C114_spectrum H2 hc (S := eye) (C := eye) (C' := turn)) => //.
- by apply: O; rewrite /is_eye /= /dot3 !big_ord_recl !big_ord0.
- by apply: O; rewrite /is_eye /= /dot3 !big_ord_recl !big_ord0.
apply: (@eig_ext _ _ _ H2 hc _ zero4) => //.
- by move=> p q r s *; rewrite !Z.
- by move=> [|[|p]] [|[|q]] // _ _; rewrite /dot3 !big_ord_recl !big_ord0.
exists (fun x => (x == [:: 1%N; 0%N])%:R); split; first by exists [:: 1%N; 0%N].
move=> x /and4P [Hv /eqP Hs /eqP Hu /eqP Hd]; case: x Hv Hs Hu Hd => [|a [|b [|c x]]] // Hv _ Hu Hd.
case: a b Hv Hu Hd => [|[|[|[|a]]]] [|[|[|[|b]]]] // _ _ _.
all: by rewrite /ham /t_mat !unlock; apply/eqP; vm_compute.
Qed.
End SpectrumExample.
Print Assumptions C114_spectrum.
Print Assumptions C114_argps.
