(* Adjoints of products of ladder operators; symmetry of the molecular Hamiltonian. *)
From Verif Require Import Base Fock_Spec Fock_Proofs Occ_Spec Hopping_Proofs Hubbard_Proofs Mol_Fock.
Local Open Scope ring_scope.

Section Adj.
Variables (R : comRingType) (L : nat).
Implicit Types (phi : fock -> R) (x y : fock).
Notation op := ((fock -> R) -> (fock -> R)).
Notation delta := (@delta R).

Definition adj (D D' : op) := forall x y, on_sites L x -> on_sites L y -> D (delta y) x = D' (delta x) y.
Definition nice (D : op) := (forall phi phi', eqL L phi phi' -> eqL L (D phi) (D phi')) /\
  (forall c phi y, on_sites L y -> D (fun z => c * phi z) y = c * D phi y).

Lemma nice_creat s i : (i < L)%N -> nice (creat s i).
Proof.
move=> Hi; split=> [phi phi' H|c phi y Hy]; first exact: creat_ext.
by rewrite /creat; case: (occ _ _ _); rewrite ?mulr0 // mulrCA.
Qed.
Lemma nice_annih s i : (i < L)%N -> nice (annih s i).
Proof.
move=> Hi; split=> [phi phi' H|c phi y Hy]; first exact: annih_ext.
by rewrite /annih; case: (occ _ _ _); rewrite ?mulr0 // mulrCA.
Qed.
Lemma nice_comp D E : nice D -> nice E -> nice (fun phi => D (E phi)).
Proof.
move=> [D1 D2] [E1 E2]; split=> [phi phi' H|c phi y Hy]; first by apply: D1; apply: E1.
by rewrite -D2 //; apply: D1 => // z Hz; apply: E2.
Qed.
Lemma nice_id : nice (fun phi => phi).
Proof. by split. Qed.

Lemma annih_delta s p x z : (p < L)%N -> on_sites L x -> on_sites L z ->
  annih s p (delta x) z = if occ s p x then sgn R (before s p x) * delta (setocc s p false x) z else 0.
Proof.
move=> Hp Hx Hz; rewrite (annih_creat_adj _ _ Hz Hx Hp) /creat; case: (occ s p x) => //.
by rewrite /delta eq_sym.
Qed.
Lemma creat_delta s p x z : (p < L)%N -> on_sites L x -> on_sites L z ->
  creat s p (delta x) z = if occ s p x then 0 else sgn R (before s p x) * delta (setocc s p true x) z.
Proof.
move=> Hp Hx Hz; rewrite -(annih_creat_adj _ _ Hx Hz Hp) /annih; case: (occ s p x) => //.
by rewrite /delta eq_sym.
Qed.

Lemma nice0 D y : nice D -> on_sites L y -> D (fun _ => 0) y = 0.
Proof.
move=> [D1 D2] Hy; have := D2 0 (fun _ => 0) y Hy; rewrite [X in _ = X]mul0r => E; apply: etrans E.
by apply: D1 => // z _; rewrite mul0r.
Qed.

Lemma adj_creat s p D D' : (p < L)%N -> nice D' -> adj D D' ->
  adj (fun phi => creat s p (D phi)) (fun phi => D' (annih s p phi)).
Proof.
move=> Hp HD H x y Hx Hy.
have E : eqL L (annih s p (delta x))
   (fun z => if occ s p x then sgn R (before s p x) * delta (setocc s p false x) z else 0).
  by move=> z Hz; apply: annih_delta.
rewrite /= (proj1 HD _ _ E) // /creat; case: (occ s p x); last by rewrite nice0.
by rewrite (proj2 HD) // H //; apply: on_sites_setocc.
Qed.
Lemma adj_annih s p D D' : (p < L)%N -> nice D' -> adj D D' ->
  adj (fun phi => annih s p (D phi)) (fun phi => D' (creat s p phi)).
Proof.
move=> Hp HD H x y Hx Hy.
have E : eqL L (creat s p (delta x))
   (fun z => if occ s p x then 0 else sgn R (before s p x) * delta (setocc s p true x) z).
  by move=> z Hz; apply: creat_delta.
rewrite /= (proj1 HD _ _ E) // /annih; case: (occ s p x); first by rewrite nice0.
by rewrite (proj2 HD) // H //; apply: on_sites_setocc.
Qed.
Lemma adj_id : adj (fun phi => phi) (fun phi => phi).
Proof. by move=> x y _ _; rewrite /delta eq_sym. Qed.

Lemma adj_two s s' p q r t x y : (p < L)%N -> (q < L)%N -> (r < L)%N -> (t < L)%N ->
  on_sites L x -> on_sites L y ->
  creat s p (creat s' r (annih s' t (annih s q (delta y)))) x
  = creat s q (creat s' t (annih s' r (annih s p (delta x)))) y.
Proof.
move=> Hp Hq Hr Ht Hx Hy.
have A1 := adj_annih s Hq nice_id adj_id.
have N1 : nice (fun phi => creat s q phi) by apply: nice_creat.
have A2 := adj_annih s' Ht N1 A1.
have N2 : nice (fun phi => creat s q (creat s' t phi)) by apply: nice_comp => //; apply: nice_creat.
have A3 := adj_creat s' Hr N2 A2.
have N3 : nice (fun phi => creat s q (creat s' t (annih s' r phi))).
  by apply: (nice_comp N2); apply: nice_annih.
exact: (adj_creat s Hp N3 A3).
Qed.

Lemma exchange4 (F : 'I_L -> 'I_L -> 'I_L -> 'I_L -> R) :
  \sum_(p < L) \sum_(q < L) \sum_(r < L) \sum_(t < L) F p q r t
  = \sum_(p < L) \sum_(q < L) \sum_(r < L) \sum_(t < L) F q p t r.
Proof.
rewrite exchange_big; apply: eq_bigr => q _; apply: eq_bigr => p _.
exact: exchange_big.
Qed.

Lemma molecular_symm half h eri x y : on_sites L x -> on_sites L y ->
  (forall p q, (p < L)%N -> (q < L)%N -> h p q = h q p) ->
  (forall p q r t, (p < L)%N -> (q < L)%N -> (r < L)%N -> (t < L)%N -> eri p q r t = eri q p t r) ->
  molecular L half h eri (delta y) x = molecular L half h eri (delta x) y.
Proof.
move=> Hx Hy Hh He; rewrite /molecular; congr (_ + half * _).
  apply: eq_bigr => s _; rewrite exchange_big; apply: eq_bigr => p _; apply: eq_bigr => q _.
  by rewrite Hh // (hop_adj R s Hx Hy).
apply: eq_bigr => s _; apply: eq_bigr => s' _; rewrite exchange4.
apply: eq_bigr => p _; apply: eq_bigr => q _; apply: eq_bigr => r _; apply: eq_bigr => t _.
by rewrite He // adj_two.
Qed.
End Adj.
