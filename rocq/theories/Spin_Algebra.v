(* Bilinears of ladder operators with arbitrary spins, their commutators, and the vector of spin operators
   in second quantisation.  Independent of the code. *)
From Verif Require Import Base Fock_Spec Fock_Proofs Occ_Spec Hopping_Proofs Hubbard_Proofs Mol_Fock.
Local Open Scope ring_scope.

Section Exc.
Variables (R : comRingType) (L : nat).
Implicit Types (psi phi : fock -> R) (x y : fock) (s t : spin).
Add Ring RR : (r_theory R).

(* c+_{s p} c_{t q} *)
Definition exc s p t q psi : fock -> R := creat s p (annih t q psi).
(* c+_{s p} c+_{s' r} c_{t' u} c_{t q} *)
Definition two_body s p s' r t' u t q psi : fock -> R := creat s p (creat s' r (annih t' u (annih t q psi))).

Lemma exc_ext s p t q phi phi' : (p < L)%N -> (q < L)%N -> eqL L phi phi' -> eqL L (exc s p t q phi) (exc s p t q phi').
Proof. by move=> Hp Hq H; apply: creat_ext => //; apply: annih_ext. Qed.
Lemma annihD s i phi phi' x : annih s i (fun y => phi y + phi' y) x = annih s i phi x + annih s i phi' x.
Proof. by rewrite /annih; case: (occ s i x); rewrite ?addr0 ?mulrDr. Qed.
Lemma annihZ s i c phi x : annih s i (fun y => c * phi y) x = c * annih s i phi x.
Proof. by rewrite /annih; case: (occ s i x); rewrite ?mulr0 // mulrCA. Qed.
Lemma creatZ s i c phi x : creat s i (fun y => c * phi y) x = c * creat s i phi x.
Proof. by rewrite /creat; case: (occ s i x); rewrite ?mulr0 // mulrCA. Qed.
Lemma excD s p t q phi phi' x : exc s p t q (fun y => phi y + phi' y) x = exc s p t q phi x + exc s p t q phi' x.
Proof. by rewrite /exc -creatD /creat; case: (occ s p x) => //; rewrite annihD. Qed.
Lemma excZ s p t q c phi x : exc s p t q (fun y => c * phi y) x = c * exc s p t q phi x.
Proof. by rewrite /exc -creatZ /creat; case: (occ s p x) => //; rewrite annihZ. Qed.
Lemma excN s p t q phi x : exc s p t q (fun y => - phi y) x = - exc s p t q phi x.
Proof.
by rewrite -mulN1r -excZ; rewrite /exc /creat; case: (occ s p x) => //; rewrite /annih; case: (occ t q _); rewrite ?mulN1r.
Qed.
Lemma excB s p t q phi phi' x : exc s p t q (fun y => phi y - phi' y) x = exc s p t q phi x - exc s p t q phi' x.
Proof. by rewrite -excN -excD. Qed.

Lemma swap_annih t q t' u psi : (q < L)%N -> (u < L)%N ->
  eqL L (annih t' u (annih t q psi)) (fun y => - annih t q (annih t' u psi) y).
Proof.
move=> Hq Hu z Hz; apply/eqP; rewrite -addr_eq0; apply/eqP; exact: (car_annih t' t Hu Hq psi Hz).
Qed.
(* exchanging the two annihilators *)
Lemma two_body_swap s p s' r t' u t q psi x : on_sites L x -> (p < L)%N -> (q < L)%N -> (r < L)%N -> (u < L)%N ->
  two_body s p s' r t' u t q psi x = - two_body s p s' r t q t' u psi x.
Proof.
move=> Hx Hp Hq Hr Hu; rewrite /two_body -creatN.
apply: (creat_ext s Hp _ Hx) => y Hy; rewrite -creatN.
by apply: (creat_ext s' Hr _ Hy); apply: swap_annih.
Qed.
(* exchanging the two pairs *)
Lemma two_body_pairs s p s' r t' u t q psi x : on_sites L x -> (p < L)%N -> (q < L)%N -> (r < L)%N -> (u < L)%N ->
  two_body s p s' r t' u t q psi x = two_body s' r s p t q t' u psi x.
Proof.
move=> Hx Hp Hq Hr Hu; rewrite two_body_swap //.
have := car_creat s s' Hp Hr (annih t q (annih t' u psi)) Hx.
by rewrite /two_body => /eqP; rewrite addr_eq0 => /eqP ->; rewrite opprK.
Qed.

Lemma exc_exc s p t q s' r t' u psi x : on_sites L x -> (p < L)%N -> (q < L)%N -> (r < L)%N -> (u < L)%N ->
  exc s p t q (exc s' r t' u psi) x
  = two_body s p s' r t' u t q psi x + (if (t == s') && (q == r) then exc s p t' u psi x else 0).
Proof.
move=> Hx Hp Hq Hr Hu.
have E : eqL L (annih t q (creat s' r (annih t' u psi)))
   (fun y => (fun y => if (t == s') && (q == r) then annih t' u psi y else 0) y + creat s' r (annih t' u (annih t q psi)) y).
  move=> y Hy; have := car_mixed t s' Hq Hr (annih t' u psi) Hy => <-.
  rewrite (creat_ext s' Hr (swap_annih t t' psi Hq Hu) Hy) creatN; mring R.
by rewrite /exc (creat_ext s Hp E) // creatD creat_if addrC.
Qed.
Lemma exc_comm s p t q s' r t' u psi x : on_sites L x -> (p < L)%N -> (q < L)%N -> (r < L)%N -> (u < L)%N ->
  exc s p t q (exc s' r t' u psi) x - exc s' r t' u (exc s p t q psi) x
  = (if (t == s') && (q == r) then exc s p t' u psi x else 0) - (if (s == t') && (p == u) then exc s' r t q psi x else 0).
Proof.
move=> Hx Hp Hq Hr Hu; rewrite !exc_exc // (two_body_pairs s) //.
by rewrite [t' == s]eq_sym [u == p]eq_sym; mring R.
Qed.
End Exc.

Section Spin.
Variables (F : fieldType) (L : nat).
Implicit Types (psi phi : fock -> F) (x y : fock).
Add Ring RF : (r_theory (GRing.Field.comRingType F)).
Hypothesis two0 : 2%:R != 0 :> F.
Notation half := (2%:R^-1 : F).

(* S^z_ij = (c+_i^ c_j^ - c+_iv c_jv) / 2, S^+_ij = c+_i^ c_jv, S^-_ij = c+_iv c_j^; a site has i = j *)
Definition Sz i j psi : fock -> F := fun x => half * (exc Up i Up j psi x - exc Dn i Dn j psi x).
Definition Sp i j psi : fock -> F := exc Up i Dn j psi.
Definition Sm i j psi : fock -> F := exc Dn i Up j psi.
Definition S_dot_S i j k l psi : fock -> F := fun x =>
  Sz i j (Sz k l psi) x + half * (Sp i j (Sm k l psi) x + Sm i j (Sp k l psi) x).
(* spin-summed density operators *)
Definition E1 i j psi : fock -> F := fun x => \sum_(s <- [:: Up; Dn]) exc s i s j psi x.
Definition G2 i j k l psi : fock -> F := fun x =>
  \sum_(s <- [:: Up; Dn]) \sum_(t <- [:: Up; Dn]) two_body s i t k t l s j psi x.

Lemma SzSz i j k l psi x : Sz i j (Sz k l psi) x
  = half * half * (exc Up i Up j (exc Up k Up l psi) x - exc Up i Up j (exc Dn k Dn l psi) x
                   - exc Dn i Dn j (exc Up k Up l psi) x + exc Dn i Dn j (exc Dn k Dn l psi) x).
Proof. rewrite /Sz !excZ !excB; mring (GRing.Field.comRingType F). Qed.

Lemma dot_expand i j k l psi x : on_sites L x -> (i < L)%N -> (j < L)%N -> (k < L)%N -> (l < L)%N ->
  S_dot_S i j k l psi x
  = half * half * ((if j == k then (1 + 2%:R) * E1 i l psi x else 0) - G2 i j k l psi x) - half * G2 i l k j psi x.
Proof.
move=> Hx Hi Hj Hk Hl.
have W s t : two_body s i t k t j s l psi x = - two_body s i t k s l t j psi x by apply: (@two_body_swap _ L).
rewrite /S_dot_S SzSz /Sp /Sm !(@exc_exc _ L) //= /E1 /G2 !big_cons !big_nil !W.
set q := half * half; have -> : half = q * (1 + 1) by rewrite /q -mulrA -[1 + 1]/2%:R mulVf ?mulr1.
have -> : 2%:R = 1 + 1 :> F by [].
case: (j == k); rewrite /=; mring (GRing.Field.comRingType F).
Qed.
End Spin.
