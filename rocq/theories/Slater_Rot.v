(* C62: the orbitals used for the S^2 projection are spin rotations of the orbitals. *)
From Verif Require Import Base Slater_Model.
Local Open Scope ring_scope.

Section Rot.
Variables (F : fieldType) (L nu nd : nat) (ca sa : F).
Notation N := (nu + nd)%N.
Add Ring RF : (r_theory (GRing.Field.comRingType F)).

(* exp(-i angle S_y): up -> cos up + sin down, down -> - sin up + cos down, on every orbital *)
Definition spin_rotated (ca sa : F) (U : nat -> 'rV[F]_N) (p : nat) : 'rV[F]_N :=
  if (p < L)%N then ca *: U p - sa *: U (p + L)%N else sa *: U (p - L)%N + ca *: U p.

Lemma block_lo (Uup : nat -> 'rV[F]_nu) (Udn : nat -> 'rV[F]_nd) p (j : 'I_N) : (p < L)%N -> (nu <= j)%N -> block_U L Uup Udn p 0 j = 0.
Proof.
move=> Hp Hj; rewrite /block_U Hp; case: (split_ordP j) => k E; rewrite E; last by rewrite row_mxEr mxE.
by move: Hj; rewrite E /= leqNgt ltn_ord.
Qed.
Lemma block_hi (Uup : nat -> 'rV[F]_nu) (Udn : nat -> 'rV[F]_nd) p (j : 'I_N) : (L <= p)%N -> (j < nu)%N -> block_U L Uup Udn p 0 j = 0.
Proof.
move=> Hp Hj; rewrite /block_U ltnNge Hp /=; case: (split_ordP j) => k E; rewrite E; first by rewrite row_mxEl mxE.
by move: Hj; rewrite E /= ltnNge leq_addr.
Qed.

Theorem C62_rotation (Uup : nat -> 'rV[F]_nu) (Udn : nat -> 'rV[F]_nd) p : (p < 2 * L)%N ->
  apply_rotation L ca sa (block_U L Uup Udn) p = spin_rotated ca sa (block_U L Uup Udn) p.
Proof.
move=> Hp; apply/rowP => j; rewrite /apply_rotation /spin_rotated; case: ltnP => HpL; rewrite !mxE; case: ltnP => Hj.
- by rewrite (block_hi _ _ (leq_addl p L) Hj) mul0r mulr0 subr0 addr0 mulrC.
- by rewrite mulrC (mulrC (block_U _ _ _ _ _ _) sa).
- by rewrite mulrC (mulrC (block_U _ _ _ _ _ _) ca).
have HpL' : (p - L < L)%N by lia.
by rewrite (block_lo _ _ HpL' Hj) mulNr mul0r mulr0 oppr0 mulrC.
Qed.

(* the overlaps of all orbitals are preserved *)
Theorem C62_orthonormal (Uup : nat -> 'rV[F]_nu) (Udn : nat -> 'rV[F]_nd) i j : ca ^+ 2 + sa ^+ 2 = 1 ->
  let U := block_U L Uup Udn in let V := apply_rotation L ca sa U in
  \sum_(p < 2 * L) V p 0 i * V p 0 j = \sum_(p < 2 * L) U p 0 i * U p 0 j.
Proof.
move=> H1 U V.
have HV p : (p < 2 * L)%N -> V p = spin_rotated ca sa U p by exact: C62_rotation.
have split2 (G : nat -> F) : \sum_(p < 2 * L) G p = \sum_(p < L) (G p + G (p + L)%N).
  rewrite mul2n -addnn big_split_ord /= big_split /=; congr (_ + _).
  by apply: eq_bigr => p _; rewrite addnC.
rewrite (split2 (fun p => V p 0 i * V p 0 j)) (split2 (fun p => U p 0 i * U p 0 j)); apply: eq_bigr => p _.
have Hp := ltn_ord p; rewrite !HV; [|lia..].
rewrite /spin_rotated Hp (ltnNge (p + L)) leq_addl /= addnK !mxE.
set a := U p 0 i; set b := U (p + L)%N 0 i; set c := U p 0 j; set d := U (p + L)%N 0 j.
have -> : (ca * a - sa * b) * (ca * c - sa * d) + (sa * a + ca * b) * (sa * c + ca * d) = (ca ^+ 2 + sa ^+ 2) * (a * c + b * d).
  by rewrite !expr2; mring (GRing.Field.comRingType F).
by rewrite H1 mul1r.
Qed.
End Rot.

(* one site, one up and one down electron, cos = 3/5, sin = 4/5 *)
Example C62_example : let U := block_U 1 (fun _ => (\row_(j < 1) 1 : 'rV[rat]_1)) (fun _ => (\row_(j < 1) 1 : 'rV[rat]_1)) in
  let V := apply_rotation 1 (3%:R / 5%:R) (4%:R / 5%:R) U in
  [seq V p 0 j | p <- [:: 0; 1]%N, j <- [:: 0; lift 0 0]] = [:: 3%:R / 5%:R; - (4%:R / 5%:R); 4%:R / 5%:R; 3%:R / 5%:R].
Proof.
rewrite /= /apply_rotation /= !mxE /=.
rewrite /block_U /=.
have -> : (0 : 'I_2) = lshift 1 (0 : 'I_1) by apply: val_inj.
have -> : lift (lshift 1 (0 : 'I_1)) 0 = rshift 1 (0 : 'I_1) :> 'I_(1 + 1) by apply: val_inj.
rewrite (unsplitK (inl _ (0 : 'I_1))) (unsplitK (inr _ (0 : 'I_1))) !mxE.
by rewrite !mul1r !mul0r ?addr0 ?add0r ?subr0 ?sub0r ?oppr0 ?mulNr ?mul0r ?oppr0 ?add0r.
Qed.
Print Assumptions C62_orthonormal.
