(* C40: the Jastrow factor *)
From Verif Require Import Base Jastrow_Model.
Local Open Scope ring_scope.

(* exchange of up and down on one site *)
Definition flip_spin (o : nat) : nat := nth 0%N [:: 0; 2; 1; 3]%N o.

Section C40.
Variable F : comRingType.
Add Ring RC : (r_theory F).

Lemma occ_flip o : (o < 4)%N -> occ_up (flip_spin o) = occ_dn o /\ occ_dn (flip_spin o) = occ_up o.
Proof. by case: o => [|[|[|[|]]]]. Qed.

Theorem C40_spin_exchange (K : nat -> nat -> F) perms x : all (fun o => o < 4)%N x ->
  jastrow K perms (map flip_spin x) = jastrow K perms x.
Proof.
move=> Hx; rewrite /jastrow size_map; apply: eq_bigr => p _.
rewrite [LHS]exchange_big; apply: eq_bigr => i _; apply: eq_bigr => j _.
have E k : nth 0%N [seq nth 0%N (map flip_spin x) k | k <- p] k = flip_spin (nth 0%N [seq nth 0%N x k | k <- p] k).
  have N l : nth 0%N (map flip_spin x) l = flip_spin (nth 0%N x l).
    by case: (ltnP l (size x)) => H; [rewrite (nth_map 0%N)|rewrite !nth_default ?size_map].
  case: (ltnP k (size p)) => H; last by rewrite !nth_default ?size_map.
  by rewrite [LHS](nth_map 0%N) // [X in flip_spin X](nth_map 0%N) // N.
have B k : (nth 0%N [seq nth 0%N x k | k <- p] k < 4)%N.
  case: (ltnP k (size p)) => H; last by rewrite nth_default ?size_map.
  rewrite (nth_map 0%N) //; case: (ltnP (nth 0%N p k) (size x)) => H'; last by rewrite nth_default.
  exact: (allP Hx _ (mem_nth _ H')).
rewrite !E; have [-> _] := occ_flip (B j); have [_ ->] := occ_flip (B i).
mring F.
Qed.

(* kernels with the same symmetric part *)
Theorem C40_symmetric_part (K K' : nat -> nat -> F) perms x :
  (forall i j, (i < size x)%N -> (j < size x)%N -> K i j + K j i = K' i j + K' j i) ->
  jastrow K perms x = jastrow K' perms x.
Proof.
by move=> H; apply: eq_bigr => p _; apply: eq_bigr => i _; apply: eq_bigr => j _; rewrite /= H.
Qed.

(* the value: the symmetrised kernel summed over sites without an up and sites without a down electron *)
Theorem C40_value (K : nat -> nat -> F) x : all (fun o => o < 4)%N x ->
  jastrow K [:: iota 0 (size x)] x =
  \sum_(i < size x | nth 0%N x i \notin [:: 1; 3]%N) \sum_(j < size x | nth 0%N x j \notin [:: 2; 3]%N) (K i j + K j i).
Proof.
move=> Hx; rewrite /jastrow big_seq1 map_nth_iota0 // take_size [RHS]big_mkcond; apply: eq_bigr => i _.
have B (k : 'I_(size x)) : (nth 0%N x k < 4)%N by apply: (allP Hx); rewrite mem_nth.
have U o : (o < 4)%N -> 1 - (occ_up o)%:R = (if o \notin [:: 1; 3]%N then 1 else 0) :> F.
  by case: o => [|[|[|[|]]]] //= _; rewrite ?subr0 ?subrr.
have D o : (o < 4)%N -> 1 - (occ_dn o)%:R = (if o \notin [:: 2; 3]%N then 1 else 0) :> F.
  by case: o => [|[|[|[|]]]] //= _; rewrite ?subr0 ?subrr.
rewrite U //; case: ifP => _; last by rewrite big1 // => j _; rewrite !mul0r.
rewrite [RHS]big_mkcond; apply: eq_bigr => j _; rewrite D //; case: ifP => _; mring F.
Qed.
End C40.

Example C40_example : let K := fun i j : nat => (10 * i + j)%N%:R : int in
  jastrow K [:: [:: 0; 1; 2]%N] [:: 0; 1; 2]%N = 66%:R /\ jastrow K [:: [:: 0; 1; 2]%N] [:: 0; 2; 1]%N = 66%:R.
Proof. by split; apply/eqP; rewrite /jastrow big_seq1 !big_ord_recl !big_ord0; vm_compute. Qed.
