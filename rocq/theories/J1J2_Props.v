(* Property theorem C15. *)
From Verif Require Import Base J1J2_Model Hopping_Proofs.
Local Open Scope ring_scope.

Definition is_spin (v : int) := (v == 1) || (v == -1).
Definition up_index (v : int) : nat := nat_of_bool (v == 1).
(* row of a two-site term: sum over the four states (u, v) of the two sites, matrix indexed by
   [idx] *)
Definition two_site_row (F : fieldType) (idx : int -> int -> nat) (psi : seq int -> F) (x : seq int)
    (op : nat -> nat -> F) (ij : nat * nat) : F :=
  \sum_(u <- [:: 1; -1 : int]) \sum_(v <- [:: 1; -1 : int])
     op (idx (nth 0 x ij.1) (nth 0 x ij.2)) (idx u v) * psi (set_nth 0 (set_nth 0 x ij.1 u) ij.2 v).
(* first site least significant: the convention of the code *)
Definition idx_little (u v : int) : nat := (up_index u + 2 * up_index v)%N.
(* first site most significant: the convention of NetKet's LocalOperator *)
Definition idx_big (u v : int) : nat := (2 * up_index u + up_index v)%N.
(* off-diagonal entries couple only the two antiparallel states *)
Definition heisenberg_like (F : fieldType) (op : nat -> nat -> F) :=
  forall a b, (a < 4)%N -> (b < 4)%N -> a != b -> ~~ ((a \in [:: 1; 2]%N) && (b \in [:: 1; 2]%N)) -> op a b = 0.
(* invariant under exchange of the two sites *)
Definition exchange_invariant (F : fieldType) (op : nat -> nat -> F) :=
  [/\ op 1%N 1%N = op 2%N 2%N & op 1%N 2%N = op 2%N 1%N].

(* what is assumed of a model evaluated with use_fast_update: the cache of x and the exchanged
   spins of two sites give the amplitude of the configuration with these spins exchanged *)
Definition exchange_fast_ok (F : fieldType) (fast : option (seq int -> seq nat -> F)) (psi : seq int -> F) (x : seq int) : Prop :=
  if fast is Some f then
    forall i j, (i < size x)%N -> (j < size x)%N -> i != j -> nth 0 x i != nth 0 x j ->
    f [:: nth 0 x j; nth 0 x i] [:: i; j] = psi (set_nth 0 (set_nth 0 x i (nth 0 x j)) j (nth 0 x i))
  else True.

Section C15.
Variables (F : fieldType) (fast : option (seq int -> seq nat -> F)) (psi : seq int -> F) (x : seq int).
Add Ring RF : (r_theory (GRing.Field.comRingType F)).
Hypotheses (Hf : exchange_fast_ok fast psi x) (Hx : all is_spin x) (Hpsi : psi x != 0).

Lemma spin_nth i : (i < size x)%N -> nth 0 x i = 1 \/ nth 0 x i = -1.
Proof. by move=> /(all_nthP 0 Hx) /orP [/eqP ->|/eqP ->]; [left|right]. Qed.

Lemma exchange_connected i j : (i < size x)%N -> (j < size x)%N -> i != j -> nth 0 x i != nth 0 x j ->
  (if fast is Some f then f [:: nth 0 x j; nth 0 x i] [:: i; j]
   else psi (set_nth 0 (set_nth 0 x i (nth 0 x j)) j (nth 0 x i)))
  = psi (set_nth 0 (set_nth 0 x i (nth 0 x j)) j (nth 0 x i)).
Proof. by move: Hf; case: fast => //= f H; apply: H. Qed.

Lemma inner_row op i j : (i < size x)%N -> (j < size x)%N -> i != j -> heisenberg_like op ->
  inner_vmap fast psi x op (i, j) * psi x = two_site_row idx_little psi x op (i, j).
Proof.
move=> Hi Hj ij H; rewrite /inner_vmap /two_site_row !big_cons !big_nil; cbv [fst snd].
have s1 : state_to_local_index 1 = 1%N by [].
have sm : state_to_local_index (-1) = 0%N by [].
have nN := (mul0n, muln1, mul1n, muln0, addn0, add0n, (erefl : 1 + 2 = 3)%N).
have D : set_nth 0 (set_nth 0 x i (nth 0 x i)) j (nth 0 x j) = x.
  by rewrite (set_nth_same Hi (erefl _)) (set_nth_same Hj (erefl _)).
have Hc := fun n => exchange_connected Hi Hj ij n.
case: (spin_nth Hi) => E1; case: (spin_nth Hj) => E2; rewrite E1 E2 in D Hc *; rewrite /= /idx_little /up_index ?s1 ?sm /= ?nN.
- rewrite D (H 3%N 1%N) // (H 3%N 2%N) // (H 3%N 0%N) //; mring (GRing.Field.comRingType F).
- rewrite D (H 1%N 3%N) // (H 1%N 0%N) //.
  have -> : 2 * (2 %% 2)%N%:Z - 1 = -1 :> int by []. have -> : 2 * (2 %/ 2)%N%:Z - 1 = 1 :> int by [].
  rewrite Hc //.
  by rewrite mulrDl -mulrA divfK //; mring (GRing.Field.comRingType F).
- rewrite D (H 2%N 3%N) // (H 2%N 0%N) //.
  have -> : 2 * (1 %% 2)%N%:Z - 1 = 1 :> int by []. have -> : 2 * (1 %/ 2)%N%:Z - 1 = -1 :> int by [].
  rewrite Hc //.
  by rewrite mulrDl -mulrA divfK //; mring (GRing.Field.comRingType F).
- rewrite D (H 0%N 1%N) // (H 0%N 2%N) // (H 0%N 3%N) //; mring (GRing.Field.comRingType F).
Qed.

Theorem C15_heisenberg_on_the_fly ops acting :
  size ops = size acting ->
  all (fun ij => [&& (ij.1 < size x)%N, (ij.2 < size x)%N & ij.1 != ij.2]) acting ->
  (forall k, (k < size ops)%N -> heisenberg_like (nth (fun _ _ => 0) ops k)) ->
  j1j2_local_en fast psi ops acting x * psi x
  = \sum_(k < size ops) two_site_row idx_little psi x (nth (fun _ _ => 0) ops k) (nth (0, 0)%N acting k).
Proof.
move=> Hs Ha Ho; rewrite /j1j2_local_en (big_nth (fun _ _ => 0, (0, 0)%N)) big_mkord size_zip -Hs minnn mulr_suml.
apply: eq_bigr => k _; have Hk := ltn_ord k; rewrite nth_zip //=.
have := Ha => /(all_nthP (0, 0)%N) /(_ k); rewrite -Hs => /(_ Hk) /and3P [H1 H2 H3].
by case: (nth (0, 0)%N acting k) H1 H2 H3 => i j H1 H2 H3; apply: inner_row => //; apply: Ho.
Qed.

(* in NetKet's index convention, for terms invariant under exchange of their sites *)
Theorem C15_heisenberg_on_the_fly_netket ops acting :
  size ops = size acting ->
  all (fun ij => [&& (ij.1 < size x)%N, (ij.2 < size x)%N & ij.1 != ij.2]) acting ->
  (forall k, (k < size ops)%N -> heisenberg_like (nth (fun _ _ => 0) ops k)) ->
  (forall k, (k < size ops)%N -> exchange_invariant (nth (fun _ _ => 0) ops k)) ->
  j1j2_local_en fast psi ops acting x * psi x
  = \sum_(k < size ops) two_site_row idx_big psi x (nth (fun _ _ => 0) ops k) (nth (0, 0)%N acting k).
Proof.
move=> Hs Ha Ho He; rewrite C15_heisenberg_on_the_fly //; apply: eq_bigr => k _; have Hk := ltn_ord k.
have := Ha => /(all_nthP (0, 0)%N) /(_ k); rewrite -Hs => /(_ Hk) /and3P [H1 H2 H3].
have := He k Hk; have := Ho k Hk; move: (nth (fun _ _ => 0) ops k) => op H [S1 S2].
rewrite /two_site_row !big_cons !big_nil.
case: (spin_nth H1) => ->; case: (spin_nth H2) => ->; rewrite /idx_little /idx_big /up_index /=.
- by rewrite !(H 3%N 1%N) // !(H 3%N 2%N) //; mring (GRing.Field.comRingType F).
- rewrite !(H 1%N 3%N) // !(H 1%N 0%N) // !(H 2%N 3%N) // !(H 2%N 0%N) // S1 S2; mring (GRing.Field.comRingType F).
- rewrite !(H 1%N 3%N) // !(H 1%N 0%N) // !(H 2%N 3%N) // !(H 2%N 0%N) // S1 S2; mring (GRing.Field.comRingType F).
- by rewrite !(H 0%N 1%N) // !(H 0%N 2%N) //; mring (GRing.Field.comRingType F).
Qed.
End C15.
Print Assumptions C15_heisenberg_on_the_fly.
Print Assumptions C15_heisenberg_on_the_fly_netket.

(* without exchange invariance the code's index convention differs from NetKet's *)
Theorem C15_netket_index_order_refuted :
  exists (psi : seq int -> rat) x (op : nat -> nat -> rat),
    [/\ all is_spin x, psi x != 0, heisenberg_like op &
        j1j2_local_en None psi [:: op] [:: (0, 1)%N] x * psi x <> two_site_row idx_big psi x op (0, 1)%N].
Proof.
exists (fun=> 1), [:: 1; -1], (fun a b => ((a == 1) && (b == 1))%N%:R); split=> //.
  move=> a b _ _ ab _; case: (altP (a =P 1%N)) => [E|] //=; case: (altP (b =P 1%N)) => // E'.
  by move: ab; rewrite E E'.
apply/eqP; rewrite /j1j2_local_en /two_site_row /= !big_cons !big_nil /inner_vmap; vm_compute.
by [].
Qed.
Print Assumptions C15_netket_index_order_refuted.

(* S.S on one bond: (2 psi(flipped) - psi x) / psi x for antiparallel spins *)
Example C15_example :
  let psi (y : seq int) : rat := if y == [:: 1; -1; 1] then 2%:R else if y == [:: -1; 1; 1] then 5%:R else 1 in
  let op (a b : nat) : rat := if (a == b) then (if (a == 0%N) || (a == 3%N) then 1 else -1) else
                   if (a + b == 3)%N && (a != 0%N) && (b != 0%N) then 2%:R else 0 in
  j1j2_local_en None psi [:: op; op] [:: (0, 1)%N; (2, 0)%N] [:: 1; -1; 1] = 5%:R.
Proof. by rewrite /j1j2_local_en /= !big_cons !big_nil /inner_vmap; vm_compute. Qed.
