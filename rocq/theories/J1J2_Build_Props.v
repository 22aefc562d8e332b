(* C95: the Hamiltonian of get_J1_J2_Hamiltonian *)
From Verif Require Import Base Hopping_Proofs J1J2_Model J1J2_Props J1J2_Build_Model.
Local Open Scope ring_scope.

Section C95.
Variable F : fieldType.
Hypothesis two0 : 2%:R != 0 :> F.
Add Ring RF : (r_theory (GRing.Field.comRingType F)).
Implicit Types (psi : seq int -> F) (x : seq int) (edges : seq (nat * nat * nat)).

(* (S_i . S_j psi)(x) for spins one half: Sz Sz is a quarter of the product of the signs, the rest exchanges
   antiparallel spins with one half *)
Definition spin_dot psi x (i j : nat) : F :=
  (nth 0 x i * nth 0 x j)%:~R / 4%:R * psi x
  + (if nth 0 x i != nth 0 x j then psi (set_nth 0 (set_nth 0 x i (nth 0 x j)) j (nth 0 x i)) / 2%:R else 0).
Definition spin_hamiltonian (J : nat -> F) edges psi x : F :=
  \sum_(e <- edges) J e.2 * spin_dot psi x e.1.1 e.1.2.
(* (H psi)(x) of NetKet's operator *)
Definition netket_row (H : seq ((nat -> nat -> F) * (nat * nat))) psi x : F :=
  \sum_(o <- H) two_site_row idx_big psi x o.1 o.2.
Definition couplings (J1 J2 : F) (c : nat) : F := if c == 0%N then J1 else if c == 1%N then J2 else 0.
(* minus one for every up spin on the sublattice A *)
Definition marshall (A : nat -> bool) x : F := \prod_(i < size x) (if A i && (nth 0 x i == 1) then -1 else 1).
Definition edges_ok n edges := all (fun e => [&& (e.1.1 < n)%N, (e.1.2 < n)%N & e.1.1 != e.1.2]) edges.

Lemma four0 : 4%:R != 0 :> F.
Proof. by have -> : 4%:R = 2%:R * 2%:R :> F; [rewrite -natrM|rewrite mulf_neq0]. Qed.
Lemma half4 (a : F) : a / 4%:R * 2%:R = a * (1 / 2%:R).
Proof.
have -> : 4%:R = 2%:R * 2%:R :> F by rewrite -natrM.
by rewrite invfM mulrA div1r -mulrA mulVf // mulr1.
Qed.

(* one bond; the sign of the exchange is that of the sign rule *)
Lemma bond_row J sr psi x i j : all is_spin x -> (i < size x)%N -> (j < size x)%N -> i != j ->
  two_site_row idx_big psi x (bond_op (J / 4%:R) sr) (i, j)
  = J * ((nth 0 x i * nth 0 x j)%:~R / 4%:R * psi x
         + (if nth 0 x i != nth 0 x j then (if sr then -1 else 1) * psi (set_nth 0 (set_nth 0 x i (nth 0 x j)) j (nth 0 x i)) / 2%:R else 0)).
Proof.
move=> Hx Hi Hj ij.
have D : set_nth 0 (set_nth 0 x i (nth 0 x i)) j (nth 0 x j) = x.
  by rewrite (set_nth_same Hi (erefl _)) (set_nth_same Hj (erefl _)).
have S k : (k < size x)%N -> nth 0 x k = 1 \/ nth 0 x k = -1.
  by move=> /(all_nthP 0 Hx) /orP [/eqP ->|/eqP ->]; [left|right].
have E a b : bond_op (J / 4%:R) sr a b = J * (sz_sz F a b / 4%:R + (if sr then -1 else 1) * (exchange F a b / 4%:R)).
  by rewrite /bond_op; case: sr; move: (sz_sz F a b) (exchange F a b) (4%:R^-1 : F) => p q r; mring (GRing.Field.comRingType F).
have X : 2%:R / 4%:R = 1 / 2%:R :> F by have := half4 1; rewrite mul1r mulrC => ->; rewrite mul1r.
set sg := if sr then _ else _ in E *.
rewrite /two_site_row !big_cons !big_nil !E.
case: (S i Hi) => Ei; case: (S j Hj) => Ej; rewrite Ei Ej in D *; rewrite ?D /= /idx_big /up_index /sz_sz /exchange /= ?X ?mulN1r ?mulrNN ?mulr1 ?mul0r ?mulr0 ?addr0 ?add0r ?mul1r //.
all: clear E X; move: sg (4%:R^-1 : F) (2%:R^-1 : F) (psi x) (psi _) => a b c d e; try (move: (psi _) => f); try (move: (psi _) => g); mring (GRing.Field.comRingType F).
Qed.

Lemma bond_like J sr : heisenberg_like (bond_op (F := F) J sr).
Proof.
move=> a b Ha Hb ab; rewrite /bond_op /sz_sz ab /exchange !inE !xpair_eqE => N.
have -> : ((a == 1) && (b == 2) || (a == 2) && (b == 1))%N = false.
  by move: N; case: (a =P 1%N) => [->|_]; case: (a =P 2%N) => //=; case: (b =P 1%N) => //=; case: (b =P 2%N).
by case: ifP => _; rewrite ?subr0 ?addr0 mulr0.
Qed.
Section Graph.
Variables (graph : nat -> seq (nat * nat * nat)) (J1 J2 : F) (n : nat).
Hypothesis Hg : forall k, edges_ok n (graph k).
Let g := graph (if J2 != 0 then 2%N else 1%N).
(* without next-nearest neighbours there is only one colour *)
Hypothesis Hc : all (fun e => e.2 == 0%N) (graph 1%N).
Hypothesis Hc2 : all (fun e => (e.2 < 2)%N) (graph 2%N).

Lemma g_colour e : e \in g -> nth 0 (if J2 != 0 then [:: J1 / 4%:R; J2 / 4%:R] else [:: J1 / 4%:R]) e.2 = couplings J1 J2 e.2 / 4%:R.
Proof.
rewrite /g; case: ifP => _ He.
  have := allP Hc2 e He; by case: e.2 => [|[|]].
by have /eqP -> := allP Hc e He.
Qed.
Lemma buildE sr : get_J1_J2_Hamiltonian graph J1 J2 sr false
  = Some (netket_heisenberg g (if J2 != 0 then [:: J1 / 4%:R; J2 / 4%:R] else [:: J1 / 4%:R]) sr).
Proof. by rewrite /get_J1_J2_Hamiltonian /g; case: (J2 != 0). Qed.

(* no sign rule: J1 sum S.S over nearest and J2 sum S.S over next-nearest neighbours *)
Theorem C95_hamiltonian psi x : all is_spin x -> size x = n ->
  exists2 H, get_J1_J2_Hamiltonian graph J1 J2 [:: false; false] false = Some H &
    netket_row H psi x = spin_hamiltonian (couplings J1 J2) g psi x.
Proof.
move=> Hx Hn; rewrite buildE; eexists; first reflexivity.
rewrite /netket_row /netket_heisenberg big_map; apply: eq_big_seq => e He /=.
have /and3P [H1 H2 H3] := allP (Hg _) e He.
rewrite g_colour //; case: e {He} H1 H2 H3 => [[i j] c] /= H1 H2 H3.
have -> : nth false [:: false; false] c = false by case: c => [|[|c]] //=; rewrite nth_nil.
by rewrite bond_row ?Hn // /spin_dot; congr (_ * (_ + _)); case: ifP => // _; rewrite mul1r.
Qed.

Lemma marshall2 A x : marshall A x * marshall A x = 1.
Proof. by rewrite -big_split big1 // => i _ /=; case: ifP => _; rewrite ?mulrNN mulr1. Qed.
Lemma marshall_set A x i v : (i < size x)%N ->
  marshall A (set_nth 0 x i v) = marshall A x * (if A i && ((v == 1) (+) (nth 0 x i == 1)) then -1 else 1).
Proof.
move=> Hi; rewrite /marshall size_set_nth (maxn_idPr Hi).
rewrite (bigD1 (Ordinal Hi)) //= [in RHS](bigD1 (Ordinal Hi)) //= nth_set_nth /= eqxx.
rewrite (eq_bigr (fun k : 'I_(size x) => if A k && (nth 0 x k == 1) then -1 else 1)); last first.
  by move=> k Hk; rewrite nth_set_nth /=; have -> : (k == i :> nat) = false by apply/negbTE.
rewrite mulrAC; congr (_ * _).
by case: (A i); case: (v == 1); case: (nth 0 x i == 1); rewrite /= ?mulrNN ?mulr1 ?mul1r.
Qed.
Lemma marshall_swap A x i j : all is_spin x -> (i < size x)%N -> (j < size x)%N -> i != j -> nth 0 x i != nth 0 x j ->
  marshall A (set_nth 0 (set_nth 0 x i (nth 0 x j)) j (nth 0 x i)) = (if A i (+) A j then -1 else 1) * marshall A x.
Proof.
move=> Hx Hi Hj ij Hd; rewrite !marshall_set ?size_set_nth ?(maxn_idPr Hi) // nth_set_nth /= [j == i]eq_sym (negbTE ij).
have -> : (nth 0 x j == 1) (+) (nth 0 x i == 1) = true.
  have := all_nthP 0 Hx _ Hi; have := all_nthP 0 Hx _ Hj; rewrite /is_spin.
  by move: Hd => /eqP Hd /orP [] /eqP Ej /orP [] /eqP Ei; move: Hd; rewrite Ej Ei.
rewrite addbC; have -> : (nth 0 x j == 1) (+) (nth 0 x i == 1) = true.
  have := all_nthP 0 Hx _ Hi; have := all_nthP 0 Hx _ Hj; rewrite /is_spin.
  by move: Hd => /eqP Hd /orP [] /eqP Ej /orP [] /eqP Ei; move: Hd; rewrite Ej Ei.
by rewrite !andbT -mulrA mulrC; congr (_ * _); case: (A i); case: (A j); rewrite /= ?mulrNN ?mulr1 ?mul1r.
Qed.

(* the sign rule on the nearest neighbours, on a bipartite lattice whose next-nearest neighbours are on the same
   sublattice: the same Hamiltonian for amplitudes with the sign of Marshall *)
Theorem C95_marshall (A : nat -> bool) psi x : all is_spin x -> size x = n ->
  (forall e, e \in g -> A e.1.1 (+) A e.1.2 = (e.2 == 0%N)) ->
  exists2 H, get_J1_J2_Hamiltonian graph J1 J2 [:: true; false] false = Some H &
    netket_row H psi x = marshall A x * spin_hamiltonian (couplings J1 J2) g (fun y => marshall A y * psi y) x.
Proof.
move=> Hx Hn HA; rewrite buildE; eexists; first reflexivity.
rewrite /netket_row /netket_heisenberg /spin_hamiltonian big_map mulr_sumr; apply: eq_big_seq => e He /=.
have /and3P [H1 H2 H3] := allP (Hg _) e He.
have := HA e He; rewrite g_colour //; case: e {He} H1 H2 H3 => [[i j] c] /= H1 H2 H3 Hs.
have -> : nth false [:: true; false] c = (c == 0%N) by case: c {Hs} => [|[|c]] //=; rewrite nth_nil.
rewrite bond_row ?Hn // /spin_dot mulrCA; congr (_ * _); rewrite mulrDr; congr (_ + _).
  by rewrite [RHS]mulrCA [X in _ = _ * X]mulrA marshall2 mul1r.
case: ifP => Hd; last by rewrite mulr0.
rewrite marshall_swap ?Hn // Hs; set sg := if _ then _ else _; move: (psi _) (2%:R^-1 : F) => p q.
have := marshall2 A x; move: (marshall A x) => m Hm.
have -> : m * (sg * m * p * q) = m * m * (sg * p * q) by mring (GRing.Field.comRingType F).
by rewrite Hm mul1r.
Qed.

(* the on-the-fly class cannot be constructed *)
Theorem C95_on_the_fly_fails sr : get_J1_J2_Hamiltonian graph J1 J2 sr true = None.
Proof. by rewrite /get_J1_J2_Hamiltonian; case: (J2 != 0). Qed.
(* with the operators of NetKet's class the on-the-fly energy would be right *)
Theorem C95_on_the_fly_partial fast psi x (sr : seq bool) : all is_spin x -> size x = n -> psi x != 0 -> exchange_fast_ok fast psi x ->
  exists2 H, get_J1_J2_Hamiltonian graph J1 J2 sr false = Some H &
    j1j2_local_en fast psi [seq o.1 | o <- H] [seq o.2 | o <- H] x * psi x = netket_row H psi x.
Proof.
move=> Hx Hn Hp Hf; rewrite buildE; eexists; first reflexivity.
set J := (if J2 != 0 then _ else _).
have M1 : [seq o.1 | o <- netket_heisenberg g J sr] = [seq bond_op (nth 0 J e.2) (nth false sr e.2) | e <- g] by rewrite /netket_heisenberg -map_comp.
have M2 : [seq o.2 | o <- netket_heisenberg g J sr] = [seq e.1 | e <- g] by rewrite /netket_heisenberg -map_comp.
rewrite M1 M2 C15_heisenberg_on_the_fly_netket //.
- rewrite size_map /netket_row /netket_heisenberg big_map (big_nth (0, 0, 0)%N) big_mkord; apply: eq_bigr => k _.
  by rewrite !(nth_map (0, 0, 0)%N).
- by rewrite !size_map.
- by rewrite all_map; apply/allP => e He /=; rewrite Hn; have := allP (Hg _) e He.
- by move=> k; rewrite size_map => Hk; rewrite (nth_map (0, 0, 0)%N) //; exact: bond_like.
by move=> k; rewrite size_map => Hk; rewrite (nth_map (0, 0, 0)%N).
Qed.
End Graph.
End C95.

(* the example of the tutorial asks for the on-the-fly class: no operator, although the chain has one *)
Theorem C95_on_the_fly_refuted : exists (graph : nat -> seq (nat * nat * nat)) (H : seq ((nat -> nat -> rat) * (nat * nat))),
  [/\ forall k, edges_ok 4 (graph k), get_J1_J2_Hamiltonian graph 1 0 [:: true] false = Some H,
      netket_row H (fun=> 1) [:: 1; -1; 1; -1] = - 3%:R & get_J1_J2_Hamiltonian graph (1 : rat) 0 [:: true] true = None].
Proof.
exists (fun=> [:: (0, 1, 0); (1, 2, 0); (2, 3, 0); (3, 0, 0)]%N); eexists; split; [by []|reflexivity| |by []].
rewrite /netket_row /netket_heisenberg /two_site_row !unlock /=; apply/eqP; vm_compute; by [].
Qed.
(* Marshall: 4-site ring *)
Example C95_ex : marshall rat_fieldType (fun i => odd i) [:: 1; 1; -1; 1] = 1 /\ marshall rat_fieldType (fun i => odd i) [:: 1; 1; 1; -1] = -1.
Proof. by rewrite /marshall /= !big_ord_recl !big_ord0 /=. Qed.
