(* Proposals from configurations with a single electron: exactly the transition matrix. *)
From Verif Require Import Base Fock_Spec Occ_Model Occ_Spec Hopping_Proofs Choice_Model Choice_Proofs Rule_Model Rule_Proofs Rule_Lemmas Rule_Sym.
Import Num.Theory Order.TTheory.
Local Open Scope ring_scope.

Section L.
Variable F : realFieldType.
Implicit Types (x y : cfg) (hp : F).

(* one up electron on site a of n sites *)
Definition one_up (n a : nat) : cfg := [seq nat_of_bool (i == a) | i <- iota 0 n].

Lemma size_one_up n a : size (one_up n a) = n.
Proof. by rewrite size_map size_iota. Qed.
Lemma nth_one_up n a i : (a < n)%N -> nth 0%N (one_up n a) i = (i == a).
Proof.
move=> Ha; case: (ltnP i n) => Hi; first by rewrite (nth_map 0%N) ?size_iota // nth_iota.
by rewrite nth_default ?size_one_up //; case: eqP => // E; move: Hi; rewrite E leqNgt Ha.
Qed.
Lemma valid_one_up n a : valid (one_up n a).
Proof. by apply/allP => o /mapP[i _ ->]; case: eqP. Qed.

Lemma count_one_up (p : pred nat) n a : (a < n)%N -> p 0%N = false -> count p (one_up n a) = p 1%N.
Proof.
move=> Ha Hp; rewrite count_nth_sum size_one_up (bigD1 (Ordinal Ha)) //= nth_one_up // eqxx.
by rewrite big1 ?addn0 // => i Hi; rewrite nth_one_up // (negbTE (_ : i != a :> nat)) ?Hp.
Qed.

Lemma nspin_one_up q n a : (a < n)%N -> n_spin q (one_up n a) = (if q is Up then 1 else 0)%N.
Proof. by move=> Ha; rewrite /n_spin count_one_up //; case: q. Qed.

Lemma one_up_inj n a b : (a < n)%N -> (b < n)%N -> one_up n a = one_up n b -> a = b.
Proof.
move=> Ha Hb E; have := nth_one_up a Ha; rewrite E nth_one_up // eqxx.
by case: eqP.
Qed.

Lemma sum_single (n : nat) (f : nat -> F) a : (a < n)%N -> (forall i, (i < n)%N -> i != a -> f i = 0) ->
  \sum_(i < n) f i = f a.
Proof.
move=> Ha H; rewrite (bigD1 (Ordinal Ha)) //= big1 ?addr0 // => i Hi.
by apply: H.
Qed.

Lemma propose_single hp T n a t : (a < n)%N -> (t < n)%N -> a != t ->
  propose_prob hp (Some T) (one_up n a) (one_up n t) = choice_prob (kind_weights hp) 0 * choice_prob (nth [::] T a) t.
Proof.
move=> Ha Ht Hat; rewrite /propose_prob size_one_up.
set x := one_up n a; set y := one_up n t.
have Hv : valid x by apply: valid_one_up.
have Hn exch : (0 < n_spin Up x + n_spin Dn x)%N || exch by rewrite !nspin_one_up.
have Hxy : x <> y by move/(one_up_inj Ha Ht)/eqP; rewrite (negbTE Hat).
have Hx i : nth 0%N x i = (i == a) by apply: nth_one_up.
have Hxt : nth 0%N x t = 0%N by rewrite Hx eq_sym (negbTE Hat).
have Hxa : nth 0%N x a = 1%N by rewrite Hx eqxx.
have Hsz : size x = n by apply: size_one_up.
have Hterm exch a' s t' : (a' < n)%N -> (t' < n)%N -> term hp (Some T) x y exch a' s t' != 0 ->
  [/\ exch = false, a' = a, s = 1%N & t' = t].
  move=> Ha' Ht'; rewrite /term mulf_eq0 negb_or natr0 eqb0 negbK => /andP[Hm /eqP Ey].
  rewrite -Hsz in Ha' Ht'; have [Hs [E _|E Hoa Hot|E H1 Hoa /= /andP[Hot1 Hot2]]] := move_possible Hv Ha' Ht' Hm (Hn exch).
  - by case: Hxy; rewrite -Ey E.
  - have Ea : a' = a by move: Hoa; rewrite Hx; case: eqP => // _; case/orP: Hs => /eqP->.
    have Es : s = 1%N by move: Hoa; rewrite Hx Ea eqxx; case/orP: Hs => /eqP->.
    split=> //; move: (Hot); rewrite Hx Es.
    case: (altP (t' =P a)) => // Hne _.
    have := hop_move_hop Hv Ha' Ht' Hs Hoa Hot t'; rewrite -E Ey Ea (negbTE Hne) eqxx Es.
    by rewrite Hx (negbTE Hne) nth_one_up //; case: eqP.
  - have Ea : a' = a by move: Hoa; rewrite Hx; case: eqP => // _; case/orP: Hs => /eqP->.
    have Es : s = 1%N by move: Hoa; rewrite Hx Ea eqxx; case/orP: Hs => /eqP->.
    by move: Hot1 Hot2; rewrite Hx Es; case: (t' == a).
have H0 exch a' s t' : (a' < n)%N -> (t' < n)%N ->
    ~~ [&& ~~ exch, a' == a, s == 1%N & t' == t] -> term hp (Some T) x y exch a' s t' = 0.
  move=> Ha' Ht' Hno; apply/eqP; apply/negPn; apply/negP => /(Hterm _ _ _ _ Ha' Ht') [E1 E2 E3 E4].
  by move: Hno; rewrite E1 E2 E3 E4 !eqxx.
rewrite 2!big_cons big_nil addr0.
rewrite [X in _ + X]big1 ?addr0; last first.
  move=> a' _; rewrite big1 // => s _; rewrite big1 // => t' _; exact: (H0 true).
pose G a' s t' := term hp (Some T) x y false a' s t'.
rewrite (sum_single (f := fun a' : nat => \sum_(s <- [:: 1; 2]%N) \sum_(t' < n) G a' s t') Ha); last first.
  move=> a' Ha' Hne; rewrite big1 // => s _; rewrite big1 // => t' _; apply: H0 => //.
  by rewrite (negbTE Hne).
rewrite 2!big_cons big_nil addr0 [X in _ + X]big1 ?addr0; last first.
  by move=> t' _; apply: H0 => //; rewrite andbF.
rewrite (sum_single (f := fun t' : nat => G a 1%N t') Ht); last first.
  by move=> t' Ht' Hne; apply: H0 => //; rewrite (negbTE Hne) !andbF.
rewrite /G /term.
have -> : (hop_move false a 1 t x == y).
  apply/eqP/(@eq_from_nth _ 0%N); first by rewrite size_hop_move ?Hsz // size_one_up.
  move=> i _; rewrite (hop_move_hop Hv) ?Hsz // ?Hxa ?Hxt // Hx /y nth_one_up //.
  case: (altP (i =P a)) => [->|Hia]; first by rewrite (negbTE Hat).
  by case: (altP (i =P t)).
rewrite mulr1 /move_prob /=.
have := start_spin_hop F (s := 1%N) Hv; rewrite Hsz => /(_ a Ha isT); rewrite Hxa => /(_ isT) /= E.
rewrite -(mulrA (choice_prob (kind_weights hp) 0)) E !nspin_one_up // invr1 mulr1.
by [].
Qed.
End L.
