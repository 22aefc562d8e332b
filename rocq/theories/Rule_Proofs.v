(* Lemmas on the proposal rules. *)
From Verif Require Import Base Fock_Spec Occ_Model Occ_Spec Hopping_Proofs Choice_Model Choice_Proofs Rule_Model.
Import Num.Theory Order.TTheory.
Local Open Scope ring_scope.

Lemma rp_nth_add_at y i d k : nth 0%N (add_at y i d) k = if k == i then u8 ((nth 0%N y i)%:Z + d) else nth 0%N y k.
Proof. by rewrite /add_at nth_set_nth /=; case: eqP. Qed.
Lemma rp_size_add_at y i d : (i < size y)%N -> size (add_at y i d) = size y.
Proof. by move=> H; rewrite /add_at size_set_nth; lia. Qed.

Definition is_spin (s : nat) := (s == 1%N) || (s == 2%N).

Lemma hop_move_blocked exch a s t x : valid x -> (a < size x)%N -> is_spin s ->
  real_target exch s a t x = a -> hop_move exch a s t x = x.
Proof.
move=> Hv Ha Hs Ht; have Ho := valid_nth a Hv.
apply: (@eq_from_nth _ 0%N).
  by rewrite /hop_move Ht; case: exch {Ht}; rewrite !rp_size_add_at.
move=> i _; rewrite /hop_move Ht; case: exch {Ht}; rewrite !rp_nth_add_at ?eqxx;
  case: (altP (i =P a)) => [->|//]; move: Ho Hs; rewrite /is_spin;
  by case/lt4_cases => -> /orP[/eqP->|/eqP->].
Qed.

Lemma target_ok_neq exch a s t x : has (nth 0%N x a) s -> target_ok exch s (nth 0%N x t) -> a != t.
Proof. by move=> Ha; case: exch => /=; apply: contraTneq => <-; rewrite Ha ?andbF. Qed.

Lemma real_target_ok exch a s t x : (t < size x)%N -> target_ok exch s (nth 0%N x t) ->
  real_target exch s a t x = t.
Proof. by move=> Ht Hok; rewrite /real_target (nth_map 0%N) // Hok. Qed.

Lemma real_target_no exch a s t x : (t < size x)%N -> ~~ target_ok exch s (nth 0%N x t) ->
  real_target exch s a t x = a.
Proof. by move=> Ht Hok; rewrite /real_target (nth_map 0%N) // (negbTE Hok). Qed.

Lemma size_hop_move exch a s t x : (a < size x)%N -> (t < size x)%N -> size (hop_move exch a s t x) = size x.
Proof.
move=> Ha Ht; rewrite /hop_move; set r := real_target _ _ _ _ _.
have Hr : (r < size x)%N by rewrite /r /real_target; case: ifP.
by case: exch @r Hr => r Hr; rewrite !rp_size_add_at ?rp_size_add_at ?rp_size_add_at.
Qed.

Lemma hop_move_hop a s t x : valid x -> (a < size x)%N -> (t < size x)%N -> is_spin s ->
  has (nth 0%N x a) s -> ~~ has (nth 0%N x t) s ->
  forall i, nth 0%N (hop_move false a s t x) i =
    if i == a then (nth 0%N x a - s)%N else if i == t then (nth 0%N x t + s)%N else nth 0%N x i.
Proof.
move=> Hv Ha Ht Hs Hoa Hot i.
have Hne : a != t by apply: (@target_ok_neq false a s t x).
rewrite /hop_move (@real_target_ok false a s t x Ht) // !rp_nth_add_at.
case: (altP (i =P t)) => [->|Hit].
  rewrite eq_sym (negbTE Hne); move: Hot Hs; rewrite /is_spin.
  by case/lt4_cases: (valid_nth t Hv) => -> H /orP[/eqP E|/eqP E]; move: H; rewrite E.
case: (altP (i =P a)) => [_|//].
move: Hoa Hs; rewrite /is_spin.
by case/lt4_cases: (valid_nth a Hv) => -> H /orP[/eqP E|/eqP E]; move: H; rewrite E.
Qed.

Lemma hop_move_exch a s t x : valid x -> (a < size x)%N -> (t < size x)%N -> is_spin s ->
  single (nth 0%N x a) -> has (nth 0%N x a) s -> target_ok true s (nth 0%N x t) ->
  forall i, nth 0%N (hop_move true a s t x) i =
    if i == a then nth 0%N x t else if i == t then nth 0%N x a else nth 0%N x i.
Proof.
move=> Hv Ha Ht Hs H1 Hoa Hot i.
have Hne : a != t by apply: (@target_ok_neq true a s t x).
rewrite /hop_move (@real_target_ok true a s t x Ht) // !rp_nth_add_at !eqxx.
rewrite [t == a]eq_sym (negbTE Hne).
case: (altP (i =P t)) => [->|Hit].
  rewrite [t == a]eq_sym (negbTE Hne); move: H1 Hoa Hot Hs; rewrite /is_spin.
  by case/lt4_cases: (valid_nth t Hv) => ->; case/lt4_cases: (valid_nth a Hv) => -> H1 H2 H3 /orP[/eqP E|/eqP E]; move: H2 H3; rewrite E.
case: (altP (i =P a)) => [_|//].
move: H1 Hoa Hot Hs; rewrite /is_spin.
by case/lt4_cases: (valid_nth t Hv) => ->; case/lt4_cases: (valid_nth a Hv) => -> H1 H2 H3 /orP[/eqP E|/eqP E]; move: H2 H3; rewrite E.
Qed.

(* counts after changing two sites *)
Lemma count_nth_sum (p : pred nat) x : count p x = (\sum_(i < size x) p (nth 0%N x i))%N.
Proof.
elim: x => [|o x IH]; first by rewrite big_ord0.
by rewrite big_ord_recl /= IH.
Qed.

Lemma count_two (p : pred nat) x y a t : size y = size x -> (a < size x)%N -> (t < size x)%N -> a != t ->
  (forall i, i != a -> i != t -> nth 0%N y i = nth 0%N x i) ->
  (count p y + p (nth 0%N x a) + p (nth 0%N x t) = count p x + p (nth 0%N y a) + p (nth 0%N y t))%N.
Proof.
move=> Hs Ha Ht Hne Hoff; rewrite !count_nth_sum Hs.
rewrite (bigD1 (Ordinal Ha)) //= (bigD1 (Ordinal Ht)) /=; last by rewrite eq_sym.
rewrite [in RHS](bigD1 (Ordinal Ha)) //= [in RHS](bigD1 (Ordinal Ht)) /=; last by rewrite eq_sym.
rewrite (eq_bigr (fun i : 'I_(size x) => p (nth 0%N x i) : nat)); first by lia.
move=> i /andP[H1 H2]; rewrite Hoff //.
Qed.

Lemma count_swap (p : pred nat) x y a t : size y = size x -> (a < size x)%N -> (t < size x)%N -> a != t ->
  (forall i, nth 0%N y i = if i == a then nth 0%N x t else if i == t then nth 0%N x a else nth 0%N x i) ->
  count p y = count p x.
Proof.
move=> Hs Ha Ht Hne H; have := @count_two p x y a t Hs Ha Ht Hne.
rewrite !H !eqxx [t == a]eq_sym (negbTE Hne) => E.
have : (count p y + p (nth 0%N x a) + p (nth 0%N x t) = count p x + p (nth 0%N x t) + p (nth 0%N x a))%N.
  by apply: E => i H1 H2; rewrite H (negbTE H1) (negbTE H2).
lia.
Qed.
