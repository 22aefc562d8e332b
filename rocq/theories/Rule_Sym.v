(* Symmetry of the hopping/exchange proposal distribution. *)
From Verif Require Import Base Fock_Spec Occ_Model Occ_Spec Hopping_Proofs Choice_Model Choice_Proofs Rule_Model Rule_Proofs Rule_Lemmas.
Import Num.Theory Order.TTheory.
Local Open Scope ring_scope.

Section L.
Variable F : realFieldType.
Add Ring RFrs : (r_theory (Num.RealField.comRingType F)).
Implicit Types (x y : cfg) (hp : F) (tp : option (seq (seq F))).

Lemma choice_bool_val x (f : pred nat) i : (i < size x)%N -> f (nth 0%N x i) ->
  choice_prob [seq (nat_of_bool (f o))%:R : F | o <- x] i = (count f x)%:R^-1.
Proof.
move=> Hi Hf; rewrite /choice_prob last_cumsum (sum_map_nat F (fun o => f o)).
have -> : (\sum_(o <- x) f o = count f x)%N by elim: (x) => [|o z IH]; rewrite ?big_nil // big_cons IH.
have H0 : (0 < count f x)%N by rewrite -has_count; apply/hasP; exists (nth 0%N x i) => //; exact: mem_nth.
by rewrite natr0 (gtn_eqF H0) (nth_map 0%N) // Hf mul1r.
Qed.

Lemma spin_val x a s : is_spin s -> has (nth 0%N x a) s ->
  occ_num (nth 0%N x a) != 0%N /\
  choice_prob (spin_weights F x a) s.-1 = (occ_num (nth 0%N x a))%:R^-1.
Proof.
move=> Hs Hh.
have H0 : occ_num (nth 0%N x a) != 0%N.
  by rewrite /occ_num; case/orP: Hs Hh => /eqP-> ->; rewrite ?addn1.
split=> //; rewrite /choice_prob spin_total natr0 (negbTE H0).
by case/orP: Hs Hh => /eqP-> /= ->; rewrite mul1r.
Qed.

Lemma start_spin_hop x a s : valid x -> (a < size x)%N -> is_spin s -> has (nth 0%N x a) s ->
  choice_prob (start_weights F false x) a * choice_prob (spin_weights F x a) s.-1 =
  (n_spin Up x + n_spin Dn x)%N%:R^-1.
Proof.
move=> Hv Ha Hs Hh; have [H0 ->] := spin_val Hs Hh.
rewrite /choice_prob start_total occ_total // natr0.
have Hn : (n_spin Up x + n_spin Dn x != 0)%N.
  rewrite -occ_total // (big_rem _ (mem_nth 0%N Ha)) /=; lia.
rewrite (negbTE Hn) (nth_map 0%N) // mulrAC divff ?mul1r // natr0 //.
Qed.

Lemma single_occ o : single o -> occ_num o = 1%N.
Proof. by rewrite /single /occ_num; case: (has o 1); case: (has o 2). Qed.

Lemma start_spin_exch x a s : (a < size x)%N -> is_spin s -> single (nth 0%N x a) -> has (nth 0%N x a) s ->
  choice_prob (start_weights F true x) a * choice_prob (spin_weights F x a) s.-1 = (count single x)%:R^-1.
Proof.
move=> Ha Hs H1 Hh; have [_ ->] := spin_val Hs Hh.
rewrite (single_occ H1) invr1 mulr1.
exact: (choice_bool_val (f := single) Ha H1).
Qed.

(* the condition on transition_probs under which drawing t from row a and a from row t are
   equally likely *)
Definition rows_sym tp n := forall T, tp = Some T -> forall a t, (a < n)%N -> (t < n)%N ->
  choice_prob (nth [::] T a) t = choice_prob (nth [::] T t) a.

Lemma target_swap tp exch x y a s t : (a < size x)%N -> (t < size x)%N -> size y = size x ->
  rows_sym tp (size x) -> target_ok exch s (nth 0%N x t) -> target_ok exch s (nth 0%N y a) ->
  count (target_ok exch s) y = count (target_ok exch s) x ->
  choice_prob (target_weights tp exch s a x) t = choice_prob (target_weights tp exch s t y) a.
Proof.
move=> Ha Ht Hsz Hr H1 H2 Hc; case: tp Hr => [T|] Hr /=; first exact: Hr.
rewrite /target_mask -!map_comp.
rewrite (choice_bool_val (f := target_ok exch s) Ht H1).
by rewrite (choice_bool_val (f := target_ok exch s)) ?Hsz // Hc.
Qed.

Definition term hp tp x y exch a s t : F :=
  move_prob hp tp x (exch, a, s, t) * ((hop_move exch a s t x == y) : nat)%:R.

Lemma count_nhas x s : valid x -> is_spin s ->
  count (target_ok false s) x = (size x - n_spin (spin_of s) x)%N.
Proof.
move=> Hv Hs; rewrite -(count_predC (has_spin (spin_of s)) x) /n_spin addKn.
apply: eq_in_count => o Ho /=; congr (~~ _).
by rewrite -{1}(spin_ofK Hs) has_has_spin //; move/allP: Hv; apply.
Qed.

Lemma term_half hp tp x y exch a s t : valid x -> valid y -> size y = size x ->
  (0 < n_spin Up x + n_spin Dn x)%N -> (forall q, n_spin q y = n_spin q x) ->
  rows_sym tp (size x) -> x != y -> (a < size x)%N -> (t < size x)%N ->
  term hp tp x y exch a s t != 0 -> term hp tp x y exch a s t = term hp tp y x exch t s a.
Proof.
move=> Hv Hvy Hsz Hn Hq Hr Hxy Ha Ht.
rewrite /term mulf_eq0 negb_or natr0 eqb0 negbK => /andP[Hm /eqP Ey].
have Hne : (0 < n_spin Up x + n_spin Dn x)%N || exch by rewrite Hn.
have [Hs Hk] := move_possible Hv Ha Ht Hm Hne.
have Hs1 : (1 <= s)%N by case/orP: Hs => /eqP->.
rewrite Ey eqxx /move_prob Hs1.
case: Hk => [E _|E Hoa Hot|E H1 Hoa Hot].
- by move: Hxy; rewrite -Ey E eqxx.
- move: Ey; rewrite {Hm Hne}E => Ey.
  have H := hop_move_hop Hv Ha Ht Hs Hoa Hot; rewrite Ey in H.
  have Hat : a != t by apply: (@target_ok_neq false a s t x).
  have Hya : has (nth 0%N y a) s = false /\ has (nth 0%N y t) s.
    rewrite !H !eqxx [t == a]eq_sym (negbTE Hat).
    move: Hoa Hot Hs; rewrite /is_spin.
    by case/lt4_cases: (valid_nth t Hv) => ->; case/lt4_cases: (valid_nth a Hv) => -> H2 H3 /orP[/eqP E|/eqP E];
      move: H2 H3; rewrite E.
  case: Hya => Hya Hyt.
  have Hay : (a < size y)%N by rewrite Hsz.
  have Hty : (t < size y)%N by rewrite Hsz.
  have -> : (hop_move false t s a y == x).
    apply/eqP/(@eq_from_nth _ 0%N); first by rewrite size_hop_move.
    move=> i _; rewrite (hop_move_hop Hvy Hty Hay Hs Hyt (negbT Hya)) !H !eqxx [t == a]eq_sym (negbTE Hat).
    case: (altP (i =P t)) => [->|Hit].
      move: Hot Hs; rewrite /is_spin.
      by case/lt4_cases: (valid_nth t Hv) => -> H2 /orP[/eqP E|/eqP E]; rewrite E.
    case: (altP (i =P a)) => [->|//].
    move: Hoa Hs; rewrite /is_spin.
    by case/lt4_cases: (valid_nth a Hv) => -> H2 /orP[/eqP E|/eqP E]; move: H2; rewrite E.
  rewrite -!(mulrA (choice_prob (kind_weights hp) _)).
  rewrite !start_spin_hop // !Hq; congr (_ * (_ * _ * _)).
  apply: target_swap => //=; first by rewrite Hya.
  by rewrite !count_nhas // Hsz Hq.
- move: Ey; rewrite {Hm Hne}E => Ey.
  have H := hop_move_exch Hv Ha Ht Hs H1 Hoa Hot; rewrite Ey in H.
  have [_ Hc] := exch_valid Hv Ha Ht Hs H1 Hoa Hot; rewrite Ey in Hc.
  have Hat : a != t by apply: (@target_ok_neq true a s t x).
  have Eya : nth 0%N y a = nth 0%N x t by rewrite H eqxx.
  have Eyt : nth 0%N y t = nth 0%N x a by rewrite H [t == a]eq_sym (negbTE Hat) eqxx.
  have Hay : (a < size y)%N by rewrite Hsz.
  have Hty : (t < size y)%N by rewrite Hsz.
  have -> : (hop_move true t s a y == x).
    apply/eqP/(@eq_from_nth _ 0%N); first by rewrite size_hop_move.
    move=> i _; rewrite (hop_move_exch Hvy Hty Hay Hs) ?Eya ?Eyt //.
    case: (altP (i =P t)) => [->//|Hit].
    case: (altP (i =P a)) => [->//|Hia].
    by rewrite H (negbTE Hit) (negbTE Hia).
  rewrite -!(mulrA (choice_prob (kind_weights hp) _)).
  rewrite !start_spin_exch ?Eyt // Hc; congr (_ * (_ * _ * _)).
  apply: target_swap => //; by rewrite Eya.
Qed.

Lemma term_sym hp tp x y exch a s t : valid x -> valid y -> size y = size x ->
  (0 < n_spin Up x + n_spin Dn x)%N -> (forall q, n_spin q y = n_spin q x) ->
  rows_sym tp (size x) -> x != y -> (a < size x)%N -> (t < size x)%N ->
  term hp tp x y exch a s t = term hp tp y x exch t s a.
Proof.
move=> Hv Hvy Hsz Hn Hq Hr Hxy Ha Ht.
case: (altP (term hp tp x y exch a s t =P 0)) => [E|]; last exact: term_half.
case: (altP (term hp tp y x exch t s a =P 0)) => [->//|Hne].
symmetry; apply: term_half => //; rewrite ?Hsz ?Hq //.
by rewrite eq_sym.
Qed.

Lemma vacuum x : valid x -> (n_spin Up x + n_spin Dn x = 0)%N -> x = nseq (size x) 0%N.
Proof.
elim: x => [//|o x IH] /andP[Ho Hv] /= H.
have Eo : o = 0%N by move: H; case/lt4_cases: Ho => -> //=; lia.
by rewrite Eo -IH //; move: H; rewrite Eo.
Qed.

Lemma propose_sym hp tp x y : valid x -> valid y -> size y = size x ->
  (forall q, n_spin q y = n_spin q x) -> rows_sym tp (size x) ->
  propose_prob hp tp x y = propose_prob hp tp y x.
Proof.
move=> Hv Hvy Hsz Hq Hr.
case: (altP (x =P y)) => [->//|Hxy].
case: (posnP (n_spin Up x + n_spin Dn x)%N) => [H0|Hn].
  case/eqP: Hxy; rewrite (vacuum Hv H0) (@vacuum y) ?Hsz //.
  by rewrite !Hq.
rewrite /propose_prob Hsz; apply: eq_bigr => exch _.
rewrite exchange_big [RHS]exchange_big; apply: eq_bigr => s _.
rewrite exchange_big; apply: eq_bigr => t _; apply: eq_bigr => a _.
exact: term_sym.
Qed.
End L.
