(* Sector conservation, update sites and symmetry of the hopping rule. *)
From Verif Require Import Base Fock_Spec Occ_Model Occ_Spec Hopping_Proofs Choice_Model Choice_Proofs Rule_Model Rule_Proofs.
Import Num.Theory Order.TTheory.
Local Open Scope ring_scope.

Section L.
Variable F : realFieldType.
Add Ring RFrl : (r_theory (Num.RealField.comRingType F)).
Implicit Types (x y : cfg) (hp : F) (tp : option (seq (seq F))).

Lemma sum_map_nat (f : nat -> nat) x : \sum_(j <- [seq (f o)%:R | o <- x]) j = (\sum_(o <- x) f o)%N%:R :> F.
Proof. by rewrite big_map natr_sum. Qed.

Lemma start_total exch x : last 0 (cumsum (start_weights F exch x)) =
  (if exch then count single x else (\sum_(o <- x) occ_num o)%N)%:R.
Proof.
rewrite last_cumsum /start_weights; case: exch; last exact: sum_map_nat.
rewrite (sum_map_nat (fun o => single o)); congr (_%:R).
by elim: x => [|o x IH]; rewrite ?big_nil // big_cons IH.
Qed.

Lemma occ_total x : valid x -> (\sum_(o <- x) occ_num o = n_spin Up x + n_spin Dn x)%N.
Proof.
elim: x => [|o x IH]; first by rewrite big_nil.
case/andP => Ho Hv; rewrite big_cons IH // /n_spin /= /occ_num.
by case/lt4_cases: Ho => -> /=; rewrite /has /=; lia.
Qed.

Lemma natr0 n : (n%:R == 0 :> F) = (n == 0%N).
Proof. by rewrite pnatr_eq0. Qed.

Lemma spin_total x a : last 0 (cumsum (spin_weights F x a)) = (occ_num (nth 0%N x a))%:R.
Proof. by rewrite last_cumsum !big_cons big_nil addr0 /occ_num natrD. Qed.

(* spin drawn at an occupied site is a spin present there *)
Lemma spin_possible x a s : choice_prob (spin_weights F x a) s != 0 -> occ_num (nth 0%N x a) != 0%N ->
  is_spin s.+1 /\ has (nth 0%N x a) s.+1.
Proof.
move=> H0 /negbTE Hz; move: H0; rewrite /choice_prob spin_total natr0 Hz.
rewrite mulf_eq0 negb_or => /andP[H _]; case: s H => [|[|s]] //=.
- by rewrite natr0 eqb0 negbK.
- by rewrite natr0 eqb0 negbK.
- by rewrite nth_default ?eqxx.
Qed.

Lemma choice_bool x (f : pred nat) i : (i < size x)%N ->
  choice_prob [seq (nat_of_bool (f o))%:R : F | o <- x] i != 0 ->
  f (nth 0%N x i) \/ (forall o, o \in x -> ~~ f o).
Proof.
move=> Hi; rewrite /choice_prob last_cumsum (sum_map_nat (fun o => f o)) natr0.
case: (altP ((\sum_(o <- x) f o)%N =P 0%N)) => [E _|_].
  right=> o Ho; apply/negP => Hf; move: E; rewrite (big_rem o) //= Hf; lia.
rewrite mulf_eq0 negb_or (nth_map 0%N) // natr0 eqb0 negbK => /andP[-> _]; by left.
Qed.

(* all draws of positive probability: the move is the identity, a hop of a present electron
   to a site without that spin, or an exchange of two singly occupied sites *)
Variant move_kind x exch a s t : Prop :=
  | MoveBlocked of hop_move exch a s t x = x & real_target exch s a t x = a
  | MoveHop of exch = false & has (nth 0%N x a) s & ~~ has (nth 0%N x t) s
  | MoveExch of exch = true & single (nth 0%N x a) & has (nth 0%N x a) s & target_ok true s (nth 0%N x t).

Lemma move_possible hp tp x exch a s t : valid x -> (a < size x)%N -> (t < size x)%N ->
  move_prob hp tp x (exch, a, s, t) != 0 ->
  (0 < n_spin Up x + n_spin Dn x)%N || exch ->
  is_spin s /\ move_kind x exch a s t.
Proof.
move=> Hv Ha Ht; rewrite /move_prob; case: s => [|s] /=; first by rewrite eqxx.
rewrite !mulf_eq0 !negb_or => /andP[/andP[/andP[_ Hst] Hsp] _] Hn.
case: exch Hst Hn => [Hst _|Hst Hn].
  have [Hs|Hnone] : single (nth 0%N x a) \/ (forall o, o \in x -> ~~ single o).
    by apply: (choice_bool Ha); rewrite -[X in choice_prob X](_ : start_weights F true x = _).
  - have Ho : occ_num (nth 0%N x a) != 0%N by case/andP: Hs.
    have [H1 H2] := spin_possible Hsp Ho; split=> //.
    case Hok : (target_ok true s.+1 (nth 0%N x t)); first by apply: MoveExch.
    have Hb := @real_target_no true a s.+1 t x Ht (negbT Hok).
    by apply: MoveBlocked => //; apply: hop_move_blocked.
  - have H1 : is_spin s.+1.
      move: Hsp; rewrite /choice_prob spin_total; case: ifP => _; first by case: s => [|s] //; rewrite eqxx.
      by case: s => [|[|s]] //; rewrite nth_default // mul0r eqxx.
    have Hb : real_target true s.+1 a t x = a.
      by apply: real_target_no => //=; rewrite (negbTE (Hnone _ (mem_nth _ Ht))).
    by split=> //; apply: MoveBlocked => //; apply: hop_move_blocked.
have Ho : occ_num (nth 0%N x a) != 0%N.
  move: Hst; rewrite /choice_prob start_total natr0 occ_total //.
  case: (altP ((n_spin Up x + n_spin Dn x)%N =P 0%N)) => [E|_]; first by move: Hn; rewrite E.
  by rewrite mulf_eq0 negb_or (nth_map 0%N) // natr0 => /andP[].
have [H1 H2] := spin_possible Hsp Ho; split=> //.
case Hok : (has (nth 0%N x t) s.+1).
  have Hb : real_target false s.+1 a t x = a by apply: real_target_no => //=; rewrite Hok.
  by apply: MoveBlocked => //; apply: hop_move_blocked.
by apply: MoveHop => //; rewrite Hok.
Qed.

Definition spin_of (s : nat) : spin := if s == 1%N then Up else Dn.
Lemma spin_ofK s : is_spin s -> spin_int (spin_of s) = s.
Proof. by case/orP => /eqP->. Qed.

(* effect of each kind of move on the numbers of electrons *)
Lemma hop_valid x a s t : valid x -> (a < size x)%N -> (t < size x)%N -> is_spin s ->
  has (nth 0%N x a) s -> ~~ has (nth 0%N x t) s ->
  valid (hop_move false a s t x) /\ forall q, n_spin q (hop_move false a s t x) = n_spin q x.
Proof.
move=> Hv Ha Ht Hs Hoa Hot; have H := hop_move_hop Hv Ha Ht Hs Hoa Hot.
have Hsz := @size_hop_move false a s t x Ha Ht.
have Hne : a != t by apply: (@target_ok_neq false a s t x).
set y := hop_move _ _ _ _ _ in H Hsz *.
have Hta : (nth 0%N x t + s < 4)%N /\ (nth 0%N x a - s < 4)%N /\
   (forall q, has_spin q (nth 0%N x a) + has_spin q (nth 0%N x t) =
       has_spin q (nth 0%N x a - s) + has_spin q (nth 0%N x t + s))%N.
  move: Hoa Hot Hs; rewrite /is_spin.
  by case/lt4_cases: (valid_nth t Hv) => ->; case/lt4_cases: (valid_nth a Hv) => -> H2 H3 /orP[/eqP E|/eqP E];
     move: H2 H3; rewrite E // => _ _; (split; [|split]) => //; case.
case: Hta => Ht4 [Ha4 Hq]; split.
  apply/(all_nthP 0%N) => i _; rewrite H; case: ifP => // _; case: ifP => // _; exact: valid_nth.
move=> q; have := @count_two (has_spin q) x y a t Hsz Ha Ht Hne.
rewrite !H !eqxx [t == a]eq_sym (negbTE Hne) -!addnA Hq /n_spin => E.
by apply/eqP; rewrite -(eqn_add2r (has_spin q (nth 0%N x a - s) + has_spin q (nth 0%N x t + s))%N); apply/eqP/E => i H1 H2; rewrite H (negbTE H1) (negbTE H2).
Qed.

Lemma exch_valid x a s t : valid x -> (a < size x)%N -> (t < size x)%N -> is_spin s ->
  single (nth 0%N x a) -> has (nth 0%N x a) s -> target_ok true s (nth 0%N x t) ->
  valid (hop_move true a s t x) /\ forall p : pred nat, count p (hop_move true a s t x) = count p x.
Proof.
move=> Hv Ha Ht Hs H1 Hoa Hot; have H := hop_move_exch Hv Ha Ht Hs H1 Hoa Hot.
have Hsz := @size_hop_move true a s t x Ha Ht.
have Hne : a != t by apply: (@target_ok_neq true a s t x).
have Hc p : count p (hop_move true a s t x) = count p x by apply: (count_swap p Hsz Ha Ht Hne).
by split=> //; rewrite /valid all_count Hsz Hc -all_count.
Qed.

Lemma C19_lemma hp tp x exch a s t : valid x -> (a < size x)%N -> (t < size x)%N ->
  move_prob hp tp x (exch, a, s, t) != 0 ->
  (0 < n_spin Up x + n_spin Dn x)%N || exch ->
  let y := hop_move exch a s t x in
  [/\ valid y, size y = size x, n_spin Up y = n_spin Up x & n_spin Dn y = n_spin Dn x].
Proof.
move=> Hv Ha Ht Hm Hn y; have Hsz : size y = size x by apply: size_hop_move.
have [Hs [E _|E Hoa Hot|E H1 Hoa Hot]] := move_possible Hv Ha Ht Hm Hn.
- by rewrite /y E.
- by rewrite /y E; have [V H] := hop_valid Hv Ha Ht Hs Hoa Hot; rewrite !H V size_hop_move.
- rewrite /y E; have [V H] := exch_valid Hv Ha Ht Hs H1 Hoa Hot.
  by rewrite V size_hop_move // /n_spin !H.
Qed.

(* start and target coincide only when nothing changes *)
Lemma move_distinct hp tp x exch a s t : valid x -> (a < size x)%N -> (t < size x)%N ->
  move_prob hp tp x (exch, a, s, t) != 0 ->
  (0 < n_spin Up x + n_spin Dn x)%N || exch ->
  a != real_target exch s a t x \/ hop_move exch a s t x = x.
Proof.
move=> Hv Ha Ht Hm Hn.
have [Hs [E _|E Hoa Hot|E H1 Hoa Hot]] := move_possible Hv Ha Ht Hm Hn; [by right| |]; left.
- rewrite real_target_ok //; last by rewrite E.
  by apply: (@target_ok_neq false a s t x).
- rewrite real_target_ok //; last by rewrite E.
  by apply: (@target_ok_neq true a s t x).
Qed.

(* ---- C22 ---- *)
Lemma C22_lemma exch a s t x i : i != a -> i != real_target exch s a t x ->
  nth 0%N (hop_move exch a s t x) i = nth 0%N x i.
Proof.
move=> /negbTE H1 /negbTE H2; rewrite /hop_move; case: exch H2 => H2;
by rewrite !rp_nth_add_at ?H2 ?H1.
Qed.
End L.
