(* C19-C23: Metropolis proposal rules. *)
From Verif Require Import Base Fock_Spec Occ_Model Occ_Spec Hopping_Proofs Choice_Model Choice_Proofs Rule_Model Rule_Proofs Rule_Lemmas Rule_Sym Rule_Single.
Import Num.Theory Order.TTheory.
Local Open Scope ring_scope.

Section Hop.
Variable F : realFieldType.
Implicit Types (x y : cfg) (hp : F) (tp : option (seq (seq F))).

(* C19, for every configuration with at least one electron (any number of sites, any
   hop probability, with or without transition_probs) and every outcome of the four draws
   that has non-zero probability; exchanges also for the empty configuration.  Missing:
   hops from the empty configuration, which leave the Hilbert space (next theorem). *)
Theorem C19_hopping_sector_partial hp tp x exch a s t :
  valid x -> (a < size x)%N -> (t < size x)%N ->
  (0 < n_spin Up x + n_spin Dn x)%N || exch ->
  move_prob hp tp x (exch, a, s, t) != 0 ->
  let y := (apply_electron_hop x (exch, a, s, t)).1.1 in
  [/\ valid y, size y = size x, n_spin Up y = n_spin Up x & n_spin Dn y = n_spin Dn x].
Proof. by move=> Hv Ha Ht Hn Hm; apply: C19_lemma Hm Hn. Qed.

(* the four draws always have total probability 1 *)
Lemma choice_prob_sum (p : seq F) : (0 < size p)%N -> \sum_(i < size p) choice_prob p i = 1.
Proof.
move=> Hp; rewrite /choice_prob last_cumsum; case: eqP => [_|/eqP H0].
  by rewrite (sum_single (f := fun i => (i == 0%N)%:R) Hp) // => i _ /negbTE->.
have E : \sum_(i < size p) nth 0 p i = \sum_(j <- p) j by rewrite (big_nth 0) big_mkord.
by rewrite -mulr_suml E divff.
Qed.

Theorem C19_draws_normalised hp tp x : (0 < size x)%N ->
  (forall t, tp = Some t -> forall a, (a < size x)%N -> size (nth [::] t a) = size x) ->
  \sum_(exch <- [:: false; true]) \sum_(a < size x) \sum_(s <- [:: 1; 2]%N) \sum_(t < size x)
     move_prob hp tp x (exch, a : nat, s, t : nat) = 1.
Proof.
move=> Hx Htp.
have Hsz exch s a : (a < size x)%N -> size (target_weights tp exch s a x) = size x.
  by move=> Ha; case: tp Htp => [t|] Htp /=; [apply: Htp | rewrite !size_map].
have H2 (p : seq F) : size p = 2%N -> choice_prob p 0 + choice_prob p 1 = 1.
  by move=> E; have := @choice_prob_sum p; rewrite E => <- //; rewrite !big_ord_recl big_ord0 addr0.
have Hk exch : \sum_(a < size x) \sum_(s <- [:: 1; 2]%N) \sum_(t < size x)
     move_prob hp tp x (exch, a : nat, s, t : nat) = choice_prob (kind_weights hp) (exch : nat).
  rewrite -[RHS]mulr1 -(choice_prob_sum (p := start_weights F exch x)) ?size_map // mulr_sumr.
  apply: eq_bigr => a _; rewrite -[RHS]mulr1 -(H2 (spin_weights F x a)) // mulrDr !big_cons big_nil addr0.
  congr (_ + _); rewrite /move_prob /= -mulr_sumr -[RHS]mulr1; congr (_ * _).
  + by rewrite -(choice_prob_sum (p := target_weights tp exch 1 a x)) ?Hsz.
  + by rewrite -(choice_prob_sum (p := target_weights tp exch 2 a x)) ?Hsz.
by rewrite !big_cons big_nil addr0 !Hk; apply: H2.
Qed.

(* C20: for all configurations x, y with the same number of sites and electrons and every
   hop probability, the proposal probabilities are symmetric. *)
Theorem C20_hopping_symmetric hp x y : valid x -> valid y -> size y = size x ->
  n_spin Up y = n_spin Up x -> n_spin Dn y = n_spin Dn x ->
  propose_prob hp None x y = propose_prob hp None y x.
Proof. by move=> Hv Hvy Hs Hu Hd; apply: propose_sym => //; case. Qed.

(* C21 holds exactly when drawing t from (normalised) row a is as likely as drawing a from
   row t; the accepted condition (a symmetric matrix) does not imply it. *)
Theorem C21_transition_probs_iff_partial hp (T : seq (seq F)) n : 0 < hp -> hp <= 1 ->
  (forall x y, valid x -> valid y -> size x = n -> size y = n ->
     n_spin Up y = n_spin Up x -> n_spin Dn y = n_spin Dn x ->
     propose_prob hp (Some T) x y = propose_prob hp (Some T) y x) <->
  (forall a t, (a < n)%N -> (t < n)%N -> choice_prob (nth [::] T a) t = choice_prob (nth [::] T t) a).
Proof.
move=> Hp0 Hp1; split=> H.
  move=> a t Ha Ht; case: (altP (a =P t)) => [->//|Hat].
  have := H (one_up n a) (one_up n t); rewrite !size_one_up !valid_one_up !nspin_one_up //.
  move=> /(_ isT isT erefl erefl erefl erefl).
  rewrite !propose_single //; last by rewrite eq_sym.
  apply: mulfI; rewrite /choice_prob last_cumsum !big_cons big_nil addr0 addrC subrK oner_eq0.
  by rewrite divr1 /= gt_eqF.
move=> x y Hv Hvy Hx Hy Hu Hd; apply: propose_sym => //; rewrite ?Hx ?Hy //; first by case.
by move=> _ [<-].
Qed.

(* C21 for symmetric matrices whose row sums are non-zero and agree on connected sites. *)
Theorem C21_transition_probs_partial hp (T : seq (seq F)) x y :
  valid x -> valid y -> size y = size x ->
  n_spin Up y = n_spin Up x -> n_spin Dn y = n_spin Dn x ->
  transition_probs_accepted (size x) T ->
  (forall a, (a < size x)%N -> \sum_(j <- nth [::] T a) j != 0) ->
  (forall a t, (a < size x)%N -> (t < size x)%N -> nth 0 (nth [::] T a) t != 0 ->
     \sum_(j <- nth [::] T a) j = \sum_(j <- nth [::] T t) j) ->
  propose_prob hp (Some T) x y = propose_prob hp (Some T) y x.
Proof.
move=> Hv Hvy Hs Hu Hd Hacc Hrow Hconn; apply: propose_sym => //; first by case.
move=> _ [<-] a t Ha Ht; case/and3P: Hacc => _ _ /allP Hsym.
have Eat : nth 0 (nth [::] T a) t = nth 0 (nth [::] T t) a.
  have := Hsym a; rewrite mem_iota => /(_ Ha) /allP /(_ t); rewrite mem_iota => /(_ Ht).
  by rewrite subr_eq0 => /eqP.
rewrite /choice_prob !last_cumsum (negbTE (Hrow _ Ha)) (negbTE (Hrow _ Ht)) -Eat.
case: (altP (nth 0 (nth [::] T a) t =P 0)) => [->|Hne]; first by rewrite !mul0r.
by rewrite (Hconn _ _ Ha Ht Hne).
Qed.

(* C22, hopping rule: the proposal agrees with the current configuration off the reported
   sites, for all draws; writing its values at the update sites (in either order of the
   two writes) reproduces it. *)
Theorem C22_hopping_update_sites x d :
  let: (y, start, target) := apply_electron_hop x d in
  (forall i, i != start -> i != target -> nth 0%N y i = nth 0%N x i) /\
  ((start < size x)%N -> (d.2 < size x)%N ->
     set_nth 0%N (set_nth 0%N x start (nth 0%N y start)) target (nth 0%N y target) = y).
Proof.
case: d => [[[exch a] s] t] /=; split=> [i|Ha Ht]; first exact: C22_lemma.
set r := real_target _ _ _ _ _.
have Hr : (r < size x)%N by rewrite /r /real_target; case: ifP.
apply: (@eq_from_nth _ 0%N).
  by rewrite !size_set_nth size_hop_move //; lia.
move=> i _; rewrite !nth_set_nth /= nth_set_nth /=.
case: (altP (i =P r)) => [->//|Hir]; case: (altP (i =P a)) => [->//|Hia].
by rewrite C22_lemma.
Qed.

(* the batched rule applies it chain by chain, with no probability correction *)
Theorem C22_hopping_batch (xs : seq cfg) (ds : seq draws) b : size ds = size xs -> (b < size xs)%N ->
  let: (ys, corr, sites) := transition_function F xs ds in
  [/\ size ys = size xs, corr = None, size sites = size xs &
   (nth [::] ys b, (nth (0, 0)%N sites b).1, (nth (0, 0)%N sites b).2)
   = apply_electron_hop (nth [::] xs b) (nth (false, 0, 0, 0)%N ds b)].
Proof.
move=> Hsz Hb /=; have Hz : size (zip xs ds) = size xs by rewrite size_zip Hsz minnn.
split=> //; rewrite ?size_map ?Hz //.
rewrite !(nth_map ([::], 0%N, 0%N)) ?size_map ?Hz //.
rewrite (nth_map ([::], (false, 0, 0, 0)%N)) ?Hz // nth_zip //=.
by case: (apply_electron_hop _ _) => [[]].
Qed.
End Hop.

(* A hop from the empty configuration writes 255 (uint8 0 - 1) into the start site. *)
Theorem C19_empty_configuration_refuted : exists (F : realFieldType) (hp : F) x exch a s t,
  [/\ valid x, (a < size x)%N /\ (t < size x)%N, move_prob hp None x (exch, a, s, t) != 0,
      apply_electron_hop x (exch, a, s, t) = ([:: 255; 1]%N, 0%N, 1%N) &
      ~~ valid (apply_electron_hop x (exch, a, s, t)).1.1].
Proof.
exists [realFieldType of rat], 1, [:: 0; 0]%N, false, 0%N, 1%N, 1%N; split=> //.
Qed.

(* C21: an accepted matrix (symmetric, non-negative: nearest neighbours on three sites) for
   which proposing y from x is twice as likely as x from y. *)
Theorem C21_transition_probs_refuted : exists (F : realFieldType) (hp : F) T x y,
  [/\ transition_probs_accepted 3 T, all (all (fun v : F => 0 <= v)) T,
      valid x /\ valid y, size x = 3%N /\ size y = 3%N &
      [/\ n_spin Up y = n_spin Up x, n_spin Dn y = n_spin Dn x &
      propose_prob hp (Some T) x y = 2%:R * propose_prob hp (Some T) y x /\
      propose_prob hp (Some T) y x != 0]].
Proof.
exists [realFieldType of rat], 1, [:: [:: 0; 1; 0]; [:: 1; 0; 1]; [:: 0; 1; 0]], (one_up 3 0), (one_up 3 1).
by split=> //; split=> //; rewrite !propose_single //; split; vm_compute.
Qed.

Section Exch.
Variables (F : realFieldType) (T : eqType) (d : T).
Implicit Types (x y : seq T).

Lemma nth_exchange clusters x c i :
  let: (y, si, sj) := exchange_update d clusters x c in
  nth d y i = if i == sj then nth d x si else if i == si then nth d x sj else nth d x i.
Proof. by rewrite /= !nth_set_nth /= nth_set_nth /=. Qed.

Lemma size_exchange clusters x c :
  let: (y, si, sj) := exchange_update d clusters x c in
  (si < size x)%N -> (sj < size x)%N -> size y = size x.
Proof. by move=> /= H1 H2; rewrite !size_set_nth; lia. Qed.

Lemma exchange_invol clusters x c :
  let: (y, si, sj) := exchange_update d clusters x c in
  (si < size x)%N -> (sj < size x)%N -> (exchange_update d clusters y c).1.1 = x.
Proof.
have Hn z i := nth_exchange clusters z c i.
have Hz z := @size_exchange clusters z c.
move: Hn Hz => /=; set si := _.1; set sj := _.2 => Hn Hz H1 H2.
apply: (@eq_from_nth _ d); first by rewrite !Hz // ?Hz.
move=> i _; rewrite !Hn !eqxx.
case: (altP (i =P sj)) => [->|Hj]; first by case: (altP (si =P sj)) => [->|].
by case: (altP (i =P si)) => [->|].
Qed.

(* C23: for every cluster inside the configuration the proposal is a permutation of the
   current configuration, differs from it only on the two reported sites, and the same draw
   maps it back. *)
Theorem C23_exchange_permutation clusters x c :
  let: (y, si, sj) := exchange_update d clusters x c in
  (si < size x)%N -> (sj < size x)%N ->
  [/\ perm_eq y x, nth d y si = nth d x sj, nth d y sj = nth d x si &
      (exchange_update d clusters y c).1.1 = x].
Proof.
have Hn z i := nth_exchange clusters z c i.
have Hz z := @size_exchange clusters z c.
have Hi := @exchange_invol clusters x c.
move: Hn Hz Hi => /=; set si := _.1; set sj := _.2 => Hn Hz Hi H1 H2.
split; [|by rewrite Hn eqxx; case: (altP (si =P sj)) => [->|]|by rewrite Hn eqxx|exact: Hi].
set y := set_nth d (set_nth d x si (nth d x sj)) sj (nth d x si).
apply/permP => p.
have Hs : size y = size x by apply: Hz.
have Hc (z : seq T) : count p z = (\sum_(i < size z) p (nth d z i))%N.
  by elim: z => [|v z IH]; rewrite ?big_ord0 // big_ord_recl /= IH.
rewrite !Hc Hs.
case: (altP (si =P sj)) => [E|Hne].
  by apply: eq_bigr => i _; rewrite Hn E; case: (altP (i =P sj :> nat)) => [<-|].
rewrite (bigD1 (Ordinal H1)) //= (bigD1 (Ordinal H2)) /=; last by rewrite eq_sym.
rewrite [in RHS](bigD1 (Ordinal H1)) //= [in RHS](bigD1 (Ordinal H2)) /=; last by rewrite eq_sym.
rewrite !Hn !eqxx (negbTE Hne) addnCA; congr (_ + (_ + _))%N.
apply: eq_bigr => i /andP[Ei Ej]; rewrite Hn.
by rewrite (negbTE (_ : i != sj :> nat)) // (negbTE (_ : i != si :> nat)).
Qed.

(* C23: symmetric proposal probabilities, for every cluster list inside the system *)
Theorem C23_exchange_symmetric clusters x y : size y = size x ->
  all (fun c => (c.1 < size x)%N && (c.2 < size x)%N) clusters ->
  exchange_prob F d clusters x y = exchange_prob F d clusters y x.
Proof.
move=> Hs /allP Hcl; apply: eq_bigr => c _; congr (_ * _); congr (nat_of_bool _)%:R.
have /andP[H1 H2] := Hcl _ (mem_nth (0, 0)%N (ltn_ord c)).
have Hx := @exchange_invol clusters x c; have Hy := @exchange_invol clusters y c.
rewrite Hs in Hy; apply/eqP/eqP => E; move: Hx Hy; rewrite /= in E *.
- by move=> Hx _; rewrite -E; apply: Hx.
- by move=> _ Hy; rewrite -E; apply: Hy.
Qed.

(* C22, exchange rule *)
Theorem C22_exchange_update_sites clusters x c :
  let: (y, si, sj) := exchange_update d clusters x c in
  (forall i, i != si -> i != sj -> nth d y i = nth d x i) /\
  set_nth d (set_nth d x si (nth d y si)) sj (nth d y sj) = y.
Proof.
have Hn z i := nth_exchange clusters z c i.
move: Hn => /=; set si := _.1; set sj := _.2 => Hn; split.
  by move=> i /negbTE H1 /negbTE H2; rewrite Hn H1 H2.
apply: (@eq_from_nth _ d); first by rewrite !size_set_nth.
move=> i _; rewrite Hn nth_set_nth /=; case: (altP (i =P sj)) => [->|Hj]; first by rewrite Hn eqxx.
rewrite nth_set_nth /=; case: (altP (i =P si)) => [E|Hi].
  by rewrite Hn -E (negbTE Hj) eqxx.
by rewrite Hn (negbTE Hj) (negbTE Hi).
Qed.
End Exch.

(* three sites, occupations up / doubly / empty: the up electron of site 0 hops to site 2 with
   probability 1/3 * 1/1 (one of three electrons; site 2 is the only one without up) *)
Example C19_C22_example :
  apply_electron_hop [:: 1; 3; 0]%N (false, 0%N, 1%N, 2%N) = ([:: 0; 3; 1]%N, 0%N, 2%N) /\
  move_prob (1 : rat) None [:: 1; 3; 0]%N (false, 0%N, 1%N, 2%N) = 1 / 3%:Q.
Proof. by split; vm_compute. Qed.

(* blocked target: start and target coincide and nothing changes; exchange of sites 0 and 1 *)
Example C19_C22_example2 :
  apply_electron_hop [:: 1; 3; 0]%N (false, 0%N, 1%N, 1%N) = ([:: 1; 3; 0]%N, 0%N, 0%N) /\
  apply_electron_hop [:: 1; 2; 3]%N (true, 0%N, 1%N, 1%N) = ([:: 2; 1; 3]%N, 0%N, 1%N) /\
  move_prob (1 / 2%:Q) None [:: 1; 2; 3]%N (true, 0%N, 1%N, 1%N) = 1 / 4%:Q.
Proof. by repeat split; vm_compute. Qed.

Example C21_example : (* periodic ring of three sites: row sums equal *)
  let T : seq (seq rat) := [:: [:: 0; 1; 1]; [:: 1; 0; 1]; [:: 1; 1; 0]] in
  transition_probs_accepted 3 T /\ all (fun a => last 0 (cumsum (nth [::] T a)) == 2%:Q) (iota 0 3).
Proof. by split; vm_compute. Qed.

Example C23_example :
  exchange_update 0%N [:: (0, 1); (1, 2)]%N [:: 7; 8; 9]%N 1 = ([:: 7; 9; 8]%N, 1%N, 2%N).
Proof. by []. Qed.

Print Assumptions C19_hopping_sector_partial.
Print Assumptions C19_draws_normalised.
Print Assumptions C19_empty_configuration_refuted.
Print Assumptions C20_hopping_symmetric.
Print Assumptions C21_transition_probs_iff_partial.
Print Assumptions C21_transition_probs_partial.
Print Assumptions C21_transition_probs_refuted.
Print Assumptions C22_hopping_update_sites.
Print Assumptions C22_hopping_batch.
Print Assumptions C22_exchange_update_sites.
Print Assumptions C23_exchange_permutation.
Print Assumptions C23_exchange_symmetric.
