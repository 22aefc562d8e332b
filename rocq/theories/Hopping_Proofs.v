From Verif Require Import Base Fock_Spec Fock_Proofs Occ_Model Occ_Spec Hopping_Model.
Local Open Scope ring_scope.

Lemma lt4_cases o : (o < 4)%N -> [\/ o = 0%N, o = 1%N, o = 2%N | o = 3%N].
Proof. by case: o => [|[|[|[|o]]]] // _; [constructor 1|constructor 2|constructor 3|constructor 4]. Qed.

Lemma has_has_spin s o : (o < 4)%N -> has o (spin_int s) = has_spin s o.
Proof. by move/lt4_cases => [] ->; case: s. Qed.

Lemma valid_nth x i : valid x -> (nth 0%N x i < 4)%N.
Proof.
move=> /allP H; case: (ltnP i (size x)) => Hi; first exact: H (mem_nth _ Hi).
by rewrite nth_default.
Qed.

Lemma map_set_nth (A B : Type) (f : A -> B) d l i v :
  map f (set_nth d l i v) = set_nth (f d) (map f l) i (f v).
Proof.
elim: l i => [|a l IH] [|i] //=; last by rewrite IH.
by congr cons; elim: i => //= i ->.
Qed.

Lemma set_nth_same (A : Type) (d : A) l i v : (i < size l)%N -> nth d l i = v -> set_nth d l i v = l.
Proof. by elim: l i => [|a l IH] [|i] //= Hi; [move=> -> | move=> H; rewrite IH]. Qed.

Lemma valid_set_nth x i o : valid x -> (i < size x)%N -> (o < 4)%N -> valid (set_nth 0%N x i o).
Proof.
move=> Hv Hi Ho; apply/(all_nthP 0%N) => k; rewrite size_set_nth nth_set_nth /= => _.
by case: eqP => // _; apply: valid_nth.
Qed.

Lemma occ_fock s i x : occ s i (fock_of x) = has_spin s (nth 0%N x i).
Proof.
have F0 t : has_spin t 0 = false by case: t.
have -> : occ s i (fock_of x) = nth false (map (has_spin s) x) i by case: s.
case: (ltnP i (size x)) => Hi; first by rewrite (nth_map 0%N).
by rewrite !nth_default ?size_map // F0.
Qed.

Lemma fock_set x i s b o : (i < size x)%N -> has_spin s o = b ->
  (forall t, t != s -> has_spin t o = has_spin t (nth 0%N x i)) ->
  fock_of (set_nth 0%N x i o) = setocc s i b (fock_of x).
Proof.
move=> Hi Hb Ht; rewrite /fock_of /setocc /= !map_set_nth.
case: s Hb Ht => <- Ht /=; congr pair; apply: set_nth_same; rewrite ?size_map //.
- by rewrite (nth_map 0%N) //; symmetry; apply: (Ht Dn).
- by rewrite (nth_map 0%N) //; symmetry; apply: (Ht Up).
Qed.

Definition sdelta (s : spin) (b : bool) : int := if b then (spin_int s)%:Z else - (spin_int s)%:Z.

Lemma add_at_fock x i s b : valid x -> (i < size x)%N ->
  has_spin s (nth 0%N x i) = ~~ b ->
  [/\ fock_of (add_at x i (sdelta s b)) = setocc s i b (fock_of x),
      valid (add_at x i (sdelta s b)) & size (add_at x i (sdelta s b)) = size x].
Proof.
move=> Hv Hi Hs; have Ho := valid_nth i Hv.
suff [H1 H2 H3] : [/\ (u8 ((nth 0%N x i)%:Z + sdelta s b) < 4)%N,
     has_spin s (u8 ((nth 0%N x i)%:Z + sdelta s b)) = b &
     forall t, t != s -> has_spin t (u8 ((nth 0%N x i)%:Z + sdelta s b)) = has_spin t (nth 0%N x i)].
  split; first exact: fock_set.
    exact: valid_set_nth.
  by rewrite size_set_nth; apply/maxn_idPr.
by move: Hs; case: (lt4_cases Ho) => ->; case: s; case: b => //= _; split => //; case.
Qed.

Lemma nth_cumcount s x i : valid x -> (i < size x)%N ->
  nth 0%N (cumcount (spin_int s) x) i = num (take i.+1 (species s (fock_of x))).
Proof.
move=> Hv Hi; rewrite /cumcount nth_scanl ?size_map //.
have -> l : foldl addn 0%N l = sumn l by rewrite -[sumn l]add0n; elim: l 0%N => [|a l IH] n /=;
  rewrite ?addn0 // IH addnA.
rewrite -map_take /num.
have -> : species s (fock_of x) = map (has_spin s) x by case: s.
rewrite -map_take count_map sumn_count.
apply: eq_in_count => o /mem_take Ho /=; rewrite has_has_spin //.
by apply: (allP Hv).
Qed.

Lemma num_take_succ (l : seq bool) i : (num (take i.+1 l) = num (take i l) + nth false l i)%N.
Proof. by elim: l i => [|a l IH] [|i] //=; rewrite /num /= ?take0 /= ?addn0 //; move: (IH i); rewrite /num => ->; rewrite addnA. Qed.

Lemma num_take_mono (l : seq bool) i j : (i <= j)%N -> (num (take i l) <= num (take j l))%N.
Proof.
move=> H; elim: j H => [|j IH]; first by rewrite leqn0 => /eqP ->.
rewrite leq_eqVlt => /orP [/eqP -> //|H]; rewrite num_take_succ.
by apply: leq_trans (leq_addr _ _); apply: IH.
Qed.

Section Hop.
Variable R : comRingType.
Implicit Types (psi : fock -> R) (x : cfg).

Lemma on_sites_fock x : on_sites (size x) (fock_of x).
Proof. by split; rewrite /= size_map. Qed.

Lemma occ_nth_species s i (x : fock) : nth false (species s x) i = occ s i x.
Proof. by []. Qed.

Lemma hop_same s a psi (x : fock) L : on_sites L x -> (a < L)%N ->
  hop s a a psi x = if occ s a x then psi x else 0.
Proof.
move=> HL Ha; rewrite /hop /creat; case O: (occ s a x) => //.
rewrite /annih occ_setocc !eqxx /= (before_self _ _ HL Ha) mulrA sgn_sq mul1r setocc_set.
by rewrite -{1}O setocc_id // (on_sites_species _ HL).
Qed.

(* sign of a one-body hop in terms of cumulative counts *)
Lemma hop_diff s a c psi (x : fock) L : on_sites L x -> (a < L)%N -> (c < L)%N -> a != c ->
  hop s a c psi x =
  if occ s a x && ~~ occ s c x then
    sgn R (num (take (maxn a c) (species s x)) - num (take (minn a c).+1 (species s x)))
    * psi (setocc s c true (setocc s a false x))
  else 0.
Proof.
move=> HL Ha Hc Hac; rewrite /hop /creat; case Oa: (occ s a x) => //=.
rewrite /annih occ_setocc eqxx [c == a]eq_sym (negbTE Hac) /=.
case Oc: (occ s c x) => /=; first by rewrite mulr0.
rewrite mulrA -sgnD; congr (_ * _); apply: sgn_odd.
have Hb := before_setocc s s false HL Hc Ha; rewrite Oa in Hb.
have Sa := num_take_succ (species s x) a.
have Sc := num_take_succ (species s x) c.
rewrite occ_nth_species Oa in Sa; rewrite occ_nth_species Oc in Sc.
have Ho : olt s a s c = (a < c)%N by case: (s).
have Hbs i : exists k, before s i x = (k + num (take i (species s x)))%N /\
   forall j, before s j x = (k + num (take j (species s x)))%N.
  by case: (s); [exists 0%N | exists (num x.1)].
have [k [_ Hk]] := Hbs 0%N.
rewrite Ho !Hk in Hb *.
case: (ltngtP a c) Hac Hb => // Hlt _ Hb.
- have Hm := num_take_mono (species s x) Hlt.
  by move: Hb => /=; lia.
- have Hm := num_take_mono (species s x) Hlt.
  by move: Hb => /=; lia.
Qed.

Lemma setocc_sector s a c L (x : fock) t : on_sites L x -> (a < L)%N -> (c < L)%N ->
  occ s a x -> ~~ occ s c x -> num (species t (setocc s c true (setocc s a false x))) = num (species t x).
Proof.
move=> [H1 H2] Ha Hc Oa Oc.
have aux (l : seq bool) : size l = L -> nth false l a -> ~~ nth false l c ->
    num (set_nth false (set_nth false l a false) c true) = num l.
  move=> Hl Na Nc; have E1 := @num_set l a false; rewrite Hl Na in E1.
  have E2 := @num_set (set_nth false l a false) c true.
  have Hsz : size (set_nth false l a false) = L by rewrite size_set_nth Hl; lia.
  move: E2; rewrite Hsz nth_set_nth /=.
  case: eqP => [Ec|_]; first by rewrite Ec Na in Nc.
  rewrite (negbTE Nc) => /(_ Hc); have := E1 Ha; lia.
by case: s Oa Oc; case: t => //= Oa Oc; apply: aux.
Qed.

(* everything about apply_hopping with the cumulative counts *)
Lemma apply_hopping_cases s a c x : valid x -> (a < size x)%N -> (c < size x)%N ->
  let r := apply_hopping a c x (spin_int s) (Some (cumcount (spin_int s) x)) in
  [\/ [/\ ~~ occ s a (fock_of x) \/ (a != c /\ occ s c (fock_of x)), r.1 = 0 & r.2 = x],
      [/\ occ s a (fock_of x), a = c, r.1 = 1 & fock_of r.2 = fock_of x /\ valid r.2 /\ size r.2 = size x] |
      [/\ occ s a (fock_of x), ~~ occ s c (fock_of x), a != c,
          r.1 = (-1) ^+ (num (take (maxn a c) (species s (fock_of x)))
                           - num (take (minn a c).+1 (species s (fock_of x)))) &
          fock_of r.2 = setocc s c true (setocc s a false (fock_of x))
          /\ valid r.2 /\ size r.2 = size x]].
Proof.
move=> Hv Ha Hc /=; rewrite /apply_hopping !has_has_spin ?valid_nth // -!occ_fock.
case Oa: (occ s a (fock_of x)) => /=; last by constructor 1; split=> //; left.
have Ha1 : has_spin s (nth 0%N x a) = ~~ false by rewrite -occ_fock Oa.
have [F1 V1 S1] := add_at_fock Hv Ha Ha1.
case: (altP (c =P a)) => [Eac|Hac] /=.
  subst c; constructor 2; split=> //.
  have Hc1 : has_spin s (nth 0%N (add_at x a (sdelta s false)) a) = ~~ true.
    by rewrite -occ_fock F1 occ_setocc !eqxx.
  have Ha2 : (a < size (add_at x a (sdelta s false)))%N by rewrite S1.
  have [F2 V2 S2] := add_at_fock V1 Ha2 Hc1.
  split; last by split; rewrite ?S2 ?S1.
  by rewrite F2 F1 setocc_set -Oa setocc_id //; case: (s); rewrite /= size_map.
case Oc: (occ s c (fock_of x)) => /=; first by constructor 1; split=> //; right; rewrite eq_sym.
rewrite eq_sym in Hac; constructor 3.
have Hc1 : has_spin s (nth 0%N (add_at x a (sdelta s false)) c) = ~~ true.
  by rewrite -occ_fock F1 occ_setocc eqxx [c == a]eq_sym (negbTE Hac) Oc.
have Hc2 : (c < size (add_at x a (sdelta s false)))%N by rewrite S1.
have [F2 V2 S2] := add_at_fock V1 Hc2 Hc1.
have Hmax : (0 < maxn a c)%N by lia.
rewrite !nth_cumcount //; try lia.
rewrite prednK //.
set n1 := num _; set n2 := num _.
have Hle : (n2 <= n1)%N by apply: num_take_mono; lia.
have -> : (absz (n1%:Z - n2%:Z)) = (n1 - n2)%N by lia.
rewrite -signr_odd; case: (odd _) => /=; rewrite ?expr1 ?expr0; split=> //;
  by rewrite /= F2 F1 V2 S2 S1.
Qed.

Lemma apply_hopping_correct s a c x psi : valid x -> (a < size x)%N -> (c < size x)%N ->
  let r := apply_hopping a c x (spin_int s) (Some (cumcount (spin_int s) x)) in
  (r.1)%:~R * psi (fock_of r.2) = hop s a c psi (fock_of x).
Proof.
move=> Hv Ha Hc r.
have HL := on_sites_fock x.
case: (apply_hopping_cases s Hv Ha Hc) => -[]; rewrite -/r.
- move=> H -> _; rewrite mul0r.
  case: H => [Oa|[Hac Oc]]; first by rewrite /hop /creat (negbTE Oa).
  by rewrite (hop_diff _ _ HL) // Oc andbF.
- move=> Oa Eac -> [-> _]; subst c; rewrite mul1r (hop_same _ _ HL) //.
  by rewrite Oa.
- move=> Oa Oc Hac -> [-> _]; rewrite (hop_diff _ _ HL) // Oa Oc /=.
  by rewrite /sgn rmorphX rmorphN rmorph1.
Qed.

Lemma apply_hopping_wf s a c x : valid x -> (a < size x)%N -> (c < size x)%N ->
  let r := apply_hopping a c x (spin_int s) (Some (cumcount (spin_int s) x)) in
  [/\ valid r.2, size r.2 = size x, forall t, n_spin t r.2 = n_spin t x & r.1 \in [:: 0; 1; -1]].
Proof.
move=> Hv Ha Hc r.
have Hn t y : n_spin t y = num (species t (fock_of y)).
  by case: t; rewrite /num /n_spin /= count_map.
case: (apply_hopping_cases s Hv Ha Hc) => -[]; rewrite -/r.
- by move=> _ -> ->; split.
- by move=> _ _ -> [E [V S]]; split=> // t; rewrite !Hn E.
- move=> Oa Oc _ -> [E [V S]]; split=> //.
    by move=> t; rewrite !Hn E; apply: setocc_sector (on_sites_fock x) _ _ _ _.
  by rewrite -signr_odd; case: (odd _); rewrite ?expr1 ?expr0.
Qed.
End Hop.
