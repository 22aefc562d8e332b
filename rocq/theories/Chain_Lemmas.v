(* Lemmas on the Metropolis chain with the hopping rule: its kernel is stochastic, reversible and
   irreducible, and has closed walks of odd length. *)
From Verif Require Import Base Fock_Spec Occ_Model Occ_Spec Hopping_Proofs Choice_Model Choice_Proofs Rule_Model Rule_Proofs Rule_Lemmas Rule_Sym Rule_Props Metropolis_Inst Markov Chain_Model.
Import Order.Theory Num.Theory GRing.Theory.
Local Open Scope ring_scope.

(* ---------- draws ---------- *)
Section Draws.
Variable F : realFieldType.
Implicit Types (x y : cfg) (phi psi : draws -> F).

Definition draw_ok x (d : draws) : bool :=
  [&& (d.1.1.2 < size x)%N, is_spin d.1.2 & (d.2 < size x)%N].

Lemma ds_eq x phi psi : (forall d, draw_ok x d -> phi d = psi d) -> drawsum x phi = drawsum x psi.
Proof.
move=> H; rewrite /drawsum; apply: eq_bigr => e _; apply: eq_bigr => a _.
apply: eq_big_seq => s; rewrite !inE => Hs; apply: eq_bigr => t _.
by apply: H; rewrite /draw_ok /= !ltn_ord andbT.
Qed.
Lemma ds_sum (I : finType) x (phi : I -> draws -> F) :
  drawsum x (fun d => \sum_i phi i d) = \sum_i drawsum x (phi i).
Proof.
rewrite /drawsum [RHS]exchange_big; apply: eq_bigr => e _.
rewrite [RHS]exchange_big; apply: eq_bigr => a _.
rewrite [RHS]exchange_big; apply: eq_bigr => s _.
by rewrite [RHS]exchange_big.
Qed.
Lemma ds_scale x phi c : drawsum x (fun d => phi d * c) = drawsum x phi * c.
Proof. by rewrite /drawsum mulr_suml; do 3!(apply: eq_bigr => ? _; rewrite mulr_suml); apply: eq_bigr. Qed.
Lemma ds_ge0 x phi : (forall d, draw_ok x d -> 0 <= phi d) -> 0 <= drawsum x phi.
Proof.
move=> H; rewrite /drawsum !big_cons !big_nil !addr0.
have Hs e : 0 <= \sum_(a < size x) \sum_(s <- [:: 1; 2]%N) \sum_(t < size x) phi (e, a : nat, s, t : nat).
  apply: sumr_ge0 => a _; rewrite !big_cons !big_nil !addr0.
  by apply: addr_ge0; apply: sumr_ge0 => t _; apply: H; rewrite /draw_ok /= !ltn_ord.
exact: addr_ge0.
Qed.
Lemma ds_gt0 x phi d0 : (forall d, draw_ok x d -> 0 <= phi d) -> draw_ok x d0 -> 0 < phi d0 -> 0 < drawsum x phi.
Proof.
case: d0 => [[[e0 a0] s0] t0] H /and3P[/= Ha Hs Ht] Hp.
have Hle : phi (e0, a0, s0, t0) <= drawsum x phi.
  rewrite /drawsum.
  have step1 e s a : 0 <= \sum_(t < size x) phi (e, a, s, t : nat) \/ ~~ ((a < size x)%N && is_spin s).
    case: (boolP ((a < size x)%N && is_spin s)) => [/andP[Ha' Hs']|]; last by right.
    by left; apply: sumr_ge0 => t _; apply: H; rewrite /draw_ok /= Ha' Hs' ltn_ord.
  have step2 e (a : 'I_(size x)) : 0 <= \sum_(s <- [:: 1; 2]%N) \sum_(t < size x) phi (e, a : nat, s, t : nat).
    rewrite !big_cons big_nil addr0; apply: addr_ge0.
      by case: (step1 e 1%N a) => //; rewrite ltn_ord.
    by case: (step1 e 2%N a) => //; rewrite ltn_ord.
  have step3 e : 0 <= \sum_(a < size x) \sum_(s <- [:: 1; 2]%N) \sum_(t < size x) phi (e, a : nat, s, t : nat).
    by apply: sumr_ge0 => a _; exact: step2.
  apply: (le_trans (y := \sum_(a < size x) \sum_(s <- [:: 1; 2]%N) \sum_(t < size x) phi (e0, a : nat, s, t : nat))); last first.
    by rewrite !big_cons big_nil addr0; case: (e0); [rewrite ler_addr|rewrite ler_addl].
  rewrite (bigD1 (Ordinal Ha)) //=; apply: ler_paddr; first by apply: sumr_ge0 => a _; exact: step2.
  apply: (le_trans (y := \sum_(t < size x) phi (e0, a0, s0, t : nat))); last first.
    rewrite !big_cons big_nil addr0; case/orP: Hs => /eqP->.
      by rewrite ler_addl; case: (step1 e0 2%N a0) => //; rewrite Ha.
    by rewrite ler_addr; case: (step1 e0 1%N a0) => //; rewrite Ha.
  rewrite (bigD1 (Ordinal Ht)) //= ler_addl; apply: sumr_ge0 => t _.
  by apply: H; rewrite /draw_ok /= Ha Hs ltn_ord.
exact: lt_le_trans Hp Hle.
Qed.
End Draws.

(* ---------- the kernel ---------- *)
Section Kernel.
Variables (F : realFieldType) (hp : F) (w : cfg -> F) (L nu nd : nat).
Hypotheses (Hhp : 0 <= hp <= 1) (Hn : (0 < nu + nd)%N).
Hypothesis Hw : forall z, in_sector L nu nd z -> 0 < w z.
Notation X := (sconf L nu nd).
Notation P := (hop_step hp None w (L := L) (nu := nu) (nd := nd)).

Lemma occsP (x : X) : in_sector L nu nd (occs x).
Proof. exact: (valP x). Qed.
Lemma occs_inj : injective (@occs L nu nd).
Proof. by move=> x y /(inj_map val_inj) E; apply/val_inj/val_inj. Qed.
Lemma occs_onto z : in_sector L nu nd z -> exists x : X, occs x = z.
Proof.
move=> Hz; have /and4P[Hv /eqP Hs _ _] := Hz.
pose t := [tuple inord (nth 0%N z i) : 'I_4 | i < L].
have Et : map val t = z.
  apply: (@eq_from_nth _ 0%N); first by rewrite size_map size_tuple.
  move=> i; rewrite size_map size_tuple => Hi.
  rewrite (nth_map (inord 0)) ?size_tuple // -(tnth_nth _ t (Ordinal Hi)) tnth_mktuple /= inordK //.
  by move/all_nthP: Hv; apply; rewrite Hs.
have Hin : in_sector L nu nd (map val t) by rewrite Et.
by exists (exist _ t Hin).
Qed.

Lemma choice_ge0 (p : seq F) i : all (fun v => 0 <= v) p -> 0 <= choice_prob p i.
Proof.
move=> /allP Hp; rewrite /choice_prob; case: ifP => _; first exact: ler0n.
apply: divr_ge0; last by rewrite last_cumsum big_seq sumr_ge0.
case: (ltnP i (size p)) => Hi; [exact/Hp/mem_nth | by rewrite nth_default].
Qed.
Lemma move_ge0 x d : 0 <= move_prob hp None x d.
Proof.
case: d => [[[e a] s] t]; rewrite /move_prob; case: ifP => // _.
have Hb (T : eqType) (f : T -> nat) (l : seq T) : all (fun v : F => 0 <= v) [seq (f o)%:R | o <- l].
  by apply/allP => v /mapP[o _ ->]; exact: ler0n.
have [Hh0 Hh1] := andP Hhp.
rewrite !mulr_ge0 // choice_ge0 //.
- by rewrite /= Hh0 subr_ge0 Hh1.
- by rewrite /start_weights; case: e; [exact: (Hb _ (fun o => nat_of_bool (single o)))|exact: Hb].
- by rewrite /= !ler0n.
- exact: (Hb _ nat_of_bool).
Qed.

Lemma accept01 (r : F) : 0 <= r -> 0 <= accept_prob r /\ 0 <= 1 - accept_prob r.
Proof.
by move=> Hr; rewrite /accept_prob subr_ge0 le_minl lexx le_minr ler01 Hr.
Qed.

Lemma w_ratio x y : in_sector L nu nd x -> in_sector L nu nd y -> 0 < w y / w x.
Proof. by move=> Hx Hy; rewrite divr_gt0 ?Hw. Qed.

Lemma move_sector x d : in_sector L nu nd x -> draw_ok x d -> move_prob hp None x d != 0 ->
  in_sector L nu nd (apply_electron_hop x d).1.1.
Proof.
case: d => [[[e a] s] t] /and4P[Hv /eqP Hs /eqP Hu /eqP Hd] /and3P[Ha _ Ht] Hm.
have Hne : (0 < n_spin Up x + n_spin Dn x)%N || e by rewrite Hu Hd Hn.
have [V E Eu Ed] := C19_hopping_sector_partial Hv Ha Ht Hne Hm.
by rewrite /in_sector V E Eu Ed Hs Hu Hd !eqxx.
Qed.

(* an expectation over the draws as a sum over the proposed configurations *)
Lemma draws_to_confs x (phi : cfg -> F) : in_sector L nu nd x ->
  drawsum x (fun d => move_prob hp None x d * phi (apply_electron_hop x d).1.1) =
  \sum_(z : X) propose_prob hp None x (occs z) * phi (occs z).
Proof.
move=> Hx.
have -> : \sum_(z : X) propose_prob hp None x (occs z) * phi (occs z) =
  \sum_(z : X) drawsum x (fun d => move_prob hp None x d * ((apply_electron_hop x d).1.1 == occs z)%:R * phi (occs z)).
  by apply: eq_bigr => z _; rewrite ds_scale.
rewrite -ds_sum; apply: ds_eq => d Hd.
case: (eqVneq (move_prob hp None x d) 0) => [E|Hm].
  by rewrite E mul0r big1 // => z _; rewrite !mul0r.
have [z0 Ez] := occs_onto (move_sector Hx Hd Hm).
rewrite (bigD1 z0) //= -Ez eqxx mulr1 big1 ?addr0 // => z Hz.
by rewrite (inj_eq occs_inj) eq_sym (negbTE Hz) mulr0 mul0r.
Qed.

Lemma stepE (x y : X) : P x y =
  \sum_(z : X) propose_prob hp None (occs x) (occs z) *
    (accept_prob (w (occs z) / w (occs x)) * (occs z == occs y)%:R +
     (1 - accept_prob (w (occs z) / w (occs x))) * (occs x == occs y)%:R).
Proof.
by rewrite -(draws_to_confs (fun z => accept_prob (w z / w (occs x)) * (z == occs y)%:R +
     (1 - accept_prob (w z / w (occs x))) * (occs x == occs y)%:R) (occsP x)).
Qed.

Lemma step_off (x y : X) : x != y -> P x y = metropolis_prob hp None w (occs x) (occs y).
Proof.
move=> Hxy; rewrite stepE (bigD1 y) //= eqxx (inj_eq occs_inj) (negbTE Hxy) mulr0 addr0 mulr1.
rewrite big1 ?addr0 // => z Hz; by rewrite (inj_eq occs_inj) (negbTE Hz) !mulr0 addr0 mulr0.
Qed.

Lemma step_reversible : reversible (fun x => w (occs x)) P.
Proof.
move=> x y; case: (eqVneq x y) => [->//|Hxy]; rewrite !step_off // 1?eq_sym //.
pose w' z := if in_sector L nu nd z then w z else 1.
have Hw' z : 0 < w' z by rewrite /w'; case: ifP => [/Hw//|_]; exact: ltr01.
have /and4P[Vx /eqP Sx /eqP Ux /eqP Dx] := occsP x; have /and4P[Vy /eqP Sy /eqP Uy /eqP Dy] := occsP y.
have := C60_hopping_detailed_balance hp Hw' Vx Vy (etrans Sy (esym Sx)) (etrans Uy (esym Ux)) (etrans Dy (esym Dx)).
by rewrite /metropolis_prob /w' !occsP.
Qed.

Lemma step_term_ge0 (x : X) y d : draw_ok (occs x) d ->
  0 <= move_prob hp None (occs x) d *
    (accept_prob (w (apply_electron_hop (occs x) d).1.1 / w (occs x)) * ((apply_electron_hop (occs x) d).1.1 == y)%:R +
     (1 - accept_prob (w (apply_electron_hop (occs x) d).1.1 / w (occs x))) * (occs x == y)%:R).
Proof.
move=> Hd; case: (eqVneq (move_prob hp None (occs x) d) 0) => [->|Hm]; first by rewrite mul0r.
have Hs := move_sector (occsP x) Hd Hm.
have [H1 H2] := accept01 (ltW (w_ratio (occsP x) Hs)).
by rewrite mulr_ge0 ?move_ge0 // addr_ge0 // mulr_ge0 ?ler0n.
Qed.

Lemma step_stochastic : stochastic P.
Proof.
split=> [x y|x]; first by apply: ds_ge0 => d Hd; exact: step_term_ge0.
have Hsz : (0 < size (occs x))%N.
  have := occsP x; case: (occs x) => //; rewrite /in_sector /n_spin /= => /andP[_ /andP[/eqP Hu /eqP Hd]].
  by move: Hn; rewrite -Hu -Hd.
rewrite -[RHS](C19_draws_normalised (tp := None) hp Hsz) // -[RHS]/(drawsum _ (move_prob hp None (occs x))).
rewrite /hop_step /step_prob -ds_sum; apply: ds_eq => d Hd.
case: (eqVneq (move_prob hp None (occs x) d) 0) => [E|Hm].
  by rewrite E big1 // => y _; rewrite mul0r.
have [z0 Ez] := occs_onto (move_sector (occsP x) Hd Hm).
rewrite -mulr_sumr /= -Ez big_split /= -!mulr_sumr.
have H1 (u : X) : \sum_(y : X) (occs u == occs y)%:R = 1 :> F.
  rewrite (bigD1 u) //= eqxx big1 ?addr0 // => y /negbTE; rewrite (inj_eq occs_inj) eq_sym => ->; by [].
by rewrite !H1 !mulr1 addrCA subrr addr0 mulr1.
Qed.

(* ---------- hops ---------- *)
Implicit Types (x y z : cfg).
Definition hs (s : nat) x (i : nat) : bool := has (nth 0%N x i) s.
Definition hop_ok x a s t : bool :=
  [&& (a < size x)%N, (t < size x)%N, is_spin s, hs s x a & ~~ hs s x t].

Lemma hs_hop x a s t s' i : valid x -> hop_ok x a s t -> is_spin s' ->
  hs s' (hop_move false a s t x) i = if s' == s then (i == t) || ((i != a) && hs s x i) else hs s' x i.
Proof.
move=> Hv /and5P[Ha Ht Hs Hoa Hot] Hs'.
have Hne : a != t by apply: contraTneq Hoa => ->.
rewrite {1}/hs (hop_move_hop Hv Ha Ht Hs Hoa Hot).
move: Hoa Hot Hs Hs'; rewrite /hs /is_spin.
case: (altP (i =P a)) => [->|Hia].
  rewrite (negbTE Hne) /=.
  by case/lt4_cases: (valid_nth a Hv) => -> H _ /orP[/eqP E|/eqP E] /orP[/eqP E'|/eqP E']; move: H; rewrite E E'.
case: (altP (i =P t)) => [->|Hit] _.
  by case/lt4_cases: (valid_nth t Hv) => -> H /orP[/eqP E|/eqP E] /orP[/eqP E'|/eqP E']; move: H; rewrite E E'.
by move=> _ _ _; case: eqP => [->|].
Qed.

Lemma hs_ext x y : valid x -> valid y -> size x = size y ->
  (forall s i, is_spin s -> hs s x i = hs s y i) -> x = y.
Proof.
move=> Vx Vy Hs H; apply: (@eq_from_nth _ 0%N) => // i _.
have := H 1%N i isT; have := H 2%N i isT; rewrite /hs.
by case/lt4_cases: (valid_nth i Vx) => ->; case/lt4_cases: (valid_nth i Vy) => ->.
Qed.

Lemma hop_sector x a s t : in_sector L nu nd x -> hop_ok x a s t -> in_sector L nu nd (hop_move false a s t x).
Proof.
move=> /and4P[Hv /eqP Hs Hu Hd] /and5P[Ha Ht Hsp Hoa Hot].
have [V H] := hop_valid Hv Ha Ht Hsp Hoa Hot.
by rewrite /in_sector V size_hop_move // Hs eqxx !H Hu.
Qed.

Lemma hop_pos (x y : X) a s t : 0 < hp -> hop_ok (occs x) a s t -> occs y = hop_move false a s t (occs x) ->
  0 < P x y.
Proof.
move=> Hhp0 Hok Ey; have /and5P[Ha Ht Hs Hoa Hot] := Hok.
have /and4P[Hv _ _ _] := occsP x.
apply: (@ds_gt0 _ _ _ (false, a, s, t)) => [d Hd||]; first exact: step_term_ge0.
  by rewrite /draw_ok /= Ha Hs.
cbv zeta; rewrite -[(apply_electron_hop _ _).1.1]/(hop_move false a s t (occs x)) -Ey eqxx mulr1; apply: mulr_gt0.
  have Hs1 : (0 < s)%N by case/orP: Hs => /eqP->.
  have Hn0 : (0 < n_spin Up (occs x) + n_spin Dn (occs x))%N.
    rewrite -occ_total // (big_rem _ (mem_nth 0%N Ha)) /=; move: Hoa Hs; rewrite /hs /is_spin /occ_num.
    by move=> H /orP[/eqP E|/eqP E]; move: H; rewrite E => ->; lia.
  rewrite /move_prob Hs1 -(mulrA (choice_prob (kind_weights hp) _)) start_spin_hop // /target_weights /target_mask -map_comp.
  rewrite (@choice_bool_val F (occs x) (target_ok false s) t Ht Hot) !mulr_gt0 ?invr_gt0 ?ltr0n //.
    rewrite /choice_prob last_cumsum !big_cons big_nil addr0 addrCA subrr addr0 oner_eq0 divr1 //.
  rewrite -has_count; apply/hasP; exists (nth 0%N (occs x) t); [exact: mem_nth | exact: Hot].
rewrite ltr_paddr //.
  by rewrite mulr_ge0 ?ler0n // (proj2 (accept01 (ltW (w_ratio (occsP x) (occsP y))))).
by rewrite /accept_prob lt_minr ltr01 w_ratio ?occsP.
Qed.

Definition reach x y : Prop := exists n, forall (x' y' : X), occs x' = x -> occs y' = y -> 0 < pw P n x' y'.

Lemma n_spin_hs x s : valid x -> is_spin s -> n_spin (spin_of s) x = (\sum_(i < size x) hs s x i)%N.
Proof.
move=> Hv Hs; rewrite /n_spin count_nth_sum; apply: eq_bigr => i _; congr (nat_of_bool _).
by rewrite /hs -[in RHS](spin_ofK Hs) has_has_spin // valid_nth.
Qed.

(* number of electrons that are not where y has them *)
Definition dist x y : nat := (\sum_(i < size x) ((hs 1 x i && ~~ hs 1 y i) + (hs 2 x i && ~~ hs 2 y i)))%N.

Lemma hops_reach x y : 0 < hp -> in_sector L nu nd x -> in_sector L nu nd y -> reach x y.
Proof.
move=> Hhp0; move: {2}(dist x y).+1 (ltnSn (dist x y)) => k; elim: k x => [//|k IH] x Hk Hx Hy.
have /and4P[Vx /eqP Sx /eqP Ux /eqP Dx] := Hx; have /and4P[Vy /eqP Sy /eqP Uy /eqP Dy] := Hy.
have Hcnt s : is_spin s -> (\sum_(i < L) hs s x i = \sum_(i < L) hs s y i)%N.
  move=> Hs; have := n_spin_hs Vx Hs; have := n_spin_hs Vy Hs; rewrite Sx Sy => <- <-.
  by case/orP: Hs => /eqP->; rewrite /= ?Ux ?Uy ?Dx ?Dy.
have Hmis s (a : 'I_L) : is_spin s -> hs s x a && ~~ hs s y a -> exists t : 'I_L, ~~ hs s x t && hs s y t.
  move=> Hs Ha; apply/existsP; apply: contraT; rewrite negb_exists => /forallP H.
  have Hle (i : 'I_L) : (hs s y i <= hs s x i)%N.
    by have := H i; case: (hs s x i); case: (hs s y i).
  have := Hcnt s Hs; rewrite (bigD1 a) //= [in RHS](bigD1 a) //=; case/andP: Ha => -> /negbTE->.
  rewrite add1n add0n => E; have : (\sum_(i < L | i != a) hs s y i <= \sum_(i < L | i != a) hs s x i)%N by apply: leq_sum => i _.
  by rewrite -E ltnn.
case: (boolP [exists a : 'I_L, [exists s : 'I_3, is_spin s && (hs s x a && ~~ hs s y a)]]).
  case/existsP => a /existsP[s /andP[Hs Ha]].
  have [t /andP[Htx Hty]] := Hmis s a Hs Ha; have [Hax Hay] := andP Ha.
  have Hok : hop_ok x a s t by rewrite /hop_ok Sx !ltn_ord Hs Hax Htx.
  have Hx1 := hop_sector Hx Hok; set x1 := hop_move false a s t x in Hx1.
  have S1 : size x1 = L by case/and4P: Hx1 => _ /eqP.
  have Hat : a != t by apply: contraTneq Hax => ->.
  have Hd : (dist x1 y < dist x y)%N.
    rewrite /dist S1 Sx; have Hh s' i := @hs_hop x a s t s' i Vx Hok.
    rewrite (bigD1 a) //= [X in (_ < X)%N](bigD1 a) //= -addSn; apply: leq_add; last first.
      apply: leq_sum => i Hia; rewrite !Hh //.
      have Hia' : (i : nat) != a by [].
      rewrite Hia' /=; case: (altP (i =P t)) => [->|Hit] /=.
        by case/orP: (Hs) => /eqP E; move: Hty; rewrite E /= => -> /=; rewrite ?andbF.
      have -> : ((i : nat) == t) = false by apply: contraNF Hit => /eqP/val_inj->.
      by case/orP: (Hs) => /eqP E; rewrite E.
    rewrite !Hh // eqxx /=; have -> : ((a : nat) == t) = false by apply: contraNF Hat => /eqP/val_inj->.
    case/orP: (Hs) => /eqP E; move: Hax Hay; rewrite E /= => -> ->; by rewrite /= ?add0n ?addn0 ?add1n ?addn1.
  have [n Hn1] := IH x1 (leq_trans Hd Hk) Hx1 Hy.
  exists n.+1 => x' y' Ex Ey; have [x1' Ex1] := occs_onto Hx1.
  rewrite -add1n; apply: (pw_pos step_stochastic (y := x1')); last exact: Hn1.
  by rewrite pw1; apply: (@hop_pos _ _ a s t) => //; rewrite Ex.
rewrite negb_exists => /forallP H0.
have Hle s (i : 'I_L) : is_spin s -> hs s x i -> hs s y i.
  move=> Hs Hi; have := H0 i; rewrite negb_exists => /forallP /(_ (inord s)).
  have Hs3 : (s < 3)%N by case/orP: Hs => /eqP->.
  by rewrite inordK // Hs Hi /= negbK.
have -> : y = x.
  apply: hs_ext => //; first by rewrite Sx.
  move=> s i Hs; case: (ltnP i L) => Hi; last by rewrite /hs !nth_default ?Sx ?Sy.
  apply/idP/idP => Hyi; last exact: (Hle s (Ordinal Hi)).
  apply: contraT => Hxi.
  have := Hcnt s Hs; rewrite (bigD1 (Ordinal Hi)) //= [in RHS](bigD1 (Ordinal Hi)) //= Hyi (negbTE Hxi).
  rewrite add1n add0n => E; have : (\sum_(j < L | j != Ordinal Hi) hs s x j <= \sum_(j < L | j != Ordinal Hi) hs s y j)%N.
    by apply: leq_sum => j _; have := Hle s j Hs; case: (hs s x j) => // ->.
  by rewrite E ltnn.
by exists 0%N => x' y' Ex Ey; rewrite pw0 (_ : x' = y') ?eqxx ?ltr01 //; apply: occs_inj; rewrite Ex.
Qed.

Lemma step_irreducible : 0 < hp -> irreducible P.
Proof. by move=> H0 x y; have [n H] := hops_reach H0 (occsP x) (occsP y); exists n; exact: H. Qed.

(* ---------- closed walks of odd length ---------- *)
Lemma n_spin_full x s i : valid x -> is_spin s -> n_spin (spin_of s) x = size x -> (i < size x)%N -> hs s x i.
Proof.
move=> Hv Hs /eqP; rewrite /n_spin -all_count => /(all_nthP 0%N) H Hi.
by rewrite /hs -(spin_ofK Hs) has_has_spin ?valid_nth // H.
Qed.

Lemma size_occs (x : X) : size (occs x) = L.
Proof. by case/and4P: (occsP x) => _ /eqP. Qed.
Lemma L_gt0 (x : X) : (0 < L)%N.
Proof.
rewrite -(size_occs x); have := occsP x; case: (occs x) => //.
by rewrite /in_sector /n_spin /= => /andP[_ /andP[/eqP Hu /eqP Hd]]; move: Hn; rewrite -Hu -Hd.
Qed.

Lemma full_stays (x : X) s : 0 < hp -> is_spin s -> n_spin (spin_of s) (occs x) = L -> 0 < P x x.
Proof.
move=> H0 Hs Hf; have /and4P[Hv _ _ _] := occsP x; have HL := size_occs x.
have Hall i : (i < L)%N -> hs s (occs x) i by move=> Hi; apply: n_spin_full => //; rewrite HL.
have HL0 := L_gt0 x; have Hs1 : (0 < s)%N by case/orP: Hs => /eqP->.
have Hsz : (0 < size (occs x))%N by rewrite HL.
apply: (@ds_gt0 _ _ _ (false, 0%N, s, 0%N)) => [d Hd||]; first exact: step_term_ge0.
  by rewrite /draw_ok /= Hsz Hs.
cbv zeta; rewrite -[(apply_electron_hop _ _).1.1]/(hop_move false 0 s 0 (occs x)).
rewrite hop_move_blocked //; last by rewrite /real_target; case: ifP.
rewrite eqxx !mulr1 addrCA subrr addr0 mulr1 /move_prob Hs1.
rewrite -(mulrA (choice_prob (kind_weights hp) _)) start_spin_hop //; last exact: Hall.
have -> : choice_prob (target_weights (F := F) None false s 0 (occs x)) 0 = 1.
  rewrite /choice_prob last_cumsum /target_weights /target_mask -map_comp big_map big1_seq ?eqxx // => o /andP[_ Ho].
  have : hs s (occs x) (index o (occs x)) by apply: Hall; apply: leq_trans (eq_leq HL); rewrite index_mem.
  by rewrite /hs nth_index //= => ->.
have Hn0 : (0 < n_spin Up (occs x) + n_spin Dn (occs x))%N.
  by case/orP: Hs Hf => /eqP-> /= ->; rewrite addn_gt0 HL0 ?orbT.
rewrite mulr1 mulr_gt0 ?invr_gt0 ?ltr0n //.
by rewrite /choice_prob last_cumsum !big_cons big_nil addr0 addrCA subrr addr0 oner_eq0 divr1.
Qed.

Lemma hop_pos' (x : X) a s t : 0 < hp -> hop_ok (occs x) a s t ->
  exists2 y : X, occs y = hop_move false a s t (occs x) & 0 < pw P 1 x y.
Proof.
move=> H0 Hok; have [y Ey] := occs_onto (hop_sector (occsP x) Hok).
by exists y => //; rewrite pw1; apply: hop_pos Ey.
Qed.

(* three hops on three sites a, t, c that lead back to x *)
Lemma three_hops (x : X) s a1 t1 a2 t2 a3 t3 : 0 < hp -> is_spin s ->
  all (fun i => i < L)%N [:: a1; t1; a2; t2; a3; t3] ->
  hs s (occs x) a1 -> ~~ hs s (occs x) t1 ->
  let h1 := fun i => (i == t1) || ((i != a1) && hs s (occs x) i) in
  let h2 := fun i => (i == t2) || ((i != a2) && h1 i) in
  let h3 := fun i => (i == t3) || ((i != a3) && h2 i) in
  h1 a2 && ~~ h1 t2 -> h2 a3 && ~~ h2 t3 -> h3 =1 hs s (occs x) -> 0 < pw P 3 x x.
Proof.
move=> H0 Hs /and5P[Ha1 Ht1 Ha2 Ht2 /and3P[Ha3 Ht3 _]] H1a H1t h1 h2 h3 /andP[H2a H2t] /andP[H3a H3t] E.
have V (z : X) : valid (occs z) by case/and4P: (occsP z).
have Hok1 : hop_ok (occs x) a1 s t1 by rewrite /hop_ok size_occs Ha1 Ht1 Hs H1a.
have [x1 E1 P1] := hop_pos' H0 Hok1.
have Hh1 s' i : is_spin s' -> hs s' (occs x1) i = if s' == s then h1 i else hs s' (occs x) i.
  by move=> Hs'; rewrite E1 hs_hop.
have Hok2 : hop_ok (occs x1) a2 s t2 by rewrite /hop_ok size_occs Ha2 Ht2 Hs !Hh1 // eqxx H2a.
have [x2 E2 P2] := hop_pos' H0 Hok2.
have Hh2 s' i : is_spin s' -> hs s' (occs x2) i = if s' == s then h2 i else hs s' (occs x) i.
  by move=> Hs'; rewrite E2 hs_hop // !Hh1 // eqxx; case: eqP.
have Hok3 : hop_ok (occs x2) a3 s t3 by rewrite /hop_ok size_occs Ha3 Ht3 Hs !Hh2 // eqxx H3a.
have [x3 E3 P3] := hop_pos' H0 Hok3.
have E4 : x3 = x.
  apply/occs_inj/hs_ext => // [|s' i Hs']; first by rewrite !size_occs.
  by rewrite E3 hs_hop // !Hh2 // eqxx; case: eqP => // ->; exact: E.
rewrite E4 in P3.
exact: (pw_pos step_stochastic P1 (pw_pos step_stochastic P2 P3)).
Qed.

Definition moves_freely : bool := [|| (2 < L)%N, nu == L | nd == L].

Lemma odd_loop (x : X) : 0 < hp -> moves_freely -> exists2 k, odd k & 0 < pw P k x x.
Proof.
move=> H0 Hm; have /and4P[V _ /eqP Hu /eqP Hd] := occsP x.
case: (eqVneq nu L) => [E|Nu]; first by exists 1%N => //; rewrite pw1 (@full_stays x 1%N) //= Hu.
case: (eqVneq nd L) => [E|Nd]; first by exists 1%N => //; rewrite pw1 (@full_stays x 2%N) //= Hd.
have L3 : (2 < L)%N by move: Hm; rewrite /moves_freely (negbTE Nu) (negbTE Nd) !orbF.
have [s Hs [Hs0 HsL]] : exists2 s, is_spin s & (0 < n_spin (spin_of s) (occs x))%N /\ n_spin (spin_of s) (occs x) != L.
  case: (posnP nu) => [E|E]; [exists 2%N|exists 1%N] => //=; rewrite ?Hu ?Hd; split=> //.
  by move: Hn; rewrite E.
have Hc : n_spin (spin_of s) (occs x) = (\sum_(i < L) hs s (occs x) i)%N.
  by rewrite n_spin_hs // size_occs.
have [a Ha] : exists a : 'I_L, hs s (occs x) a.
  apply/existsP; apply: contraLR Hs0; rewrite negb_exists => /forallP H.
  by rewrite Hc big1 // => i _; apply/eqP; rewrite eqb0.
have [t Ht] : exists t : 'I_L, ~~ hs s (occs x) t.
  apply/existsP; apply: contraNT HsL; rewrite negb_exists => /forallP H.
  rewrite Hc (eq_bigr (fun=> 1%N)) => [|i _]; first by rewrite sum1_card card_ord.
  by have := H i; rewrite negbK => ->.
have Hat : (a : nat) != t by apply: contraTneq Ha => ->.
have [c Hc3 /andP[Hca Hct]] : exists2 c, (c < L)%N & (c != a :> nat) && (c != t :> nat).
  have [|[|]] : (0%N != a :> nat) && (0%N != t :> nat) \/ (1%N != a :> nat) && (1%N != t :> nat) \/ (2%N != a :> nat) && (2%N != t :> nat).
  - by move: Hat; move: (a : nat) (t : nat) => [|[|[|?]]] [|[|[|?]]] //= _; auto.
  - by exists 0%N => //; apply: leq_trans L3.
  - by exists 1%N => //; apply: leq_trans L3.
  - by exists 2%N.
exists 3%N => //.
case: (boolP (hs s (occs x) c)) => Hcc.
- apply: (@three_hops x s a t c a t c) => //=; rewrite ?ltn_ord ?Hc3 ?eqxx //=.
  + by rewrite Hcc Hca (negbTE Hat) orbT.
  + by rewrite (negbTE Hca) [t == c :> nat]eq_sym Hct orbT.
  + move=> i; case: (altP (i =P c)) => [->//|Nc]; case: (altP (i =P t)) => [->|Nt] /=; first by rewrite (negbTE Ht).
    by case: (altP (i =P (a : nat))) => [->|] /=.
- apply: (@three_hops x s a t t c c a) => //=; rewrite ?ltn_ord ?Hc3 ?eqxx //=.
  + by rewrite (negbTE Hct) (negbTE Hcc) andbF.
  + by rewrite [a == c :> nat]eq_sym (negbTE Hca) (negbTE Hat) andbF.
  + move=> i; case: (altP (i =P (a : nat))) => [->//|Na] /=; case: (altP (i =P c)) => [->|Nc] /=; first by rewrite (negbTE Hcc).
    by case: (altP (i =P (t : nat))) => [->|] //=; rewrite (negbTE Ht).
Qed.
End Kernel.
