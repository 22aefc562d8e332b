(* C98: boundary conditions of the Hubbard lattices. *)
From Verif Require Import Base Occ_Spec Occ_Model Hopping_Model Hubbard_Model Lattice_Model.
Local Open Scope ring_scope.

(* odd number of electrons on a site *)
Definition odd_occ (o : nat) : bool := (o == 1%N) || (o == 2%N).
Section Gauge.
Variables (F : fieldType) (s : nat -> bool).
Add Ring RF : (r_theory (GRing.Field.comRingType F)).
Definition sg (b : bool) : F := if b then -1 else 1.
(* minus one for every electron on a site of s *)
Definition gauge (x : cfg) : F := \prod_(i < size x) sg (s i && odd_occ (nth 0%N x i)).

Lemma sgM a b : sg a * sg b = sg (a (+) b).
Proof. by case: a; case: b; rewrite /sg /= ?mulrNN ?mulr1 ?mul1r. Qed.
Lemma sg2 a : sg a * sg a = 1.
Proof. by rewrite sgM addbb. Qed.
Lemma gauge2 x : gauge x * gauge x = 1.
Proof. by rewrite -big_split big1 // => i _; exact: sg2. Qed.
Lemma gaugeV x : (gauge x)^-1 = gauge x.
Proof.
have N : gauge x != 0 by apply/eqP => E; have := gauge2 x; rewrite E mul0r => /esym /eqP; rewrite oner_eq0.
by apply: (mulfI N); rewrite divff // gauge2.
Qed.
Lemma gauge_set x a v : (a < size x)%N ->
  gauge (set_nth 0%N x a v) = gauge x * sg (s a && (odd_occ v (+) odd_occ (nth 0%N x a))).
Proof.
move=> Ha; rewrite /gauge size_set_nth (maxn_idPr Ha).
rewrite (bigD1 (Ordinal Ha)) //= [in RHS](bigD1 (Ordinal Ha)) //= nth_set_nth /= eqxx.
rewrite (eq_bigr (fun i : 'I_(size x) => sg (s i && odd_occ (nth 0%N x i)))); last first.
  by move=> i /eqP Hi; rewrite nth_set_nth /=; case: eqP => // E; case: Hi; apply: val_inj.
rewrite mulrAC; congr (_ * _); rewrite sgM; congr sg.
by case: (s a) => //=; rewrite addbC -addbA addbb addbF.
Qed.

Lemma hop_gauge psi x sp cum a c : all (fun o => (o < 4)%N) x -> (sp == 1%N) || (sp == 2%N) ->
  (a < size x)%N -> (c < size x)%N ->
  hub_otf_hop None (fun y => gauge y * psi y) x sp cum a c = sg (s a) * sg (s c) * hub_otf_hop None psi x sp cum a c.
Proof.
move=> Hv Hs Ha Hc; rewrite /hub_otf_hop; case: ifP => [_|/negbT]; first by rewrite mulr0.
rewrite negb_or negbK => /andP [H1 H2].
have ac : a != c by apply/eqP => E; move: H2; rewrite -E H1.
set u := u8 _; set v := u8 _; set y := set_nth _ (set_nth _ _ _ _) _ _.
have V o : (o < size x)%N -> (nth 0%N x o < 4)%N by move=> Ho; exact: (all_nthP 0%N Hv).
have E : gauge y = gauge x * (sg (s a) * sg (s c)).
  rewrite /y gauge_set ?size_set_nth ?(maxn_idPr Ha) // gauge_set // nth_set_nth /= [c == a]eq_sym (negbTE ac) -mulrA.
  have P : odd_occ u (+) odd_occ (nth 0%N x a) /\ odd_occ v (+) odd_occ (nth 0%N x c).
    rewrite /u /v; move: (V _ Ha) (V _ Hc) H1 H2; move: (nth 0%N x a) (nth 0%N x c) => p q.
    by case/orP: Hs => /eqP ->; case: p => [|[|[|[|//]]]] _; case: q => [|[|[|[|//]]]] _; vm_compute.
  by case: P => -> ->; rewrite !andbT.
rewrite E invfM gaugeV.
have -> : gauge x * (sg (s a) * sg (s c)) * psi y * (gauge x * (psi x)^-1) = (gauge x * gauge x) * (sg (s a) * sg (s c) * (psi y / psi x)).
  by move: (gauge x) (sg (s a) * sg (s c)) (psi y) ((psi x)^-1) => p q r w; mring (GRing.Field.comRingType F).
by rewrite gauge2 mul1r mulrCA.
Qed.

(* hopping signs that are products of site signs amount to a sign of the amplitude for every electron *)
Theorem C98_gauge U edges t psi x : all (fun o => (o < 4)%N) x ->
  all (fun e => (e.1 < size x)%N && (e.2 < size x)%N) edges -> size t = size edges ->
  hub_otf U edges [seq sg (s et.1.1) * sg (s et.1.2) * et.2 | et <- zip edges t] None psi x
  = hub_otf U edges t None (fun y => gauge y * psi y) x.
Proof.
move=> Hv He Ht; rewrite /hub_otf; case: ifP => // _.
have T sp cum : (sp == 1%N) || (sp == 2%N) ->
  \sum_(0 <= k < size edges) (hub_otf_hop None psi x sp cum (nth (0,0)%N edges k).1 (nth (0,0)%N edges k).2
       + hub_otf_hop None psi x sp cum (nth (0,0)%N edges k).2 (nth (0,0)%N edges k).1)
      * - nth 0 [seq sg (s et.1.1) * sg (s et.1.2) * et.2 | et <- zip edges t] k
  = \sum_(0 <= k < size edges) (hub_otf_hop None (fun y => gauge y * psi y) x sp cum (nth (0,0)%N edges k).1 (nth (0,0)%N edges k).2
       + hub_otf_hop None (fun y => gauge y * psi y) x sp cum (nth (0,0)%N edges k).2 (nth (0,0)%N edges k).1)
      * - nth 0 t k.
  move=> Hs; rewrite !big_mkord; apply: eq_bigr => k _.
  have Hk : (k < size (zip edges t))%N by rewrite size_zip Ht minnn ltn_ord.
  rewrite (nth_map (0%N, 0%N, 0)) // nth_zip //=; set e := nth _ edges k.
  have /andP [E1 E2] : (e.1 < size x)%N && (e.2 < size x)%N by apply: (all_nthP (0%N, 0%N) He).
  rewrite !hop_gauge // [sg (s e.2) * _]mulrC -mulrDr !mulrN; congr (- _).
  by rewrite mulrCA !mulrA.
by rewrite !T.
Qed.
End Gauge.

(* an undirected bond *)
Definition bond (e : nat * nat) : nat * nat := (minn e.1 e.2, maxn e.1 e.2).
(* e joins the two ends of a chain *)
Definition at_boundary (L : nat) (e : nat * nat) : bool := bond e == (0%N, L.-1).

Section Chain.
Variables (F : fieldType) (L : nat).
Hypothesis HL : (2 < L)%N.
Add Ring RF2 : (r_theory (GRing.Field.comRingType F)).

Lemma bond_ring i : (i < L)%N -> bond (i, (i + 1) %% L)%N = if i == L.-1 then (0%N, L.-1) else (i, i.+1).
Proof.
move=> Hi; rewrite /bond /= addn1; case: eqP => [->|N].
  by rewrite prednK ?modnn ?minn0 ?maxn0 //; lia.
by rewrite modn_small; [congr pair; lia|lia].
Qed.

(* argps, periodic: the bond between the ends changes sign exactly if the length is a multiple of four *)
Theorem C98_argps_periodic (t : F) :
  argps_t L true t = [seq if (L %% 4 == 0)%N && at_boundary L e then - t else t | e <- argps_edges L].
Proof.
have Sz : size (argps_t L true t) = L.
  by rewrite /argps_t /flip_last; case: ifP => _; rewrite ?size_set_nth size_nseq //; lia.
apply: (@eq_from_nth _ 0) => [|i]; rewrite Sz ?size_map ?size_iota // => Hi.
rewrite (nth_map (0%N, 0%N)) ?size_map ?size_iota // (nth_map 0%N) ?size_iota // nth_iota // add0n.
rewrite /at_boundary bond_ring // /argps_t /=; case: (L %% 4 == 0)%N => /=; last by rewrite nth_nseq Hi mulr1.
rewrite /flip_last nth_set_nth /= size_nseq !nth_nseq Hi; have -> : (L.-1 < L)%N by lia.
case: (altP (i =P L.-1)) => [_|N]; first by rewrite eqxx mulr1 mulrN1.
by have -> : ((i, i.+1) == (0%N, L.-1)) = false; [apply/negbTE/eqP => -[]; lia|rewrite mulr1].
Qed.

(* argps, open: the bond between the ends is there all the same *)
Definition open_edges : seq (nat * nat) := [seq (i, i.+1) | i <- iota 0 L.-1].
Theorem C98_argps_open U (t : F) psi x : size x = L ->
  hub_otf U (argps_edges L) (argps_t L false t) None psi x
  = hub_otf U open_edges (nseq L.-1 t) None psi x
    - t * (\sum_(sp <- [:: 1; 2]%N) (hub_otf_hop None psi x sp (cumcount sp x) L.-1 0 + hub_otf_hop None psi x sp (cumcount sp x) 0 L.-1)).
Proof.
move=> Hx; rewrite /hub_otf !size_map !size_iota big_cons big_seq1 (ltn_trans _ HL) //.
have -> : (0 < L.-1)%N by lia.
have T sp cum : \sum_(0 <= k < L) (hub_otf_hop None psi x sp cum (nth (0,0)%N (argps_edges L) k).1 (nth (0,0)%N (argps_edges L) k).2
       + hub_otf_hop None psi x sp cum (nth (0,0)%N (argps_edges L) k).2 (nth (0,0)%N (argps_edges L) k).1) * - nth 0 (argps_t L false t) k
  = \sum_(0 <= k < L.-1) (hub_otf_hop None psi x sp cum (nth (0,0)%N open_edges k).1 (nth (0,0)%N open_edges k).2
       + hub_otf_hop None psi x sp cum (nth (0,0)%N open_edges k).2 (nth (0,0)%N open_edges k).1) * - nth 0 (nseq L.-1 t) k
    - t * (hub_otf_hop None psi x sp cum L.-1 0 + hub_otf_hop None psi x sp cum 0 L.-1).
  rewrite -{1}(prednK (ltn_trans _ HL)) // big_nat_recr //=; congr (_ + _).
    apply: eq_big_nat => k /andP [_ Hk]; rewrite /argps_edges /open_edges /argps_t /=.
    rewrite !(nth_map 0%N) ?size_iota //; try lia; rewrite !nth_iota //; try lia.
    rewrite !add0n !addn1 modn_small ?nth_nseq ?Hk ?mulr1; last lia.
    by have -> : (k < L)%N by lia.
  rewrite /argps_edges /argps_t (nth_map 0%N) ?size_iota ?nth_iota ?nth_nseq /=; try lia.
  have -> : (L.-1 < L)%N by lia.
  by rewrite add0n addn1 prednK ?modnn ?mulr1 ?mulrN 1?mulrC //; lia.
rewrite !T; mring (GRing.Field.comRingType F).
Qed.

(* cpd-backflow, a ring whose edges are listed in any order and orientation: flipping the bond listed last is, up to
   a sign for every electron on some sites, flipping the bond between the ends *)
Definition ring_edges (edges : seq (nat * nat)) : Prop :=
  perm_eq [seq bond e | e <- edges] [seq bond (i, (i + 1) %% L)%N | i <- iota 0 L].
Lemma ring_uniq edges : ring_edges edges -> uniq [seq bond e | e <- edges].
Proof.
move/perm_uniq => ->; rewrite map_inj_in_uniq ?iota_uniq // => i j; rewrite !mem_iota /= !add0n => Hi Hj.
by rewrite !bond_ring //; case: eqP => Ei; case: eqP => Ej E; have := congr1 fst E; have := congr1 snd E; rewrite /=; lia.
Qed.
Lemma ring_bond edges e : ring_edges edges -> e \in edges -> exists2 k, (k < L)%N & bond e = bond (k, (k + 1) %% L)%N.
Proof.
by move=> /perm_mem H He; have := H (bond e); rewrite map_f // => /esym /mapP [k]; rewrite mem_iota add0n => /andP [_ Hk] E; exists k.
Qed.
Lemma bond_sides (s : nat -> bool) e k : (k < L)%N -> bond e = bond (k, (k + 1) %% L)%N ->
  sg F (s e.1) * sg F (s e.2) = sg F (s k (+) s ((k + 1) %% L)%N).
Proof.
move=> Hk; rewrite /bond /= => -[E1 E2]; rewrite sgM.
have [[-> ->]//|[-> ->]] : (e.1 = k /\ e.2 = (k + 1) %% L \/ e.2 = k /\ e.1 = (k + 1) %% L)%N by lia.
by rewrite addbC.
Qed.
Theorem C98_chain edges (t : F) : ring_edges edges -> (L %% 4 == 0)%N ->
  exists s : nat -> bool, forall U psi x, all (fun o => (o < 4)%N) x -> size x = L ->
  hub_otf U edges (chain_t L edges true t) None psi x
  = hub_otf U edges [seq if at_boundary L e then - t else t | e <- edges] None (fun y => gauge F s y * psi y) x.
Proof.
move=> He H4; have Se : size edges = L by have := perm_size He; rewrite !size_map size_iota.
have Hlast : (L.-1 < size edges)%N by lia.
set el := nth (0, 0)%N edges L.-1; have [k Hk Ek] := ring_bond He (mem_nth (0, 0)%N Hlast).
exists (fun i => (k < i)%N) => U psi x Hv Hx; rewrite -C98_gauge //; last 2 first.
- apply/allP => e /(ring_bond He) [m Hm]; rewrite bond_ring // /bond Hx.
  case: e => e1 e2 /=; by case: eqP => Em E; have := congr1 fst E; have := congr1 snd E; rewrite /= => E2 E1; apply/andP; split; lia.
- by rewrite size_map.
congr (hub_otf _ _ _ _ _ _).
have Sz : size (chain_t L edges true t) = L.
  by rewrite /chain_t /flip_last H4 /= size_set_nth size_nseq Se; lia.
apply: (@eq_from_nth _ 0) => [|i]; rewrite Sz ?size_map ?size_zip ?size_map ?Se ?minnn // => Hi.
rewrite (nth_map (0%N, 0%N, 0)) ?size_zip ?size_map ?Se ?minnn // nth_zip ?size_map //= (nth_map (0%N, 0%N)) ?Se //.
set e := nth _ edges i; have Hei : e \in edges by rewrite mem_nth ?Se.
have [m Hm Em] := ring_bond He Hei.
have Eim : (i == L.-1) = (m == k).
  apply/eqP/eqP => [E|E].
    have E' := Em; rewrite /e E Ek !bond_ring // in E'; move: E'; by case: eqP => Ei; case: eqP => Ej E'; have := congr1 fst E'; have := congr1 snd E'; rewrite /=; lia.
  have : nth (0,0)%N [seq bond e | e <- edges] i = nth (0,0)%N [seq bond e | e <- edges] L.-1.
    by rewrite [RHS](nth_map (0,0)%N _ _ Hlast) (nth_map (0,0)%N) ?Se //; rewrite E in Em; exact: etrans Em (esym Ek).
  by move/eqP; rewrite nth_uniq ?size_map ?Se ?ring_uniq //; [move=> /eqP|lia].
rewrite /chain_t H4 /= /flip_last nth_set_nth /= size_nseq Se !nth_nseq Hi Eim mul1r; have -> : (L.-1 < L)%N by lia.
rewrite (bond_sides _ Hm Em) /at_boundary Em bond_ring // addn1.
have N1 : ((m, m.+1) == (0%N, L.-1)) = false by apply/negbTE/eqP => -[]; lia.
case: (altP (m =P L.-1)) => [E|N]; rewrite /= ?eqxx ?N1.
  rewrite E prednK ?modnn ?ltn0 ?addbF /sg; last lia.
  case: eqP => [->|N]; rewrite ?ltnn /=; first by mring (GRing.Field.comRingType F).
  have -> : (k < L.-1)%N by lia.
  by rewrite mulrNN mul1r.
rewrite modn_small; last by lia.
have -> : ((k < m) (+) (k < m.+1))%N = (m == k) by case: (ltngtP k m) => H; rewrite ltnS; [rewrite (ltnW H)|rewrite leqNgt H|rewrite H leqnn].
by rewrite /sg; case: ifP => _; rewrite ?mulrN1 ?mulN1r ?mul1r.
Qed.
(* otherwise all bonds are equal *)
Theorem C98_chain_uniform edges pbc (t : F) : ~~ (pbc && (L %% 4 == 0)%N) -> chain_t L edges pbc t = nseq (size edges) t.
Proof. by rewrite /chain_t => /negbTE ->; rewrite mul1r. Qed.
End Chain.

Theorem C98_argps_open_refuted : exists (L : nat) (t : rat) (psi : cfg -> rat) (x : cfg),
  [/\ (2 < L)%N, size x = L, psi x != 0 &
      hub_otf 0 (argps_edges L) (argps_t L false t) None psi x <> hub_otf 0 (open_edges L) (nseq L.-1 t) None psi x].
Proof.
exists 3%N, 1, (fun=> 1), [:: 1; 0; 0]%N; split=> //; apply/eqP.
by rewrite /hub_otf /= !big_mkord !big_ord_recl !big_ord0; vm_compute.
Qed.

(* two-dimensional lattices: site (x, y) has index x * Ly + y; an edge joins neighbours in x or in y, each direction
   open or periodic *)
Definition grid_bond (Lx Ly : nat) (px py : bool) (e : nat * nat) : Prop :=
  exists x y, [/\ (x < Lx)%N, (y < Ly)%N &
    (exists x', [/\ x' = ((x + 1) %% Lx)%N, px || (x + 1 < Lx)%N & bond e = bond (x * Ly + y, x' * Ly + y)%N]) \/
    (exists y', [/\ y' = ((y + 1) %% Ly)%N, py || (y + 1 < Ly)%N & bond e = bond (x * Ly + y, x * Ly + y')%N])].
(* the columns of the ends of an edge *)
Definition columns (Ly : nat) (e : nat * nat) : nat * nat := bond (e.1 %/ Ly, e.2 %/ Ly)%N.

Section Grid.
Variables (F : fieldType) (Lx Ly : nat).
Hypotheses (HLx : (2 < Lx)%N) (HLy : (0 < Ly)%N).
Add Ring RF3 : (r_theory (GRing.Field.comRingType F)).

Lemma bondP e f : bond e = bond f -> e = f \/ e = (f.2, f.1).
Proof.
case: e f => [a b] [c d] E; have := congr1 fst E; have := congr1 snd E; rewrite /= => E2 E1.
have [[-> ->]|[-> ->]] : (a = c /\ b = d \/ a = d /\ b = c)%N by lia.
  by left.
by right.
Qed.
Lemma div_site x y : (y < Ly)%N -> ((x * Ly + y) %/ Ly = x)%N.
Proof. by move=> Hy; rewrite divnMDl // divn_small // addn0. Qed.
Lemma bondC a b : bond (a, b) = bond (b, a).
Proof. by rewrite /bond minnC maxnC. Qed.
Lemma distnC a b : distn a b = distn b a.
Proof. by rewrite /distn; lia. Qed.

(* anti-periodic in x: the sign changes exactly on the edges between the first and the last column *)
Theorem C98_grid px py (edges : seq (nat * nat)) apbc (t : F) : (forall e, e \in edges -> grid_bond Lx Ly px py e) ->
  grid_t Lx Ly edges apbc t = [seq if apbc && (columns Ly e == (0%N, Lx.-1)) then - t else t | e <- edges].
Proof.
move=> H; apply/eq_in_map => e He; rewrite mul1r mulrN1; case: apbc => //=.
suff -> : (distn e.1 e.2 %/ Ly == Lx - 1)%N = (columns Ly e == (0%N, Lx.-1)) by [].
have [x [y [Hx Hy]]] := H e He.
have Sy a b : bond e = bond (a, b) -> distn e.1 e.2 = distn a b /\ columns Ly e = bond (a %/ Ly, b %/ Ly)%N.
  by move/bondP => [->|->] /=; rewrite /columns //= distnC [bond (a %/ Ly, _)%N]bondC.
case=> [[x' [-> _ /Sy [-> ->]]]|[y' [Ey _ /Sy [-> ->]]]].
  rewrite !div_site // bond_ring //.
  have D : distn (x * Ly + y) ((x + 1) %% Lx * Ly + y) = ((if x == Lx.-1 then Lx.-1 else 1) * Ly)%N.
    case: eqP => [->|N].
      rewrite addn1 prednK ?modnn ?mul0n ?add0n; last by lia.
      by rewrite /distn; move: (Lx.-1 * Ly)%N => p; lia.
    rewrite modn_small; last by lia.
    by rewrite mulnDl !mul1n /distn; move: (x * Ly)%N => p; lia.
  rewrite D mulnK //; case: (altP (x =P Lx.-1)) => [_|N]; first by rewrite !eqxx subn1 eqxx.
  have -> : ((x, x.+1) == (0%N, Lx.-1)) = false by apply/negbTE/eqP => E; have := congr1 fst E; have := congr1 snd E; rewrite /=; lia.
  by apply/negbTE/eqP; lia.
have Hy' : (y' < Ly)%N by rewrite Ey ltn_mod.
rewrite !div_site //.
have -> : (distn (x * Ly + y) (x * Ly + y') %/ Ly = 0)%N by rewrite divn_small // /distn; move: (x * Ly)%N => p; lia.
have -> : (0 == Lx - 1)%N = false by lia.
by apply/esym/negbTE/eqP => E; have := congr1 fst E; have := congr1 snd E; rewrite /bond /=; lia.
Qed.

(* where the seam is does not matter: flipping the edges between the columns x0 and x0 + 1 instead amounts to a sign
   for every electron in the columns after x0 *)
Definition seam (x0 : nat) (t : F) (e : nat * nat) : F := if columns Ly e == bond (x0, (x0 + 1) %% Lx)%N then - t else t.
Theorem C98_grid_seam px py (edges : seq (nat * nat)) (t : F) x0 : (forall e, e \in edges -> grid_bond Lx Ly px py e) -> (x0 < Lx)%N ->
  exists s : nat -> bool, forall U psi x, all (fun o => (o < 4)%N) x -> size x = (Lx * Ly)%N ->
  hub_otf U edges (grid_t Lx Ly edges true t) None psi x
  = hub_otf U edges [seq seam x0 t e | e <- edges] None (fun y => gauge F s y * psi y) x.
Proof.
move=> H H0; exists (fun i => (x0 < i %/ Ly)%N) => U psi x Hv Hx; rewrite -C98_gauge //; last 2 first.
- apply/allP => e /H [a [b [Ha Hb Hor]]]; rewrite Hx.
  have B c d : (c < Lx)%N -> (d < Ly)%N -> (c * Ly + d < Lx * Ly)%N.
    by move=> Hc Hd; apply: (@leq_trans (c.+1 * Ly)); [rewrite mulSn; lia|rewrite leq_mul2r Hc orbT].
  case: Hor => [[x' [Ex _ /bondP E]]|[y' [Ey _ /bondP E]]].
    have Hx' : (x' < Lx)%N by rewrite Ex ltn_mod; lia.
    by case: E => -> /=; rewrite !B.
  have Hy' : (y' < Ly)%N by rewrite Ey ltn_mod.
  by case: E => -> /=; rewrite !B.
- by rewrite size_map.
rewrite (C98_grid true t H); congr (hub_otf _ _ _ _ _ _).
have Z : zip edges [seq seam x0 t e | e <- edges] = [seq (e, seam x0 t e) | e <- edges] by elim: (edges) => //= e l ->.
rewrite Z -map_comp; apply/eq_in_map => e He /=.
have [a [b [Ha Hb Hor]]] := H e He.
have Cs c d : bond e = bond (c, d) -> sg F (x0 < e.1 %/ Ly)%N * sg F (x0 < e.2 %/ Ly)%N = sg F ((x0 < c %/ Ly) (+) (x0 < d %/ Ly))%N /\ columns Ly e = bond (c %/ Ly, d %/ Ly)%N.
  by move/bondP => [->|->] /=; rewrite sgM /columns //= [bond (c %/ Ly, _)%N]bondC addbC.
case: Hor => [[x' [-> _ /Cs [-> C]]]|[y' [Ey _ /Cs [-> C]]]]; rewrite /seam C; last first.
  have Hy' : (y' < Ly)%N by rewrite Ey ltn_mod.
  rewrite !div_site // addbb /sg mul1r.
  have N c d : (c <> d)%N -> (bond (a, a) == bond (c, d)) = false by move=> Hcd; apply/negbTE/eqP => E; have := congr1 fst E; have := congr1 snd E; rewrite /bond /=; lia.
  have -> : (0%N, Lx.-1) = bond (0%N, Lx.-1) by rewrite /bond /= min0n max0n.
  rewrite !N //; last by lia.
  case: (altP (x0 =P Lx.-1)) => [->|N0]; first by rewrite addn1 prednK ?modnn; lia.
  by rewrite modn_small; lia.
rewrite !div_site // !bond_ring //.
have P i : ((i, i.+1) == (0%N, Lx.-1)) = false by apply/negbTE/eqP => E; have := congr1 fst E; have := congr1 snd E; rewrite /=; lia.
have P' i : ((0%N, Lx.-1) == (i, i.+1)) = false by rewrite eq_sym P.
have Q i j : ((i, i.+1) == (j, j.+1)) = (i == j) by apply/eqP/eqP => [E|->//]; by have := congr1 fst E.
case: (altP (a =P Lx.-1)) => [Ea|Na].
  rewrite Ea addn1 prednK ?modnn ?ltn0 ?addbF ?eqxx /sg; last by lia.
  case: (altP (x0 =P Lx.-1)) => [->|N0]; rewrite ?ltnn ?eqxx ?P' ?mul1r //.
  have -> : (x0 < Lx.-1)%N by lia.
  by rewrite mulN1r.
rewrite P addn1 modn_small; last by lia.
case: (altP (x0 =P Lx.-1)) => [E0|N0].
  rewrite P; have -> : (x0 < a)%N = false by lia.
  have -> : (x0 < a.+1)%N = false by lia.
  by rewrite /sg mul1r.
rewrite Q ltnS; case: (ltngtP x0 a) => Hc.
- by rewrite /sg /= mul1r.
- by rewrite /sg /= mul1r.
by rewrite /sg /= mulrNN mul1r.
Qed.
End Grid.
Example C98_ex : [/\ argps_edges 4 = [:: (0, 1); (1, 2); (2, 3); (3, 0)]%N, argps_t 4 true (2%:R : rat) = [:: 2%:R; 2%:R; 2%:R; -2%:R]
  & grid_t 3 2 [:: (0, 2); (0, 4); (0, 1)]%N true (1 : rat) = [:: 1; -1; 1]].
Proof. by split; vm_compute. Qed.
