From Verif Require Import Base Fock_Spec Fock_Proofs Occ_Model Occ_Spec Hopping_Model Hopping_Proofs.
From Verif Require Import Buffer_Proofs Update_Proto Fast_Contract Hubbard_Model Hubbard_Proofs.
Local Open Scope ring_scope.

Lemma fock_spec_car_lemma (R : comRingType) L s t i j (psi : fock -> R) x :
  on_sites L x -> (i < L)%N -> (j < L)%N ->
  [/\ annih s i (annih t j psi) x + annih t j (annih s i psi) x = 0,
      creat s i (creat t j psi) x + creat t j (creat s i psi) x = 0 &
      annih s i (creat t j psi) x + creat t j (annih s i psi) x
        = if (s == t) && (i == j) then psi x else 0].
Proof.
move=> H Hi Hj; split; [exact: car_annih Hi Hj _ _ H|exact: car_creat Hi Hj _ _ H|].
exact: car_mixed Hi Hj _ _ H.
Qed.

Lemma C01_lemma (R : comRingType) (s : spin) a c x (psi : fock -> R) :
  valid x -> (a < size x)%N -> (c < size x)%N ->
  let: (m, x') := apply_hopping a c x (spin_int s) (Some (cumcount (spin_int s) x)) in
  [/\ m%:~R * psi (fock_of x') = hop s a c psi (fock_of x),
      m \in [:: 0; 1; -1] /\ (m = 0 -> x' = x), valid x', size x' = size x
    & forall t, n_spin t x' = n_spin t x].
Proof.
move=> Hv Ha Hc.
have := apply_hopping_correct s psi Hv Ha Hc.
have := apply_hopping_wf s Hv Ha Hc.
case E: (apply_hopping _ _ _ _ _) => [m x'] /= [V S N M] C; split=> //; split=> // m0.
by move: E; rewrite /apply_hopping; case: ifP => [H [E _]|_ [] //]; rewrite E m0 in H.
Qed.

Lemma C01_ket_lemma (R : comRingType) (s : spin) a c x (y : fock) :
  valid x -> (a < size x)%N -> (c < size x)%N -> on_sites (size x) y ->
  let: (m, x') := apply_hopping a c x (spin_int s) (Some (cumcount (spin_int s) x)) in
  hop s c a (fun z => (z == fock_of x)%:R : R) y = m%:~R * (y == fock_of x')%:R.
Proof.
move=> Hv Ha Hc Hy.
rewrite -/(delta R (fock_of x)) -(hop_adj R s (on_sites_fock x) Hy) //.
have := apply_hopping_correct s (delta R y) Hv Ha Hc.
by case: (apply_hopping _ _ _ _ _) => m x' /= <-; rewrite /delta eq_sym.
Qed.

Lemma C02_refuted_lemma :
  exists a c x s, [/\ valid x, (a < size x)%N, (c < size x)%N &
    apply_hopping a c x (spin_int s) None
    <> apply_hopping a c x (spin_int s) (Some (cumcount (spin_int s) x))].
Proof. by exists 0%N, 2%N, [:: 1; 0; 0]%N, Up; split=> //; vm_compute. Qed.

Lemma num_drop (l : seq bool) i : (num (drop i l) = num l - num (take i l))%N.
Proof. by rewrite -{2}(cat_take_drop i l) /num count_cat addKn. Qed.

Lemma count_window s x i j : valid x ->
  count (fun o => has o (spin_int s)) (drop i (take j x))
  = (num (take j (species s (fock_of x))) - num (take (minn i j) (species s (fock_of x))))%N.
Proof.
move=> Hv.
have E : species s (fock_of x) = map (has_spin s) x by case: s.
transitivity (num (drop i (take j (species s (fock_of x))))).
  rewrite E -map_take -map_drop /num count_map; apply: eq_in_count => o /mem_drop /mem_take Ho.
  by rewrite /= has_has_spin //; apply: (allP Hv).
rewrite num_drop; case: (leqP i j) => H; first by rewrite take_take.
rewrite [take i _]take_oversize // size_take; case: ltnP => // H'; last exact: leq_trans H' (ltnW H).
exact: ltnW.
Qed.

Lemma C02_partial_lemma (s : spin) a c x :
  valid x -> (a < size x)%N -> (c < size x)%N ->
  let r0 := apply_hopping a c x (spin_int s) None in
  let r1 := apply_hopping a c x (spin_int s) (Some (cumcount (spin_int s) x)) in
  r0.2 = r1.2 /\
  (r0.1 = r1.1 <->
   [\/ r1.1 = 0, a = c | has_spin s (nth 0%N x (maxn a c).-1) = (a < c)%N]).
Proof.
move=> Hv Ha Hc /=; rewrite /apply_hopping !has_has_spin ?valid_nth // -!occ_fock.
case Oa: (occ s a (fock_of x)) => /=; last by split=> //; split=> // _; constructor 1.
case: (altP (c =P a)) => [Eac|Hac] /=.
  by split=> //; split=> // _; constructor 2.
case Oc: (occ s c (fock_of x)) => /=; first by split=> //; split=> // _; constructor 1.
rewrite count_window // !nth_cumcount //; try lia.
rewrite prednK; last by lia.
rewrite !occ_fock -!occ_fock.
set l := species s (fock_of x).
set n1 := num (take (maxn a c) l).
set n0 := num (take (maxn a c).-1 l); set m0 := num (take (minn _ _) l).
set m1 := num (take (minn a c).+1 l).
have H1 : (m1 <= n1)%N by apply: num_take_mono; lia.
have H0 : (m0 <= n0)%N by apply: num_take_mono; lia.
have -> : absz (n1%:Z - m1%:Z) = (n1 - m1)%N by lia.
have E1 : (n1 = n0 + occ s (maxn a c).-1 (fock_of x))%N.
  by rewrite /n1 /n0 -occ_nth_species -num_take_succ prednK //; lia.
have E2 : (m1 = m0 + occ s (minn a c) (fock_of x))%N.
  rewrite /m1 /m0 num_take_succ; congr (num (take _ _) + _)%N; lia.
have Eo : occ s (minn a c) (fock_of x) = (a < c)%N.
  by case: (ltngtP a c) Hac => [H _|H _|->]; rewrite ?eqxx //; move: Oa Oc; rewrite /minn ?H //;
     case: ltnP => // H'; lia.
rewrite Eo in E2.
split; first by do 2!case: (odd _).
have Hodd : odd (n0 - m0) = odd (n1 - m1) <-> (occ s (maxn a c).-1 (fock_of x) = (a < c)%N).
  by move: E1 E2 H1 H0; case: (occ _ _ _); case: (a < c)%N => /= E1 E2 H1 H0; split=> //; lia.
split.
  move=> H; constructor 3; apply/Hodd; move: H.
  by do 2!case: (odd _).
case=> H.
- by move: H; case: (odd _).
- by rewrite H eqxx in Hac.
- by have -> : odd (n0 - m0) = odd (n1 - m1) by apply/Hodd.
Qed.

Section C03.
Variables (R : comRingType) (U : R) (edges : seq (nat * nat)) (t : seq R).
Let conn := hub_conn_flattened U edges t.

Lemma C03_lemma (psi : fock -> R) x s0 :
  valid x -> all (fun e => (e.1 < size x)%N && (e.2 < size x)%N) edges -> size t = size edges ->
  \sum_(e <- pmap id (ob_buf (conn [:: x] [:: s0]).1)) e.2 * psi (fock_of e.1)
  = hubbard (size x) (zip edges t) U psi (fock_of x).
Proof. by move=> Hv He Ht; rewrite /conn hub_single pmap_some hub_list_action. Qed.

Lemma C03_batch_lemma (psi : fock -> R) xs secs b L :
  size secs = size xs -> edges != [::] -> (b < size xs)%N ->
  all (fun x => valid x && (size x == L)) xs ->
  all (fun e => (e.1 < L)%N && (e.2 < L)%N) edges -> size t = size edges ->
  \sum_(e <- pmap id (sec_slice (ob_buf (conn xs secs).1) (conn xs secs).2 b)) e.2 * psi (fock_of e.1)
  = hubbard L (zip edges t) U psi (fock_of (nth [::] xs b)).
Proof.
move=> Hs He Hb Hx HeL Ht; rewrite /conn hub_batch_slice // pmap_some.
have /andP [Hv /eqP HL] := allP Hx _ (mem_nth [::] Hb).
by rewrite -HL hub_list_action // /edges_in HL.
Qed.

Lemma C04_hubbard_lemma x s0 p :
  valid x -> all (fun e => (e.1 < size x)%N && (e.2 < size x)%N) edges ->
  p \in ob_buf (conn [:: x] [:: s0]).1 ->
  exists x' mel, [/\ p = Some (x', mel), valid x', size x' = size x & forall s, n_spin s x' = n_spin s x].
Proof.
move=> Hv He; rewrite /conn hub_single => /mapP [[x' mel] Hin ->]; exists x', mel.
have [] := @hub_list_wf R U edges t x x' Hv He; last by split.
by apply/mapP; exists (x', mel).
Qed.

Lemma C05_lemma x y :
  valid x -> valid y -> size y = size x ->
  all (fun e => (e.1 < size x)%N && (e.2 < size x)%N) edges -> size t = size edges ->
  \sum_(e <- pmap id (ob_buf (conn [:: x] [:: 0%N]).1) | e.1 == y) e.2 =
  \sum_(e <- pmap id (ob_buf (conn [:: y] [:: 0%N]).1) | e.1 == x) e.2.
Proof.
move=> Hx Hy Hs He Ht; rewrite /conn !hub_single !pmap_some.
have aux z z' : valid z -> valid z' -> size z = size x ->
  \sum_(e <- hub_list U edges t z | e.1 == z') e.2
  = hubbard (size x) (zip edges t) U (delta R (fock_of z')) (fock_of z).
  move=> Hz Hz' Hsz; rewrite -Hsz -hub_list_action ?/edges_in ?Hsz // big_mkcond /= !big_seq.
  apply: eq_bigr => e He'.
  have [] := @hub_list_wf R U edges t z e.1 Hz; rewrite ?/edges_in ?Hsz //; first exact: map_f.
  move=> Hv _ _; rewrite /delta fock_of_inj //.
  by case: eqP => _; rewrite ?mulr1 ?mulr0.
rewrite !aux //; apply: hubbard_symm.
- exact: on_sites_fock.
- by rewrite -Hs; apply: on_sites_fock.
- apply/(all_nthP ((0,0)%N, 0)) => k; rewrite size_zip Ht minnn => Hk; rewrite nth_zip //=.
  exact: (all_nthP (0,0)%N He).
Qed.

Lemma C06_lemma xs secs :
  size secs = size xs -> edges != [::] ->
  let out := conn xs secs in
  [/\ ob_ok out.1, ob_cur out.1 = size (ob_buf out.1), all isSome (ob_buf out.1),
      size out.2 = size xs &
      forall b, (b < size xs)%N ->
        [/\ (sec_lo out.2 b <= nth 0%N out.2 b <= size (ob_buf out.1))%N,
            (b.+1 = size xs -> nth 0%N out.2 b = size (ob_buf out.1)) &
            sec_slice (ob_buf out.1) out.2 b = ob_buf (conn [:: nth [::] xs b] [:: 0%N]).1]].
Proof.
move=> Hs He out.
have Ho := hub_conn_flattenedE U edges t Hs.
have E2 : out.2 = [seq (k.+1 * (1 + size edges * 4))%N | k <- iota 0 (size xs)].
  by rewrite /out /conn Ho; case: (edges) He.
have E1 : out.1 = written (flatten (map (hub_list U edges t) xs)) 0 by rewrite /out /conn Ho.
have [W1 W2 W3 W4] := written_ok (flatten (map (hub_list U edges t) xs)).
have Hsz : size (ob_buf out.1) = (size xs * (1 + size edges * 4))%N.
  rewrite E1 W3 size_map size_flatten /shape -map_comp.
  by elim: (xs) => //= x l ->; rewrite size_hub_edges size_iota mulSn.
have Hn b : (b < size xs)%N -> nth 0%N out.2 b = (b.+1 * (1 + size edges * 4))%N.
  by move=> Hb; rewrite E2 (nth_map 0%N) ?size_iota // nth_iota // add0n.
split; rewrite ?E1 ?W4 ?W2 //; first by rewrite E2 size_map size_iota.
move=> b Hb; rewrite -E1; split.
- rewrite Hsz Hn // leq_mul2r Hb orbT andbT.
  case: b Hb => [|b] Hb //; rewrite /sec_lo Hn; last by lia.
  by rewrite leq_mul2r leqnSn orbT.
- by move=> E; rewrite Hn // Hsz E.
- by rewrite /out /conn hub_batch_slice // hub_single.
Qed.
End C03.

Lemma C06_refuted_lemma :
  exists (U : rat) (xs : seq cfg) (secs : seq nat),
  [/\ size secs = size xs, all valid xs &
      let out := hub_conn_flattened U [::] [::] xs secs in
      exists b, (b < size xs)%N /\
        sec_slice (ob_buf out.1) out.2 b
        <> ob_buf (hub_conn_flattened U [::] [::] [:: nth [::] xs b] [:: 0%N]).1].
Proof.
exists 0, [:: [:: 1]%N], [:: 0%N]; split=> //=; exists 0%N; split=> //.
Qed.

Lemma C07_lemma (F : fieldType) (U : F) edges (t : seq F) (fast : option (seq nat -> seq nat -> F)) (psi : cfg -> F) x s0 :
  fast_ok_uniq fast psi x -> valid x -> all (fun e => (e.1 < size x)%N && (e.2 < size x)%N) edges ->
  all (fun e => e.1 != e.2) edges -> psi x != 0 ->
  hub_otf U edges t fast psi x
  = \sum_(e <- pmap id (ob_buf (hub_conn_flattened U edges t [:: x] [:: s0]).1)) e.2 * (psi e.1 / psi x).
Proof. by move=> Hf Hv He Hne Hp; rewrite hub_single pmap_some hub_otfE. Qed.

Lemma C07_ham_lemma (F : fieldType) (U : F) edges (t : seq F) (fast : option (seq nat -> seq nat -> F)) (psi : cfg -> F) x :
  fast_ok_uniq fast psi x -> valid x -> all (fun e => (e.1 < size x)%N && (e.2 < size x)%N) edges ->
  all (fun e => e.1 != e.2) edges -> size t = size edges -> psi x != 0 ->
  hub_otf U edges t fast psi x * psi x
  = hubbard (size x) (zip edges t) U (fun f => psi (cfg_of f)) (fock_of x).
Proof.
move=> Hf Hv He Hne Ht Hp; rewrite hub_otfE // -hub_list_action // mulr_suml !big_seq.
apply: eq_bigr => e He'; rewrite -mulrA divfK //.
have [] := @hub_list_wf F U edges t x e.1 Hv He; first exact: map_f.
by move=> Hve _ _; rewrite cfg_ofK.
Qed.

Lemma C07_refuted_lemma :
  exists (U : rat) edges (t : seq rat) (psi : cfg -> rat) x,
  [/\ valid x, all (fun e => (e.1 < size x)%N && (e.2 < size x)%N) edges, size t = size edges, psi x != 0 &
   hub_otf U edges t None psi x
   <> \sum_(e <- pmap id (ob_buf (hub_conn_flattened U edges t [:: x] [:: 0%N]).1)) e.2 * (psi e.1 / psi x)].
Proof.
exists 0, [:: (0, 0)]%N, [:: 1], (fun=> 1), [:: 1]%N; split=> //.
rewrite hub_single pmap_some /hub_list /hub_edge_list /= !big_cons big_nil /=.
by rewrite /hub_otf /= !big_nat1 /hub_otf_hop /=; apply/eqP; vm_compute.
Qed.
