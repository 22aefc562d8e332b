From Verif Require Import Base Fock_Spec Fock_Proofs Occ_Model Occ_Spec Hopping_Model Hopping_Proofs.
From Verif Require Import Buffer_Proofs Hubbard_Model Hubbard_Proofs Mol_Fock Mol_Row.
From Verif Require Import AbInitio_Model AbInitio_Proofs AbInitio_Row AbInitioOtf_Model Update_Proto Fast_Contract.
Local Open Scope ring_scope.

Lemma nonzero_sizedE n mask len : count mask (iota 0 len) = n ->
  nonzero_sized n mask len = [seq k <- iota 0 len | mask k].
Proof. by move=> H; rewrite /nonzero_sized take_size_cat // size_filter. Qed.

Lemma map_nth_iota (l : seq nat) : [seq nth 0%N l k | k <- iota 0 (size l)] = l.
Proof. exact: mkseq_nth. Qed.

Lemma outer_removedE l i : uniq l -> i \in l -> outer_removed l i = [seq j <- l | j != i].
Proof.
move=> Hu Hi; rewrite /outer_removed nonzero_sizedE.
  by rewrite -[in RHS](map_nth_iota l) filter_map.
have -> : (size l).-1 = count (predC1 i) l.
  by have := count_predC (pred1 i) l; rewrite count_uniq_mem // Hi => /(f_equal predn).
by rewrite -[in RHS](map_nth_iota l) count_map.
Qed.

Lemma filter_iota_shift (p : nat -> bool) n :
  [seq k <- iota 1 n | p k] = map succn [seq k <- iota 0 n | p k.+1].
Proof.
have -> : iota 1 n = map succn (iota 0 n) by rewrite -(iotaDl 1 0).
by rewrite filter_map.
Qed.

Lemma first_index (l : seq nat) v : v \in l ->
  nth 0%N (nonzero_sized 1 (fun k => nth 0%N l k == v) (size l)) 0 = index v l.
Proof.
move=> Hv; rewrite /nonzero_sized nth_take //.
have H : nth 0%N [seq k <- iota 0 (size l) | nth 0%N l k == v] 0 = index v l
  /\ (0 < size [seq k <- iota 0 (size l) | nth 0%N l k == v])%N.
  elim: l Hv => // a l IH; rewrite inE /= [v == a]eq_sym.
  case: (altP (a =P v)) => //= Hav Hin; rewrite filter_iota_shift /=.
  have [E S] := IH Hin; rewrite size_map; split=> //.
  by rewrite (nth_map 0%N) // E.
by rewrite nth_cat; case: H => -> ->.
Qed.

Section Upd.
Variable x : cfg.

Lemma size_apply_updates occs sites : all (fun k => (k < size x)%N) sites ->
  size (apply_updates x occs sites) = size x.
Proof.
rewrite /apply_updates; elim: sites occs => [|s l IH] [|o occs] //= /andP [Hs Hl].
by rewrite size_set_nth IH //; apply/maxn_idPr.
Qed.

Lemma nth_apply_updates occs sites k : size occs = size sites ->
  nth 0%N (apply_updates x occs sites) k
  = if k \in sites then nth 0%N occs (index k sites) else nth 0%N x k.
Proof.
rewrite /apply_updates; elim: sites occs => [|s l IH] [|o occs] //= [Hs].
by rewrite nth_set_nth /= inE [s == k]eq_sym; case: eqP => //= _; rewrite IH.
Qed.

(* later occurrences of a site carry the original occupancy *)
Definition dup_ok (occs sites : seq nat) := forall p, (p < size sites)%N ->
  (index (nth 0%N sites p) sites < p)%N -> nth 0%N occs p = nth 0%N x (nth 0%N sites p).

Lemma updated_occ occs sites site d : size occs = size sites ->
  all (fun k => (k < size x)%N) (rcons sites site) -> dup_ok occs sites ->
  let r := get_updated_occ_previous_move x occs sites site d in
  [/\ r.2 = rcons sites site, size r.1 = size r.2,
      apply_updates x r.1 r.2 = add_at (apply_updates x occs sites) site d & dup_ok r.1 r.2].
Proof.
move=> Hs Hall Hd r.
have Hin : site \in rcons sites site by rewrite mem_rcons inE eqxx.
have Hidx : (index site (rcons sites site) < (size occs).+1)%N.
  by rewrite Hs -(size_rcons sites site) index_mem.
have E2 : r.2 = rcons sites site by [].
have E1 : r.1 = set_nth 0%N (rcons occs (nth 0%N x site)) (index site (rcons sites site))
     (u8 ((nth 0%N (rcons occs (nth 0%N x site)) (index site (rcons sites site)))%:Z + d)).
  by rewrite /r /get_updated_occ_previous_move first_index.
have S1 : size r.1 = size r.2.
  by rewrite E1 E2 size_set_nth !size_rcons -Hs; apply/maxn_idPr; rewrite ltnS -ltnS.
have Hsites : all (fun k => (k < size x)%N) sites by move: Hall; rewrite all_rcons => /andP [].
have Hsite : (site < size x)%N by move: Hall; rewrite all_rcons => /andP [].
have idx k : index k (rcons sites site) = if k \in sites then index k sites
    else if k == site then size sites else (size sites).+1.
  rewrite -cats1 index_cat; case: (k \in sites) => //=.
  by rewrite [site == k]eq_sym; case: eqP => _; rewrite ?addn0 ?addn1.
have nthS k : nth 0%N (apply_updates x occs sites) k
   = if k \in sites then nth 0%N occs (index k sites) else nth 0%N x k by apply: nth_apply_updates.
have nthO : nth 0%N (rcons occs (nth 0%N x site)) (index site (rcons sites site))
   = nth 0%N (apply_updates x occs sites) site.
  rewrite nthS idx eqxx; case: ifP => H; rewrite nth_rcons.
    by rewrite Hs index_mem H.
  by rewrite Hs ltnn eqxx.
split=> //.
- have Ssz := size_apply_updates occs Hsites.
  apply: (@eq_from_nth _ 0%N); rewrite size_apply_updates ?E2 //.
    by rewrite size_set_nth Ssz; apply/esym/maxn_idPr.
  move=> k Hk; rewrite nth_apply_updates -?E2 // E2 mem_rcons inE E1 !nth_set_nth /= nthO.
  case: (altP (k =P site)) => [->|Hne] /=; first by rewrite eqxx.
  rewrite [in RHS]nthS; case: (boolP (k \in sites)) => // Hk'.
  have Hi : (index k sites < size sites)%N by rewrite index_mem.
  rewrite !idx Hk' eqxx.
  have -> : (index k sites == (if site \in sites then index site sites else size sites)) = false.
    apply/eqP; case: ifP => Hst E; last by rewrite E ltnn in Hi.
    by case/negP: Hne; rewrite -(nth_index 0%N Hk') E nth_index.
  by rewrite nth_rcons Hs Hi.
- move=> p; rewrite E2 size_rcons ltnS => Hp; rewrite nth_rcons.
  rewrite leq_eqVlt in Hp; case/orP: Hp => [/eqP Ep|Hp].
    rewrite Ep ltnn eqxx idx eqxx; case: ifP => Hin' Hlt; last by rewrite ltnn in Hlt.
    rewrite E1 nth_set_nth /= idx Hin'; case: eqP => [E|_]; first by rewrite -E ltnn in Hlt.
    by rewrite nth_rcons Hs ltnn eqxx.
  rewrite Hp idx mem_nth // => Hlt.
  rewrite E1 nth_set_nth /= idx eqxx.
  have -> : (p == (if site \in sites then index site sites else size sites)) = false.
    apply/eqP; case: ifP => Hin' E; last by rewrite E ltnn in Hp.
    by move: Hlt; rewrite E nth_index // ltnn.
  by rewrite nth_rcons Hs Hp Hd.
Qed.

Lemma apply_updates_denotes occs sites : size occs = size sites -> all (fun k => (k < size x)%N) sites ->
  dup_ok occs sites -> denotes x (apply_updates x occs sites) sites occs.
Proof.
move=> Hs Ha Hd; split=> //; first exact: size_apply_updates.
  move=> k Hk; rewrite nth_apply_updates // mem_nth //; case: eqP => [-> //|Hne].
  by apply: Hd => //; rewrite ltn_neqAle index_leq_nth andbT; apply/eqP.
by move=> j Hj; rewrite nth_apply_updates // (negbTE Hj).
Qed.

Lemma connectedE (F : fieldType) fast (psi : cfg -> F) occs sites : fast_ok fast psi x ->
  size occs = size sites -> all (fun k => (k < size x)%N) sites -> dup_ok occs sites ->
  valid (apply_updates x occs sites) -> (forall s, n_spin s (apply_updates x occs sites) = n_spin s x) ->
  connected fast psi x occs sites = psi (apply_updates x occs sites).
Proof.
move=> Hf Hs Ha Hd Hv Hn; exact: fast_okE Hf (apply_updates_denotes Hs Ha Hd) Hv Hn.
Qed.
End Upd.

(* a live hop *)
Lemma apply_hopping_live s y i a cum : has (nth 0%N y i) s -> ~~ has (nth 0%N y a) s -> i != a ->
  apply_hopping i a y s (Some cum)
  = (parity_multiplicator_hop i a cum, add_at (add_at y i (- s%:Z)) a s%:Z).
Proof.
move=> Hi Ha Hia; rewrite /apply_hopping Hi (negbTE Ha) /= [a == i]eq_sym (negbTE Hia) /parity_multiplicator_hop.
by case: (odd _).
Qed.
