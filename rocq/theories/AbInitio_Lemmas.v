From Verif Require Import Base Fock_Spec Fock_Proofs Occ_Model Occ_Spec Hopping_Model Hopping_Proofs.
From Verif Require Import Buffer_Proofs Hubbard_Proofs Mol_Fock Mol_Adj AbInitio_Model AbInitio_Proofs AbInitio_Row.
Local Open Scope ring_scope.

Section Ab.
Variables (R : comRingType) (half : R) (h : nat -> nat -> R) (eri : nat -> nat -> nat -> nat -> R).
Hypothesis half2 : half + half = 1.

Lemma ab_single t x s0 : ob_buf (ab_conn_flattened half t eri [:: x] [:: s0]).1 = map Some (ab_list half t eri x).
Proof.
rewrite ab_conn_flattenedE // [flatten _]/= cats0.
by have [_ _ E _] := written_ok (ab_list half t eri x); rewrite [X in ob_buf X]/= E.
Qed.

Lemma ab_batch_slice t xs secs b : size secs = size xs -> (b < size xs)%N ->
  sec_slice (ob_buf (ab_conn_flattened half t eri xs secs).1) (ab_conn_flattened half t eri xs secs).2 b
  = map Some (ab_list half t eri (nth [::] xs b)).
Proof.
move=> Hs Hb; rewrite ab_conn_flattenedE // [(_, _).2]/= [(_, _).1]/=.
have [_ _ -> _] := written_ok (flatten (map (ab_list half t eri) xs)); rewrite map_flatten -map_comp.
rewrite sec_slice_flatten ?size_map //; last first.
  move=> c Hc; rewrite (nth_map 0%N) ?size_iota // nth_iota // add0n.
  rewrite -map_take !size_flatten /shape -!map_comp; congr sumn; apply: eq_map => y /=.
  by rewrite size_map.
by rewrite (nth_map [::]).
Qed.

Lemma C08_lemma L psi x s0 : valid x -> size x = L ->
  (forall p q r s, (p < L)%N -> (q < L)%N -> (r < L)%N -> (s < L)%N -> eri p q r s = eri r s p q) ->
  \sum_(e <- pmap id (ob_buf (ab_conn_flattened half (t_mat half L h eri) eri [:: x] [:: s0]).1))
     e.2 * psi (fock_of e.1)
  = molecular L half h eri psi (fock_of x).
Proof. by move=> Hv <- Hs; rewrite ab_single pmap_some ab_list_action. Qed.

Lemma C08_batch_lemma L psi xs secs b : size secs = size xs -> (b < size xs)%N ->
  all (fun x => valid x && (size x == L)) xs ->
  (forall p q r s, (p < L)%N -> (q < L)%N -> (r < L)%N -> (s < L)%N -> eri p q r s = eri r s p q) ->
  let out := ab_conn_flattened half (t_mat half L h eri) eri xs secs in
  \sum_(e <- pmap id (sec_slice (ob_buf out.1) out.2 b)) e.2 * psi (fock_of e.1)
  = molecular L half h eri psi (fock_of (nth [::] xs b)).
Proof.
move=> Hs Hb Hx He out; rewrite /out ab_batch_slice // pmap_some.
have /andP [Hv /eqP HL] := allP Hx _ (mem_nth [::] Hb).
by rewrite -HL ab_list_action // ?HL.
Qed.

Lemma C04_ab_lemma t x s0 p : valid x ->
  p \in ob_buf (ab_conn_flattened half t eri [:: x] [:: s0]).1 ->
  exists x' mel, [/\ p = Some (x', mel), valid x', size x' = size x & forall s, n_spin s x' = n_spin s x].
Proof.
move=> Hv; rewrite ab_single => /mapP [[x' mel] Hin ->]; exists x', mel.
have [] := @ab_list_wf R half x Hv t eri x'; last by split.
by apply/mapP; exists (x', mel).
Qed.

Lemma C09_lemma t xs secs : size secs = size xs ->
  let out := ab_conn_flattened half t eri xs secs in
  [/\ ob_ok out.1, ob_cur out.1 = size (ob_buf out.1), all isSome (ob_buf out.1),
      size out.2 = size xs &
      forall b, (b < size xs)%N ->
        [/\ (sec_lo out.2 b <= nth 0%N out.2 b <= size (ob_buf out.1))%N,
            (b.+1 = size xs -> nth 0%N out.2 b = size (ob_buf out.1)) &
            sec_slice (ob_buf out.1) out.2 b
            = ob_buf (ab_conn_flattened half t eri [:: nth [::] xs b] [:: 0%N]).1]].
Proof.
move=> Hs out; have Ho := ab_conn_flattenedE half t eri Hs.
have E2 : out.2 = [seq size (flatten (map (ab_list half t eri) (take k.+1 xs))) | k <- iota 0 (size xs)].
  by rewrite /out Ho.
have E1 : out.1 = written (flatten (map (ab_list half t eri) xs)) 0 by rewrite /out Ho.
have [W1 W2 W3 W4] := written_ok (flatten (map (ab_list half t eri) xs)).
have Hsz : size (ob_buf out.1) = size (flatten (map (ab_list half t eri) xs)) by rewrite E1 W3 size_map.
have Hn b : (b < size xs)%N -> nth 0%N out.2 b = size (flatten (map (ab_list half t eri) (take b.+1 xs))).
  by move=> Hb; rewrite E2 (nth_map 0%N) ?size_iota // nth_iota // add0n.
have Hm a b : (a <= b)%N -> (size (flatten (map (ab_list half t eri) (take a xs))) <=
    size (flatten (map (ab_list half t eri) (take b xs))))%N.
  move=> Hab; rewrite -(take_take Hab xs) -{2}(cat_take_drop a (take b xs)) map_cat flatten_cat size_cat.
  exact: leq_addr.
split; rewrite ?E1 ?W4 ?W2 //; first by rewrite E2 size_map size_iota.
move=> b Hb; rewrite -E1; split.
- rewrite Hn // Hsz; have := Hm b.+1 (size xs) Hb; rewrite take_size => ->; rewrite andbT.
  by case: b Hb => [|b] Hb //; rewrite /sec_lo Hn ?Hm //; lia.
- by move=> E; rewrite Hn // Hsz E take_size.
- by rewrite /out ab_batch_slice // ab_single.
Qed.

Lemma ab_symm_lemma L x y : valid x -> valid y -> size x = L -> size y = L ->
  (forall p q, (p < L)%N -> (q < L)%N -> h p q = h q p) ->
  (forall p q r s, (p < L)%N -> (q < L)%N -> (r < L)%N -> (s < L)%N -> eri p q r s = eri r s p q) ->
  (forall p q r s, (p < L)%N -> (q < L)%N -> (r < L)%N -> (s < L)%N -> eri p q r s = eri q p s r) ->
  let conn x := pmap id (ob_buf (ab_conn_flattened half (t_mat half L h eri) eri [:: x] [:: 0%N]).1) in
  \sum_(e <- conn x | e.1 == y) e.2 = \sum_(e <- conn y | e.1 == x) e.2.
Proof.
move=> Hx Hy Sx Sy Hh He1 He2 conn; rewrite /conn !ab_single !pmap_some.
have aux z z' : valid z -> valid z' -> size z = L ->
  \sum_(e <- ab_list half (t_mat half L h eri) eri z | e.1 == z') e.2
  = molecular L half h eri (delta R (fock_of z')) (fock_of z).
  move=> Hz Hz' Hsz; rewrite -Hsz -ab_list_action ?Hsz // big_mkcond /= !big_seq.
  apply: eq_bigr => e He'.
  have [] := @ab_list_wf R half z Hz (t_mat half L h eri) eri e.1; first exact: map_f.
  move=> Hv _ _; rewrite /delta fock_of_inj //.
  by case: eqP => _; rewrite ?mulr1 ?mulr0.
rewrite !aux //; apply: molecular_symm => //.
- by rewrite -Sx; apply: on_sites_fock.
- by rewrite -Sy; apply: on_sites_fock.
Qed.
End Ab.
