(* Property theorems C16-C18. *)
From Verif Require Import Base Occ_Model Occ_Spec Buffer_Proofs Batch_Proofs Asep_Model Asep_Spec Asep_Proofs Asep_Lemmas.
Local Open Scope ring_scope.

Section Props.
Variables (R : comRingType) (expf : R -> R).
Variables (lambd alpha beta gamma delta p q : R).
Let conn := asep_conn_flattened expf lambd alpha beta gamma delta p q.
Let conn1 x := pmap id (ob_buf (conn (size x) [:: x] [:: 0%N]).1).

(* C16: the list of a configuration is the tilted generator applied to any function *)
Theorem C16_asep_generator (psi : seq nat -> R) x :
  (0 < size x)%N -> binary x ->
  \sum_(e <- conn1 x) e.2 * psi e.1
  = asep_generator (expf lambd) (expf (- lambd)) alpha beta gamma delta p q psi x.
Proof. by move=> Hx Hb; rewrite /conn1 asep_conn1 // asep_list_action. Qed.

Theorem C16_asep_probability_conserved x :
  expf 0 = 1 -> lambd = 0 -> (0 < size x)%N -> binary x -> \sum_(e <- conn1 x) e.2 = 0.
Proof. by move=> He Hl Hx Hb; apply: asep_sum0. Qed.

Theorem C16_asep_exclusion x : (0 < size x)%N -> binary x ->
  (forall e, e \in conn1 x -> binary e.1 /\ size e.1 = size x)
  /\ (forall k, odd k -> (k < size (conn1 x))%N -> (nth (x, 0) (conn1 x) k).1 = x).
Proof.
move=> Hx Hb; rewrite /conn1 asep_conn1 //; split=> [e|k]; first exact: asep_wf.
exact: asep_diag.
Qed.

(* C17, what holds: the matrix is symmetric when the rates of inverse processes agree *)
Theorem C17_asep_symmetric_partial x y :
  (0 < size x)%N -> size x = size y -> binary x -> binary y ->
  alpha * expf lambd = gamma * expf (- lambd) -> beta * expf (- lambd) = delta * expf lambd ->
  p * expf lambd = q * expf (- lambd) ->
  \sum_(e <- conn1 x | e.1 == y) e.2 = \sum_(e <- conn1 y | e.1 == x) e.2.
Proof. exact: asep_symm. Qed.

(* C18 *)
Theorem C18_asep_sections L xs secs :
  (0 < L)%N -> all (fun x => size x == L) xs -> size secs = size xs ->
  let out := conn L xs secs in
  [/\ ob_ok out.1, ob_cur out.1 = size (ob_buf out.1), all isSome (ob_buf out.1),
      size out.2 = size xs /\ size (ob_buf out.1) = (size xs * (4 * (1 + L)))%N &
      forall b, (b < size xs)%N ->
        nth 0%N out.2 b = (b.+1 * (4 * (1 + L)))%N /\
        sec_slice (ob_buf out.1) out.2 b = ob_buf (conn L [:: nth [::] xs b] [:: 0%N]).1].
Proof.
move=> HL Hxs Hs out; rewrite /out /conn asep_conn_flattenedE //; cbv [fst snd].
have [w1 w2 w3 w4] := written_ok (flatten (map (asep_list expf lambd alpha beta gamma delta p q) xs)).
split=> //.
- rewrite size_map size_iota; split=> //; rewrite w3 size_map size_flatten /shape -map_comp.
  elim: xs Hxs {Hs w1 w2 w3 w4 out} => //= x xs IH /andP [/eqP Hx Hxs].
  by rewrite IH // size_bonds size_iota Hx mulSn; lia.
move=> b Hb; rewrite (nth_map 0%N) ?size_iota // nth_iota // add0n; split=> //.
have Hsz x : size x == L -> size (asep_list expf lambd alpha beta gamma delta p q x) = (4 * (1 + L))%N.
  by move=> /eqP Hx; rewrite size_asep_list Hx.
rewrite (batch_slice Hsz Hxs Hb [::]).
have Hn : size (nth [::] xs b) = L by apply/eqP; apply: (all_nthP [::] Hxs).
have := @asep_single R expf lambd alpha beta gamma delta p q (nth [::] xs b) 0%N.
rewrite Hn => /(_ HL); case: (asep_conn_flattened _ _ _ _ _ _ _ _ _ _ _) => o sc /= ->.
by rewrite /written /= cats0.
Qed.
End Props.
Print Assumptions C16_asep_generator.
Print Assumptions C16_asep_probability_conserved.
Print Assumptions C16_asep_exclusion.
Print Assumptions C17_asep_symmetric_partial.
Print Assumptions C18_asep_sections.

(* C17 is false: the flag only tests the sum of the four boundary rates *)
Theorem C17_asep_is_hermitian_refuted :
  exists (lambd alpha beta gamma delta p q : rat) x y,
    [/\ is_hermitian lambd alpha beta gamma delta p q, (0 < size x)%N, size x = size y, binary x && binary y &
    forall expf : rat -> rat, expf 0 = 1 ->
    let conn1 x := pmap id (ob_buf (asep_conn_flattened expf lambd alpha beta gamma delta p q
                                      (size x) [:: x] [:: 0%N]).1) in
    \sum_(e <- conn1 x | e.1 == y) e.2 <> \sum_(e <- conn1 y | e.1 == x) e.2].
Proof.
exists 0, 2%:R, 0, 0, 0, 0, 0, [:: 0; 0]%N, [:: 1; 0]%N; split; [by vm_compute|by []|by []|by []|].
move=> expf He conn1; rewrite /conn1.
have H0 : expf (- 0) = 1 by rewrite oppr0.
rewrite (@asep_total _ expf 0 2%:R 0 0 0 0 0 [:: 0; 0]%N [:: 1; 0]%N 0 erefl erefl).
rewrite (@asep_total _ expf 0 2%:R 0 0 0 0 0 [:: 1; 0]%N [:: 0; 0]%N 0 erefl erefl) ?H0 ?He.
by apply/eqP; rewrite /asep_generator !big_ord_recl !big_ord0; vm_compute.
Qed.
Print Assumptions C17_asep_is_hermitian_refuted.

(* with the flag, what is missing for symmetry is the equality of the two pairs of boundary rates *)
Section Converse.
Variables (R : comRingType) (expf : R -> R) (lambd alpha beta gamma delta p q : R) (L : nat).
Hypothesis L1 : (1 < L)%N.
Notation gen := (asep_generator (expf lambd) (expf (- lambd)) alpha beta gamma delta p q).
Let Z := nseq L 0%N.
Let one (e : nat) : seq nat := set_nth 0%N Z e 1%N.
Let nZ k : nth 0%N Z k = 0%N. Proof. by rewrite nth_nseq if_same. Qed.
Let n1 e k : nth 0%N (one e) k = (k == e). Proof. by rewrite nth_set_nth /= nZ; case: eqP. Qed.
Let neZ e (u : seq nat) : nth 0%N u e = 1%N -> (u == Z) = false.
Proof. by move=> H; apply/eqP => E; move: H; rewrite E nZ. Qed.
Let neZ' e (u : seq nat) : nth 0%N u e = 1%N -> (Z == u) = false.
Proof. by rewrite eq_sym; apply: neZ. Qed.
Let ne a e : a != e -> (one a == one e) = false.
Proof. by move=> H; apply/eqP => /(congr1 (fun u => nth 0%N u a)); rewrite !n1 eqxx (negbTE H). Qed.
Let lastL : (0%N == L.-1) = false. Proof. by case: (L) L1 => [|[]]. Qed.
Let Lge : (L.-1 < L)%N. Proof. by case: (L) L1. Qed.
Let sz e : (e < L)%N -> size (one e) = L.
Proof. by move=> He; rewrite size_set_nth size_nseq; apply/maxn_idPr. Qed.
Lemma gen_from e : e = 0%N \/ e = L.-1 ->
  gen (fun z => (z == one e)%:R) Z = if e == 0%N then alpha * expf lambd else beta * expf (- lambd).
Proof.
move=> He; rewrite /asep_generator size_nseq !nZ eqxx /event.
have Ze : (Z == one e) = false by apply: (neZ' (e := e)); rewrite n1 eqxx.
rewrite Ze big1 => [|i _]; last by rewrite !nZ.
rewrite -/(one 0) -/(one L.-1).
have [N1 N2] : (one L.-1 == one 0) = false /\ (one 0 == one L.-1) = false by split; apply: ne; rewrite ?lastL // eq_sym lastL.
by case: He => ->; rewrite ?[L.-1 == 0%N]eq_sym ?lastL ?N1 ?N2 !eqxx !(mulr0n, mulr1n, mulr0, subr0, mulr1, addr0, add0r).
Qed.
Lemma gen_to e : e = 0%N \/ e = L.-1 ->
  gen (fun z => (z == Z)%:R) (one e) = if e == 0%N then gamma * expf (- lambd) else delta * expf lambd.
Proof.
move=> He; have eL : (e < L)%N by case: He => -> //; apply: ltnW.
have Ze : (one e == Z) = false by apply: (neZ (e := e)); rewrite n1 eqxx.
have back : set_nth 0%N (one e) e 0%N == Z.
  apply/eqP/(@eq_from_nth _ 0%N) => [|k _]; last by rewrite nth_set_nth /= n1 nZ; case: eqP.
  by rewrite size_set_nth (sz eL) size_nseq; apply/maxn_idPr.
have up a : (set_nth 0%N (one e) a 1%N == Z) = false by apply: (neZ (e := a)); rewrite nth_set_nth /= eqxx.
rewrite /asep_generator (sz eL) /event Ze big1 => [|i _].
  case: He => E; move: back up; rewrite E !n1 ?[L.-1 == 0%N]eq_sym ?lastL !eqxx /= => -> up.
    by rewrite up /= !(mulr0n, mulr1n, mulr0, subr0, mulr1, addr0).
  by rewrite up /= !(oppr0, mulr0n, mulr1n, mulr0, subr0, mulr1, addr0, add0r).
have N1 : (val i == i.+1) = false by rewrite /=; lia.
have sw : (nth 0%N (one e) i == 1%N) || (nth 0%N (one e) i.+1 == 1%N) -> (swap_sites (one e) i i.+1 == Z) = false.
  case/orP => /eqP H.
    by apply: (neZ (e := i.+1)); rewrite /swap_sites nth_set_nth /= eqxx.
  by apply: (neZ (e := i)); rewrite /swap_sites nth_set_nth /= N1 nth_set_nth /= eqxx.
case: ifP => [/andP[/eqP Ha _]|_]; last case: ifP => [/andP[_ /eqP Ha]|//].
  by rewrite sw ?Ha // !mulr0 subr0 mulr0.
by rewrite sw ?Ha ?orbT // !mulr0 subr0 mulr0.
Qed.
Let bZ : binary Z. Proof. by rewrite /binary all_nseq orbT. Qed.
Let b1 e : (e < L)%N -> binary (one e).
Proof. by move=> He; apply/(all_nthP 0%N) => k _; rewrite n1; case: eqP. Qed.
Let conn1 x := pmap id (ob_buf (asep_conn_flattened expf lambd alpha beta gamma delta p q (size x) [:: x] [:: 0%N]).1).
Lemma asep_symm_rates :
  (forall x y, size x = L -> size y = L -> binary x -> binary y ->
     \sum_(e <- conn1 x | e.1 == y) e.2 = \sum_(e <- conn1 y | e.1 == x) e.2) ->
  alpha * expf lambd = gamma * expf (- lambd) /\ beta * expf (- lambd) = delta * expf lambd.
Proof.
move=> H; have L0 : (0 < L)%N by apply: ltnW.
have K e : e = 0%N \/ e = L.-1 -> gen (fun z => (z == one e)%:R) Z = gen (fun z => (z == Z)%:R) (one e).
  move=> He; have eL : (e < L)%N by case: He => ->.
  have := H Z (one e); rewrite size_nseq (sz eL) => /(_ erefl erefl bZ (b1 eL)).
  by rewrite /conn1 !asep_total // ?size_nseq ?(sz eL) //; apply: b1.
split; first by have := K 0%N (or_introl erefl); rewrite gen_from ?gen_to //; left.
have := K L.-1 (or_intror erefl); rewrite gen_from ?gen_to ?[L.-1 == _]eq_sym ?lastL //; by right.
Qed.
(* for a chain of any length L > 1 *)
Theorem C17_asep_flag_partial : expf 0 = 1 ->
  (is_hermitian lambd alpha beta gamma delta p q /\
   forall x y, size x = L -> size y = L -> binary x -> binary y ->
     \sum_(e <- conn1 x | e.1 == y) e.2 = \sum_(e <- conn1 y | e.1 == x) e.2)
  <-> [/\ lambd = 0, p = q, gamma = alpha, delta = beta & alpha + beta + alpha + beta = 2%:R].
Proof.
move=> He; split=> [[/and3P[/eqP l0 /eqP P /eqP pq] H]|[l0 pq ga de P]].
  have [] := asep_symm_rates H; rewrite l0 oppr0 He !mulr1 => ag bd; split=> //.
  by move: P; rewrite -ag -bd.
split; first by rewrite /is_hermitian l0 pq ga de P !eqxx.
move=> x y Hx Hy Bx By; rewrite /conn1; apply: asep_symm => //; rewrite ?Hx ?Hy ?(ltnW L1) // l0 oppr0 He.
- by rewrite ga.
- by rewrite de.
- by rewrite pq.
Qed.
End Converse.
Print Assumptions C17_asep_flag_partial.

Example C16_example :
  let out := asep_conn_flattened (fun=> 1) 0 2%:R 3%:R 5%:R 7%:R 11%:R 13%:R 2 [:: [:: 1; 0]%N] [:: 9]%N in
  [seq e <- pmap id (ob_buf out.1) | e.2 != 0 :> rat]
  = [:: ([:: 0; 0]%N, 5%:R); ([:: 1; 0]%N, - 5%:R); ([:: 1; 1]%N, 3%:R); ([:: 1; 0]%N, - 3%:R);
        ([:: 0; 1]%N, 11%:R); ([:: 1; 0]%N, - 11%:R)] /\ out.2 = [:: 12]%N.
Proof. by vm_compute. Qed.
