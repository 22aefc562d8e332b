From Verif Require Import Base Occ_Model Occ_Spec Buffer_Proofs Batch_Proofs Asep_Model Asep_Spec Hubbard_Proofs Hopping_Proofs AbInitio_Row.
Local Open Scope ring_scope.

Section Asep.
Variables (R : comRingType) (expf : R -> R).
Variables (lambd alpha beta gamma delta p q : R).
Add Ring RR : (r_theory R).
Let el := expf lambd.
Let em := expf (- lambd).

Definition en (c : R) (r : int * seq nat) : seq nat * R := (r.2, c * (r.1)%:~R).
Definition asep_bond x i : seq (seq nat * R) :=
  [:: en (p * el) (asep_hopping i i.+1 x); (x, - p * (apply_particle_hole i i.+1 x)%:~R);
      en (q * em) (asep_hopping i.+1 i x); (x, - q * (apply_particle_hole i.+1 i x)%:~R)].
Definition asep_list x : seq (seq nat * R) :=
  let L := size x in
  [:: en (alpha * el) (apply_creation 0 x); (x, - alpha * (hole 0 x)%:~R);
      en (gamma * em) (apply_annihilation 0 x); (x, - gamma * (nth 0%N x 0)%:R);
      en (beta * em) (apply_creation L.-1 x); (x, - beta * (hole L.-1 x)%:~R);
      en (delta * el) (apply_annihilation L.-1 x); (x, - delta * (nth 0%N x L.-1)%:R)]
  ++ flatten [seq asep_bond x i | i <- iota 0 L.-1].

Lemma size_bonds x l : size (flatten [seq asep_bond x i | i <- l]) = (4 * size l)%N.
Proof. by elim: l => //= i l ->; rewrite mulnS. Qed.
Lemma size_asep_list x : (0 < size x)%N -> size (asep_list x) = (4 * (1 + size x))%N.
Proof. by move=> Hx; rewrite size_cat size_bonds size_iota /=; lia. Qed.

Let sample := asep_sample expf lambd alpha beta gamma delta p q.
Lemma asep_step L x b w m secs : (0 < L)%N -> size x = L -> (b < size secs)%N ->
  sample (written w (4 * (1 + L) + m), secs) (b, x)
  = (written (w ++ asep_list x) m, set_nth 0%N secs b (size (w ++ asep_list x))).
Proof.
move=> HL Hx Hb; rewrite /sample /asep_sample; cbv [fst snd].
have -> : (4 * (1 + L) + m = 8 + (4 * L.-1 + m))%N by lia.
rewrite /put_mel !ob_push_written.
set w1 := rcons _ _.
have B l w0 : foldl (asep_bond_terms expf lambd p q x) (written w0 (4 * size l + m)) l
    = written (w0 ++ flatten [seq asep_bond x i | i <- l]) m.
  elim: l w0 => [|i l IH] w0 /=; first by rewrite cats0.
  by rewrite mulnS -addnA /asep_bond_terms /put_mel !ob_push_written IH -!cats1 -!catA.
have := B (iota 0 L.-1) w1; rewrite size_iota Hx => ->.
by rewrite -Hx /asep_list /w1 -!cats1 -!catA.
Qed.

Lemma asep_conn_flattenedE L xs secs : (0 < L)%N -> all (fun x => size x == L) xs -> size secs = size xs ->
  asep_conn_flattened expf lambd alpha beta gamma delta p q L xs secs
  = (written (flatten (map asep_list xs)) 0, [seq (k.+1 * (4 * (1 + L)))%N | k <- iota 0 (size xs)]).
Proof.
move=> HL Hxs Hs; apply: batch_all Hxs Hs.
- by move=> x /eqP Hx; rewrite size_asep_list Hx.
- by move=> x b w m sc /eqP Hx Hb; apply: asep_step.
Qed.

Lemma asep_single x s0 : (0 < size x)%N ->
  (asep_conn_flattened expf lambd alpha beta gamma delta p q (size x) [:: x] [:: s0]).1
  = written (asep_list x) 0.
Proof. by move=> Hx; rewrite asep_conn_flattenedE //= ?eqxx // cats0. Qed.

Lemma binary_nth x i : binary x -> nth 0%N x i = 0%N \/ nth 0%N x i = 1%N.
Proof.
move=> /(all_nthP 0%N) H; case: (ltnP i (size x)) => Hi; last by left; rewrite nth_default.
by move: (H _ Hi); case: (nth _ _ _) => [|[|]] //; [left|right].
Qed.

Lemma asep_list_action (psi : seq nat -> R) x : (0 < size x)%N -> binary x ->
  \sum_(e <- asep_list x) e.2 * psi e.1 = asep_generator el em alpha beta gamma delta p q psi x.
Proof.
move=> Hx Hb; rewrite /asep_list big_cat big_flat /asep_generator; congr (_ + _).
  rewrite !big_cons big_nil /en /apply_creation /apply_annihilation /hole /event /=.
  by case: (binary_nth 0 Hb) => ->; case: (binary_nth (size x).-1 Hb) => -> /=;
    rewrite ?mulr1z ?mulr0z ?mulr1n ?mulr0n ?subr0 ?subrr ?mulr1z ?mulr0z; mring R.
rewrite -{1}[(size x).-1]subn0 -/(index_iota 0 (size x).-1) big_mkord; apply: eq_bigr => i _.
rewrite !big_cons big_nil /en /asep_hopping /apply_particle_hole /event /swap_sites /=.
have Hi : (i < size x)%N by have := ltn_ord i; lia.
have Hi1 : (i.+1 < size x)%N by have := ltn_ord i; lia.
case E1: (nth 0%N x i) (binary_nth i Hb) => [|[|?]] []; rewrite ?E1 // => _;
case E2: (nth 0%N x i.+1) (binary_nth i.+1 Hb) => [|[|?]] []; rewrite ?E2 // => _ /=;
rewrite ?mulr1z ?mulr0z; try mring R.
rewrite set_set_nth eqn_leq ltnn /=.
mring R.
Qed.
End Asep.
