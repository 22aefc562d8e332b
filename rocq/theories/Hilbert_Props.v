(* C49, C50: the fermionic Hilbert space. *)
From Verif Require Import Base Fock_Spec Occ_Spec Hilbert_Model.

Lemma sum_up x : sumn (map x_up x) = n_spin Up x.
Proof. by elim: x => //= o x ->; rewrite /x_up; case: (o == 1); case: (o == 3). Qed.
Lemma sum_dn x : sumn (map x_dn x) = n_spin Dn x.
Proof. by elim: x => //= o x ->; rewrite /x_dn; case: (o == 2); case: (o == 3). Qed.

(* C49: the constraint is the electron-number condition, for every configuration and n_elec *)
Theorem C49_constraint_is_sector c x :
  constraint_call c x = (n_spin Up x == (c_n_elec c).1) && (n_spin Dn x == (c_n_elec c).2).
Proof. by rewrite /constraint_call sum_up sum_dn. Qed.

Theorem C49_equal_constraints_hash_equal (H : Type) (hash : nat * nat -> H) c c' :
  constraint_eq c c' -> constraint_hash hash c = constraint_hash hash c' /\
  (forall x, constraint_call c x = constraint_call c' x).
Proof. by case: c c' => [s ne] [s' ne'] /andP[/eqP /= -> /eqP /= ->]. Qed.

Lemma nth_scatter out pos v i : uniq pos ->
  nth 0 (scatter_add out pos v) i = nth 0 out i + v * (i \in pos).
Proof.
elim: pos out => [|p pos IH] out /=; first by rewrite muln0 addn0.
case/andP => Hp Hu; rewrite /scatter_add /= -/(scatter_add _ pos v) IH // nth_set_nth /= in_cons.
case: (altP (i =P p)) => [->|_] //=; by rewrite (negbTE Hp) muln0 muln1 addn0.
Qed.
Lemma size_scatter out pos v : all (fun p => p < size out) pos -> size (scatter_add out pos v) = size out.
Proof.
elim: pos out => [//|p pos IH] out /= /andP[Hp Ha]; rewrite /scatter_add /= -/(scatter_add _ pos v) IH size_set_nth.
- by apply/maxn_idPr.
- by move/maxn_idPr: Hp => ->.
Qed.

Lemma count_mem_iota (p : seq nat) n : uniq p -> all (fun i => i < n) p ->
  count (fun i => i \in p) (iota 0 n) = size p.
Proof.
move=> Hu Ha; rewrite -size_filter; apply: perm_size; apply: uniq_perm => //.
  by rewrite filter_uniq // iota_uniq.
move=> i; rewrite mem_filter mem_iota add0n /=; case Hi : (i \in p) => //=.
exact: (allP Ha).
Qed.

Lemma nspin_nth (q : spin) (f : nat -> nat) n x : size x = n -> (forall i, i < n -> nth 0 x i = f i) ->
  n_spin q x = count (fun i => has_spin q (f i)) (iota 0 n).
Proof.
move=> Hs H; have -> : x = map f (iota 0 n).
  apply: (@eq_from_nth _ 0) => [|i Hi]; first by rewrite size_map size_iota.
  by rewrite H -?Hs // (nth_map 0) ?size_iota // nth_iota.
by rewrite /n_spin count_map.
Qed.

Lemma random_sample_lemma h nu nd up dn : h_n_elec h = Some (nu, nd) ->
  distinct_draw (h_size h) nu up -> distinct_draw (h_size h) nd dn ->
  h_contains h (random_sample_constrained h up dn).
Proof.
move=> Hne /and3P[/eqP Hu1 Hu2 Hu3] /and3P[/eqP Hd1 Hd2 Hd3].
rewrite /random_sample_constrained; set n := h_size h in Hu3 Hd3 *.
have Hn i : i < n -> nth 0 (scatter_add (scatter_add (nseq n 0) up 1) dn 2) i = 1 * (i \in up) + 2 * (i \in dn).
  by move=> Hi; rewrite !nth_scatter // nth_nseq Hi.
have Hs : size (scatter_add (scatter_add (nseq n 0) up 1) dn 2) = n.
  by rewrite !size_scatter ?size_scatter ?size_nseq.
rewrite /h_contains Hs eqxx /=; apply/andP; split.
  apply/(all_nthP 0) => i; rewrite Hs => Hi; rewrite Hn //; case: (i \in up); case: (i \in dn) => //.
rewrite /h_constraint Hne C49_constraint_is_sector /=.
rewrite (nspin_nth Up Hs Hn) (nspin_nth Dn Hs Hn).
have -> : count (fun i => has_spin Up (1 * (i \in up) + 2 * (i \in dn))) (iota 0 n) = nu.
  rewrite -{}Hu1 -(count_mem_iota Hu2 Hu3); apply: eq_count => i; by case: (i \in up); case: (i \in dn).
have -> : count (fun i => has_spin Dn (1 * (i \in up) + 2 * (i \in dn))) (iota 0 n) = nd.
  rewrite -{}Hd1 -(count_mem_iota Hd2 Hd3); apply: eq_count => i; by case: (i \in up); case: (i \in dn).
by rewrite !eqxx.
Qed.

(* C49: every sample of random_state lies in the space, for every outcome of the draws
   (sites without replacement); both branches *)
Theorem C49_random_state_constrained h nu nd draws : h_n_elec h = Some (nu, nd) ->
  all (fun d => distinct_draw (h_size h) nu d.1 && distinct_draw (h_size h) nd d.2) draws ->
  size (random_state_constrained h draws) = size draws /\
  all (h_contains h) (random_state_constrained h draws).
Proof.
move=> Hne Hd; split; first by rewrite size_map.
by rewrite all_map; apply: sub_all Hd => d /= /andP[H1 H2]; apply: random_sample_lemma Hne H1 H2.
Qed.
Theorem C49_random_state_free h draws : h_n_elec h = None ->
  all (fun x => (size x == h_size h) && all (fun o => o < 4) x) draws ->
  all (h_contains h) (random_state_free h draws).
Proof. by move=> Hne; apply: sub_all => x /andP[H1 H2]; rewrite /h_contains H1 H2 /h_constraint Hne. Qed.

(* every configuration of the constrained space can be drawn *)
Theorem C49_random_state_onto h nu nd x : h_n_elec h = Some (nu, nd) -> h_contains h x ->
  exists up dn, [/\ distinct_draw (h_size h) nu up, distinct_draw (h_size h) nd dn &
                    random_sample_constrained h up dn = x].
Proof.
move=> Hne; rewrite /h_contains /h_constraint Hne C49_constraint_is_sector /=.
case/and4P => /eqP Hs Hv /eqP Hu /eqP Hd.
pose pos q := [seq i <- iota 0 (h_size h) | has_spin q (nth 0 x i)].
have Hpos q : distinct_draw (h_size h) (n_spin q x) (pos q).
  rewrite /distinct_draw filter_uniq ?iota_uniq // size_filter.
  rewrite -(@nspin_nth q (nth 0 x) (h_size h) x Hs) // eqxx /=.
  by apply/allP => i; rewrite mem_filter mem_iota => /andP[_].
exists (pos Up), (pos Dn); rewrite -Hu -Hd; split; [exact: Hpos|exact: Hpos|].
have /and3P[_ U1 U3] := Hpos Up; have /and3P[_ D1 D3] := Hpos Dn.
apply: (@eq_from_nth _ 0).
  by rewrite /random_sample_constrained !size_scatter ?size_scatter ?size_nseq.
rewrite /random_sample_constrained !size_scatter ?size_scatter ?size_nseq // => i Hi.
rewrite !nth_scatter // nth_nseq Hi !mem_filter mem_iota add0n Hi !andbT /=.
have := allP Hv (nth 0 x i); rewrite mem_nth ?Hs // => /(_ isT).
by case: (nth 0 x i) => [|[|[|[|o]]]].
Qed.

(* C50 holds for unconstrained spaces... *)
Theorem C50_pow_unconstrained_partial h n : h_n_elec h = None ->
  exists h', [/\ h_pow h n = Some h', h_size h' = h_size h * n & h_n_elec h' = None].
Proof. by move=> E; exists (Hilbert (h_size h * n) None); rewrite /h_pow E. Qed.
(* ...and fails (raises) for every constrained one *)
Theorem C50_pow_constrained_fails h n ne : h_n_elec h = Some ne -> h_pow h n = None.
Proof. by rewrite /h_pow => ->. Qed.
Theorem C50_pow_refuted : exists h n,
  [/\ 0 < h_size h, 0 < n, h_n_elec h = Some (1, 1) & h_pow h n = None].
Proof. by exists (Hilbert 2 (Some (1, 1))), 2. Qed.

Example C49_example :
  random_sample_constrained (Hilbert 3 (Some (2, 1))) [:: 2; 0] [:: 2] = [:: 1; 0; 3] /\
  constraint_call (Constraint 3 (2, 1)) [:: 1; 0; 3] /\ ~~ constraint_call (Constraint 3 (2, 1)) [:: 1; 0; 2].
Proof. by []. Qed.
Example C50_example : h_pow (Hilbert 2 None) 3 = Some (Hilbert 6 None).
Proof. by []. Qed.

Print Assumptions C49_constraint_is_sector.
Print Assumptions C49_equal_constraints_hash_equal.
Print Assumptions C49_random_state_constrained.
Print Assumptions C49_random_state_free.
Print Assumptions C49_random_state_onto.
Print Assumptions C50_pow_unconstrained_partial.
Print Assumptions C50_pow_constrained_fails.
Print Assumptions C50_pow_refuted.
