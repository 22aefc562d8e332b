(* C41: the counters of the segmented GPS *)
From Verif Require Import Base Hilbert_Model Seg_Model.
Local Open Scope ring_scope.

Lemma scanl_nth wrap s i : (forall a b, wrap (wrap a + b)%N = wrap (a + b)%N) -> wrap 0%N = 0%N -> (i <= size s)%N ->
  nth 0%N (padded wrap s) i = wrap (sumn (take i s)).
Proof.
move=> Hw H0; rewrite /padded /cumsum.
have G : forall s i acc, (i < size s)%N -> nth 0%N (scanl (fun a b => wrap (a + b)%N) (wrap acc) s) i = wrap (acc + sumn (take i.+1 s))%N.
  elim=> [|b t IH] // [|k] acc /=; first by rewrite take0 /= addn0 Hw.
  by rewrite ltnS => Hk; rewrite Hw IH // addnA.
case: i => [|i] Hi; first by rewrite take0 /= H0.
by have := G s i 0%N Hi; rewrite H0 add0n.
Qed.

Lemma take_last (T : Type) (s : seq T) i : (i < size s)%N -> take i (take (size s).-1 s) = take i s.
Proof. by move=> Hi; rewrite take_take //; lia. Qed.

Lemma allT (T : Type) (a : pred T) i s : all a s -> all a (take i s).
Proof. by rewrite -{1}(cat_take_drop i s) all_cat => /andP[]. Qed.

Definition n_up (x : seq nat) : nat := count (fun o => o \in [:: 1; 3]%N) x.
Definition n_dn (x : seq nat) : nat := count (fun o => o \in [:: 2; 3]%N) x.

Lemma up_sum x : all (fun o => o < 4)%N x -> sumn [seq Nat.land o 1 | o <- x] = n_up x.
Proof. by elim: x => //= o x IH /andP[Ho Hx]; rewrite IH //; case: o Ho => [|[|[|[|]]]]. Qed.
Lemma dn_sum x : all (fun o => o < 4)%N x -> sumn [seq (Nat.land o 2 %/ 2)%N | o <- x] = n_dn x.
Proof. by elim: x => //= o x IH /andP[Ho Hx]; rewrite IH //; case: o Ho => [|[|[|[|]]]]. Qed.

Lemma count_take_le (T : Type) (a : pred T) i s : (count a (take i s) <= count a s)%N.
Proof. by rewrite -{2}(cat_take_drop i s) count_cat leq_addr. Qed.

Lemma sector_counts h ne x : h_n_elec h = Some ne -> h_contains h x ->
  [/\ size x = h_size h, all (fun o => o < 4)%N x, n_up x = ne.1 & n_dn x = ne.2].
Proof.
rewrite /h_contains /h_constraint => -> /and3P[/eqP Hs Hx /andP[/eqP /= Hu /eqP /= Hd]]; split=> //.
- by rewrite -Hu /n_up; elim: (x) => //= o t ->; rewrite /x_up !inE; case: (o == 1%N); case: (o == 3%N).
by rewrite -Hd /n_dn; elim: (x) => //= o t ->; rewrite /x_dn !inE; case: (o == 2%N); case: (o == 3%N).
Qed.

(* fermions: at every site the counters are the numbers of electrons on the earlier sites, and index
   the parameter array (size max_up + 1, max_dn + 1) in range *)
Theorem C41_fermion_counters_partial h ne x i : h_n_elec h = Some ne -> h_contains h x ->
  (ne.1 < 256)%N -> (ne.2 < 256)%N -> (i < h_size h)%N ->
  let counts := count_fermions x in
  [/\ nth 0%N counts.1 i = n_up (take i x), nth 0%N counts.2 i = n_dn (take i x),
      (nth 0%N counts.1 i < ne.1.+1)%N & (nth 0%N counts.2 i < ne.2.+1)%N].
Proof.
move=> Hne Hc Hu Hd Hi counts; have [Hs Hx Eu Ed] := sector_counts Hne Hc.
have Hw a b : w8 (w8 a + b)%N = w8 (a + b)%N by rewrite /w8 modnDml.
have Hi' : (i < size x)%N by rewrite Hs.
have Hi'' : (i <= size (all_but_last x))%N by rewrite /all_but_last size_takel; lia.
have Hx' : all (fun o => o < 4)%N (take i x) by apply: allT.
have Cu : nth 0%N counts.1 i = n_up (take i x).
  rewrite /counts /count_fermions /= scanl_nth ?size_map // -map_take take_last // up_sum // /w8 modn_small //.
  by apply: leq_ltn_trans Hu; rewrite -Eu count_take_le.
have Cd : nth 0%N counts.2 i = n_dn (take i x).
  rewrite /counts /count_fermions /= scanl_nth ?size_map // -map_take take_last // dn_sum // /w8 modn_small //.
  by apply: leq_ltn_trans Hd; rewrite -Ed count_take_le.
by split; rewrite ?Cu ?Cd // ltnS -?Eu -?Ed count_take_le.
Qed.

(* with 256 or more electrons of one spin the 8-bit counter wraps around *)
Theorem C41_many_electrons_refuted : exists h ne x i,
  [/\ h_n_elec h = Some ne, h_contains h x, (i < h_size h)%N & nth 0%N (count_fermions x).1 i != n_up (take i x)].
Proof.
exists (Hilbert 257 (Some (257, 0)%N)), (257, 0)%N, (nseq 257 1%N), 256%N; split=> //; by vm_compute.
Qed.

(* spins: configurations with n up and L - n down spins *)
Definition up_spins (x : seq nat) : nat := count (pred1 1%N) x.
Definition down_spins (x : seq nat) : nat := count (pred1 0%N) x.

Theorem C41_spin_counters x (sz2 : int) i :
  all (fun o => o < 2)%N x -> (up_spins x)%:Z - (down_spins x)%:Z = sz2 -> (i < size x)%N ->
  let counts := count_spins x in let b := spin_bounds (size x) sz2 in
  [/\ nth 0%N counts.1 i = up_spins (take i x), nth 0%N counts.2 i = down_spins (take i x),
      b = ((up_spins x)%:Z, (down_spins x)%:Z),
      (nth 0%N counts.1 i)%:Z < b.1 + 1 & (nth 0%N counts.2 i)%:Z < b.2 + 1].
Proof.
move=> Hx Hsz Hi counts b.
have Hi'' : (i <= size (all_but_last x))%N by rewrite /all_but_last size_takel; lia.
have Su s : all (fun o => o < 2)%N s -> sumn [seq (Nat.land (o + 1) 2 %/ 2)%N | o <- s] = up_spins s.
  by elim: s => //= o s IH /andP[Ho Hs]; rewrite IH //; case: o Ho => [|[|]].
have Sd s : all (fun o => o < 2)%N s -> sumn [seq Nat.land (o + 1) 1 | o <- s] = down_spins s.
  by elim: s => //= o s IH /andP[Ho Hs]; rewrite IH //; case: o Ho => [|[|]].
have Hx' : all (fun o => o < 2)%N (take i x) by apply: allT.
have Cu : nth 0%N counts.1 i = up_spins (take i x).
  by rewrite /counts /count_spins /= scanl_nth ?size_map // -map_take take_last // Su.
have Cd : nth 0%N counts.2 i = down_spins (take i x).
  by rewrite /counts /count_spins /= scanl_nth ?size_map // -map_take take_last // Sd.
have Es : (up_spins x + down_spins x = size x)%N.
  by elim: (x) Hx => //= o s IH /andP[Ho Hs]; rewrite -IH //; case: o Ho => [|[|]] //= _; lia.
have Eb : b = ((up_spins x)%:Z, (down_spins x)%:Z).
  rewrite /b /spin_bounds -Hsz -Es; set u := up_spins x; set d := down_spins x.
  case: ifP => H; last case: ifP => H'; congr (_, _); lia.
have Lu : (up_spins (take i x) <= up_spins x)%N := count_take_le (pred1 1%N) i x.
have Ld : (down_spins (take i x) <= down_spins x)%N := count_take_le (pred1 0%N) i x.
split=> //; rewrite Eb.
  by rewrite Cu -[(_, _).1]/((up_spins x)%:Z) ltz_addr1 lez_nat.
by rewrite Cd -[(_, _).2]/((down_spins x)%:Z) ltz_addr1 lez_nat.
Qed.

(* the value only uses the prefix counters *)
Theorem C41_value (F : comRingType) (eps : nat -> nat -> nat -> nat -> nat -> F) M h ne x :
  h_n_elec h = Some ne -> h_contains h x -> (ne.1 < 256)%N -> (ne.2 < 256)%N ->
  seg_log_psi eps M x (count_fermions x) =
  \sum_(m < M) \prod_(i < size x) eps (nth 0%N x i) m i (n_up (take i x)) (n_dn (take i x)).
Proof.
move=> Hne Hc Hu Hd; have [Hs _ _ _] := sector_counts Hne Hc.
apply: eq_bigr => m _; apply: eq_bigr => i _.
have Hi : (i < h_size h)%N by rewrite -Hs.
by have [-> -> _ _] := C41_fermion_counters_partial Hne Hc Hu Hd Hi.
Qed.

Example C41_example : count_fermions [:: 3; 1; 0; 2; 1]%N = ([:: 0; 1; 2; 2; 2], [:: 0; 1; 1; 1; 2])%N
  /\ count_spins [:: 1; 0; 0; 1; 1]%N = ([:: 0; 1; 1; 1; 2], [:: 0; 0; 1; 2; 2])%N /\ spin_bounds 5 1 = (3%:Z, 2%:Z).
Proof. by []. Qed.
