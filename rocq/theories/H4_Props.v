(* C109: the one-body density matrices of H4x4x4.py. *)
From Verif Require Import Base Fock_Spec Fock_Proofs Occ_Model Occ_Spec Hopping_Model Hopping_Proofs Hubbard_Proofs Hubbard_Lemmas H4_Model.
Local Open Scope ring_scope.

Section C109.
Variables (F : fieldType) (psi : cfg -> F) (norb : nat) (ranks : seq (seq cfg)).
Local Notation Psi := (fun f => psi (cfg_of f)).
Local Notation drawn := (flatten ranks).
Hypothesis Hvalid : forall x, x \in drawn -> valid x /\ size x = norb.
Hypothesis Hpsi : forall x, x \in drawn -> psi x != 0.
Definition spin_no (s : spin) : nat := if s is Up then 0%N else 1%N.

Lemma rdm_termE s i j x : valid x -> (i < size x)%N -> (j < size x)%N ->
  rdm_term psi (spin_no s) i j x = hop s i j Psi (fock_of x) / psi x.
Proof.
move=> Hv Hi Hj; rewrite /rdm_term /conn_1rdm.
have -> : (if spin_no s == 0%N then apply_hopping i j x 1 (Some (cumcount 1 x)) else apply_hopping i j x 2 (Some (cumcount 2 x)))
  = apply_hopping i j x (spin_int s) (Some (cumcount (spin_int s) x)) by case: s.
have := C01_lemma s Psi Hv Hi Hj; case: (apply_hopping _ _ _ _ _) => m x' /= [<- _ Hv' _ _].
by rewrite cfg_ofK // -[RHS]mulrA [RHS]mulrC.
Qed.

Lemma total_size : (\sum_(x <- ranks) size x)%N = size drawn.
Proof. by rewrite size_flatten /shape sumnE big_map. Qed.

(* entry (s, i, j): the sample average over all ranks of <x| c+_si c_sj |psi> / <x|psi> *)
Theorem C109_entry s i j : (i < norb)%N -> (j < norb)%N ->
  get_1rdm psi ranks (spin_no s) i j = (\sum_(x <- drawn) hop s i j Psi (fock_of x) / psi x) / (size drawn)%:R.
Proof.
move=> Hi Hj; rewrite /get_1rdm total_size; congr (_ / _).
rewrite -[LHS]big_flatten; apply: eq_big_seq => x /Hvalid [Hv Hs].
by apply: rdm_termE; rewrite ?Hs.
Qed.

(* every sample of n_s electrons contributes n_s to the trace: it does not depend on psi or on the
   statistics *)
Theorem C109_trace s ns : (forall x, x \in drawn -> n_spin s x = ns) -> (size drawn)%:R != 0 :> F ->
  \sum_(i < norb) get_1rdm psi ranks (spin_no s) i i = ns%:R.
Proof.
move=> Hn H0; rewrite (eq_bigr _ (fun (i : 'I_norb) _ => C109_entry s (ltn_ord i) (ltn_ord i))).
rewrite -mulr_suml exchange_big /= (eq_big_seq (fun _ => ns%:R)).
  by rewrite big_const_seq count_predT iter_addr_0 -[_ *+ _]mulr_natr mulfK.
move=> x Hx /=; have [Hv Hs] := Hvalid Hx; have Hp := Hpsi Hx.
have Hon : on_sites norb (fock_of x) by rewrite -Hs; apply: on_sites_fock.
rewrite (eq_bigr (fun p : 'I_norb => (has_spin s (nth 0%N x p))%:R)); last first.
  move=> p _; have := hop_same s Psi Hon (ltn_ord p); rewrite occ_fock cfg_ofK // => ->.
  by case: (has_spin _ _); rewrite ?mulfV ?mul0r.
rewrite -(Hn x Hx) /n_spin -sum1_count (big_nth 0%N) Hs big_mkord natr_sum [RHS]big_mkcond; apply: eq_bigr => i _.
by case: (has_spin _ _).
Qed.

(* samples distributed exactly like psi^2, real amplitudes: the entries are the expectation values
   <psi| c+_si c_sj |psi> / <psi|psi>, and the matrices are symmetric *)
Variable basis : seq cfg.
Hypothesis Hbasis : uniq basis /\ (forall x, (x \in basis) = valid x && (size x == norb)).
Hypothesis Hexact : exists2 c, c != 0 & forall g : cfg -> F, \sum_(x <- drawn) g x = c * \sum_(x <- basis) psi x ^+ 2 * g x.

Lemma basisP x : x \in basis -> valid x /\ size x = norb.
Proof. by rewrite (proj2 Hbasis) => /andP[-> /eqP]. Qed.

Lemma hop_expand s i j x : (i < norb)%N -> (j < norb)%N -> x \in basis ->
  hop s i j Psi (fock_of x) = \sum_(y <- basis) psi y * hop s i j (fun z => (z == fock_of y)%:R) (fock_of x).
Proof.
move=> Hi Hj /basisP [Hv Hs]; rewrite -Hs in Hi Hj.
have E y : hop s i j (fun z => (z == fock_of y)%:R) (fock_of x) = (apply_hopping i j x (spin_int s) (Some (cumcount (spin_int s) x))).1%:~R
   * (fock_of (apply_hopping i j x (spin_int s) (Some (cumcount (spin_int s) x))).2 == fock_of y)%:R :> F.
  by have := C01_lemma s (fun z => (z == fock_of y)%:R : F) Hv Hi Hj; case: (apply_hopping _ _ _ _ _) => m x' /= [<-].
under eq_bigr => y _ do rewrite E.
have := C01_lemma s Psi Hv Hi Hj; case: (apply_hopping _ _ _ _ _) => m x' /= [<- _ Hv' Hs' _].
have Hx' : x' \in basis by rewrite (proj2 Hbasis) Hv' Hs' Hs eqxx.
rewrite (bigD1_seq x') ?(proj1 Hbasis) //= eqxx mulr1 cfg_ofK // big_seq_cond big1 ?addr0 1?mulrC //.
move=> y /andP[Hy Hne]; have [Hvy _] := basisP Hy.
case: eqP => [E'|_]; last by rewrite !mulr0.
by case/eqP: Hne; rewrite -[y]cfg_ofK // -E' cfg_ofK.
Qed.

Lemma hop_transpose s i j : (i < norb)%N -> (j < norb)%N ->
  \sum_(x <- basis) psi x * hop s i j Psi (fock_of x) = \sum_(x <- basis) psi x * hop s j i Psi (fock_of x).
Proof.
move=> Hi Hj.
rewrite (eq_big_seq (fun x => \sum_(y <- basis) psi x * (psi y * hop s i j (fun z => (z == fock_of y)%:R) (fock_of x)))); last first.
  by move=> x Hx; rewrite hop_expand // mulr_sumr.
rewrite [RHS](eq_big_seq (fun x => \sum_(y <- basis) psi x * (psi y * hop s j i (fun z => (z == fock_of y)%:R) (fock_of x)))); last first.
  by move=> x Hx; rewrite hop_expand // mulr_sumr.
rewrite [RHS]exchange_big; apply: eq_big_seq => x Hx; apply: eq_big_seq => y Hy.
have [Hvx Hsx] := basisP Hx; have [Hvy Hsy] := basisP Hy.
have Ox : on_sites norb (fock_of x) by rewrite -Hsx; apply: on_sites_fock.
have Oy : on_sites norb (fock_of y) by rewrite -Hsy; apply: on_sites_fock.
by rewrite mulrCA (hop_adj F s Ox Oy Hi Hj).
Qed.

Theorem C109_exact s i j : (i < norb)%N -> (j < norb)%N ->
  get_1rdm psi ranks (spin_no s) i j
  = (\sum_(x <- basis) psi x * hop s i j Psi (fock_of x)) / (\sum_(x <- basis) psi x ^+ 2)
  /\ get_1rdm psi ranks (spin_no s) i j = get_1rdm psi ranks (spin_no s) j i.
Proof.
have E i' j' : (i' < norb)%N -> (j' < norb)%N -> get_1rdm psi ranks (spin_no s) i' j'
  = (\sum_(x <- basis) psi x * hop s i' j' Psi (fock_of x)) / (\sum_(x <- basis) psi x ^+ 2).
  move=> Hi Hj; rewrite C109_entry //; case: Hexact => c c0 H; rewrite H.
  have -> : (size drawn)%:R = c * \sum_(x <- basis) psi x ^+ 2.
    have := H (fun _ => 1); rewrite big_const_seq count_predT iter_addr_0 => ->.
    by congr (_ * _); apply: eq_bigr => x _; rewrite mulr1.
  rewrite invfM mulrACA mulfV // mul1r; congr (_ / _); apply: eq_bigr => x _.
  case: (altP (psi x =P 0)) => [->|H0]; first by rewrite expr0n !mul0r.
  by rewrite expr2 -mulrA [psi x * (_ / _)]mulrC mulfVK.
by move=> Hi Hj; rewrite !E // hop_transpose.
Qed.
End C109.

(* two sites, one up and one down electron: samples on two ranks *)
Example C109_example : let psi x := nth 0 [:: 1; 2%:R; 3%:R; 5%:R] (index x [:: [:: 3; 0]; [:: 0; 3]; [:: 1; 2]; [:: 2; 1]]%N) : rat in
  let ranks := [:: [:: [:: 3; 0]; [:: 1; 2]]; [:: [:: 0; 3]]]%N in
  get_1rdm psi ranks 0 0 1 = (5%:R / 1 + 2%:R / 3%:R) / 3%:R
  /\ get_1rdm psi ranks 0 0 0 + get_1rdm psi ranks 0 1 1 = 1.
Proof. by move=> psi ranks; rewrite /get_1rdm !big_cons !big_nil; split; apply/eqP; vm_compute. Qed.

Print Assumptions C109_entry. Print Assumptions C109_trace. Print Assumptions C109_exact.
