(* C76: the antisymmetric qGPS states. *)
From mathcomp Require Import perm.
From Verif Require Import Base Fock_Spec Occ_Model Occ_Spec AbInitioOtf_Model Elec_Model Elec_Props Update_Proto Slater_Model Slater_Pos Slater_Props Asymm_Model.
Local Open Scope ring_scope.

Section C76.
Variables (F : fieldType) (sinhf : F -> F) (L nu nd M : nat).
Variables (Uup Udn : nat -> nat -> nat -> F) (syms : seq (nat -> nat)).
Hypothesis Hsyms : forall t i, (t < size syms)%N -> (i < L)%N -> (nth id syms t i < L)%N.
Notation T := (size syms).

(* the sites of the electrons of one spin, and the product of determinants
   det(phi_m^up(tau x)) det(phi_m^down(tau x)) *)
Definition sites_of (s : spin) (x : seq nat) : seq nat := [seq k <- iota 0 L | has_spin s (nth 0%N x k)].
Definition phi_det (x : seq nat) (m t : nat) : F :=
  \det (\matrix_(i < nu, j < nu) Uup m (nth id syms t (nth 0%N (sites_of Up x) i)) j)
  * \det (\matrix_(i < nd, j < nd) Udn m (nth id syms t (nth 0%N (sites_of Dn x) i)) j).

Lemma sites_lt s x i : (0 < L)%N -> (nth 0%N (sites_of s x) i < L)%N.
Proof.
move=> HL; case: (ltnP i (size (sites_of s x))) => Hi; last by rewrite nth_default.
by have := mem_nth 0%N Hi; rewrite mem_filter mem_iota => /andP[_].
Qed.
Lemma size_sites s x : valid x -> size x = L -> size (sites_of s x) = n_spin s x.
Proof. by move=> Hv Hs; rewrite /sites_of -Hs (size_iota_filter (has_spin s)). Qed.

Lemma slater_tableE x m t : in_sector L nu nd x -> (t < T)%N -> slater_table L nu nd Uup Udn syms x m t = phi_det x m t.
Proof.
move=> [Hs Hv Hu Hd] Ht; rewrite /slater_table /evaluate_SD /submat /asymm_comp /phi_det; cbn [co_U co_sym].
have E1 := nonzero_sector Up Hv; have E2 := nonzero_sector Dn Hv.
rewrite Hu Hs /= -/(sites_of Up x) in E1; rewrite Hd Hs /= -/(sites_of Dn x) in E2; rewrite Hs E1 E2.
have S1 : size (sites_of Up x) = nu by rewrite size_sites.
have S2 : size (sites_of Dn x) = nd by rewrite size_sites.
congr (_ * _); congr (\det _); apply/matrixP => i j; rewrite !mxE.
  have HL : (0 < L)%N.
    have Hi : (i < size (sites_of Up x))%N by rewrite S1.
    by have := mem_nth 0%N Hi; rewrite mem_filter mem_iota => /andP[_]; case: (L).
  rewrite nth_cat size_map /= S1 ltn_ord (nth_map 0%N) ?S1 // /block_U.
  by rewrite Hsyms ?sites_lt // row_mxEl mxE.
rewrite nth_cat size_map /= S1 ltnNge leq_addr /= addKn (nth_map 0%N) ?S2 // /block_U.
by rewrite ltnNge leq_addl /= addnK row_mxEr mxE.
Qed.

(* C37, fixed magnetisation: the value of a component of [slater_full] is the determinant of the
   up orbitals at the (mapped) sites of the up electrons times that of the down orbitals *)
Theorem C37_block_orbitals ct x m t : in_sector L nu nd x -> (t < T)%N ->
  map (@cc_det F nu nd) (sc_comps (slater_full L true ct [:: asymm_comp L nu nd Uup Udn syms m t] x)) = [:: phi_det x m t].
Proof. by move=> Hx Ht; rewrite -(slater_tableE m Hx Ht). Qed.

(* the documented amplitudes (tests/test_asymmqgps.py L29-31, L60-63) with coefficients c *)
Definition asymm_spec (s : symmetrization) (c : seq F) (x : seq nat) : F :=
  match s with
  | Kernel => sinhf (\sum_(t < T) \sum_(m < M) nth 0 c m * phi_det x m t)
  | Projective => \sum_(t < T) sinhf (\sum_(m < M) nth 0 c m * phi_det x m t)
  end.

(* one determinant: correct for any number of symmetries *)
Theorem C76_one_determinant_partial s c x : M = 1%N -> size c = 1%N -> in_sector L nu nd x ->
  asymm_qgps sinhf L nu nd M Uup Udn syms s c x = Some (asymm_spec s c x).
Proof.
move=> HM Hc Hx; rewrite /asymm_spec /asymm_qgps HM Hc eqxx /mul_coeffs Hc.
have E (f : nat -> nat) (t : 'I_T) : (forall t, (t < T)%N -> f t = 0%N) ->
    \sum_(m < 1) nth 0 c (f t) * slater_table L nu nd Uup Udn syms x m t = \sum_(m < 1) nth 0 c m * phi_det x m t.
  by move=> Hf; rewrite !big_ord1 slater_tableE // Hf.
case: eqP => [H1|_]; last first.
  rewrite eqxx; congr Some.
  case: s; [congr sinhf|]; apply: eq_bigr => t _; [|congr sinhf]; exact: (E (fun=> 0%N)).
congr Some.
by case: s; [congr sinhf|]; apply: eq_bigr => t _; [|congr sinhf]; apply: (E id) => k; rewrite -H1; case: k.
Qed.

(* as many determinants as symmetries and equal coefficients: correct *)
Theorem C76_equal_coefficients_partial s c c0 x : size c = M -> M = T -> (forall m, (m < M)%N -> nth 0 c m = c0) ->
  in_sector L nu nd x ->
  asymm_qgps sinhf L nu nd M Uup Udn syms s c x = Some (asymm_spec s c x).
Proof.
move=> Hc HM H0 Hx; rewrite /asymm_qgps Hc eqxx /mul_coeffs Hc HM eqxx; congr Some.
by case: s => /=; [congr sinhf|]; rewrite ?HM; apply: eq_bigr => t _; [|congr sinhf]; apply: eq_bigr => m _; rewrite slater_tableE // !H0 // HM.
Qed.

(* without symmetries every determinant is weighted by the sum of all coefficients *)
Theorem C76_no_symmetries c x : size c = M -> (1 < M)%N -> T = 1%N -> in_sector L nu nd x ->
  asymm_qgps sinhf L nu nd M Uup Udn syms Kernel c x
  = Some (sinhf (\sum_(m < M) (\sum_(k < M) nth 0 c k) * phi_det x m 0)).
Proof.
move=> Hc HM HT Hx; rewrite /asymm_qgps Hc eqxx /mul_coeffs Hc HT !(gtn_eqF HM) eqxx; congr (Some (sinhf _)).
rewrite exchange_big; apply: eq_bigr => m _; rewrite big_distrl; apply: eq_bigr => k _ /=.
by rewrite slater_tableE // HT.
Qed.

(* several determinants cannot be combined with a different number of symmetries, nor with the
   default coefficients *)
Theorem C76_shape_mismatch s c x : (1 < M)%N -> T != 1%N -> T != M ->
  asymm_qgps sinhf L nu nd M Uup Udn syms s c x = None.
Proof.
move=> HM HT1 HTM; rewrite /asymm_qgps; case: eqP => // Hc; rewrite /mul_coeffs -Hc eq_sym (negbTE HTM).
by rewrite (gtn_eqF HM) (negbTE HT1).
Qed.
Theorem C76_default_coefficients s x : M != 1%N -> asymm_qgps sinhf L nu nd M Uup Udn syms s (default_coeffs F) x = None.
Proof. by move=> HM; rewrite /asymm_qgps (negbTE HM). Qed.

(* the odd product *)
Theorem C76_product x : odd M -> in_sector L nu nd x ->
  asymm_prod sinhf L nu nd M Uup Udn syms x = Some (\sum_(t < T) \prod_(m < M) sinhf (phi_det x m t)).
Proof.
move=> HM Hx; rewrite /asymm_prod HM; congr Some; apply: eq_bigr => t _; apply: eq_bigr => m _.
by rewrite slater_tableE.
Qed.
End C76.

(* antisymmetry: exchanging two orbitals of the same spin in every determinant changes the sign
   of the amplitude, whatever the coefficients *)
Section Exchange.
Variables (F : fieldType) (sinhf : F -> F) (L nu nd M : nat).
Variables (Uup Udn : nat -> nat -> nat -> F) (syms : seq (nat -> nat)).
Hypothesis Hsyms : forall t i, (t < size syms)%N -> (i < L)%N -> (nth id syms t i < L)%N.
Hypothesis sinh_odd : forall z, sinhf (- z) = - sinhf z.
Definition exchange_cols (a b : nat) (U : nat -> nat -> nat -> F) (m r j : nat) : F :=
  U m r (if j == a then b else if j == b then a else j).
Lemma det_exchange n (a b : 'I_n) (f : nat -> nat -> F) : a != b ->
  \det (\matrix_(i < n, j < n) f i (if val j == a then val b else if val j == b then val a else val j)) = - \det (\matrix_(i < n, j < n) f i j).
Proof.
move=> Hab; have -> : (\matrix_(i < n, j < n) f i (if val j == a then val b else if val j == b then val a else val j))
    = xcol a b (\matrix_(i < n, j < n) f i j).
  apply/matrixP => i j; rewrite !mxE; congr (f _ _).
  case: tpermP => [->|->|Ha Hb]; rewrite ?eqxx //.
  - by case: eqP => [E|_] //; move: Hab; rewrite -(inj_eq val_inj) /= E eqxx.
  - by case: eqP => [/val_inj//|_]; case: eqP => [/val_inj|].
by rewrite xcolE det_mulmx det_perm odd_tperm Hab /= expr1 mulrN1.
Qed.
Lemma phi_det_exchange x m t (a b : 'I_nu) : a != b ->
  phi_det L nu nd (exchange_cols a b Uup) Udn syms x m t = - phi_det L nu nd Uup Udn syms x m t.
Proof.
move=> Hab; rewrite /phi_det -mulNr; congr (_ * _).
exact: (det_exchange (fun i j => Uup m (nth id syms t (nth 0%N (sites_of L Up x) i)) j)).
Qed.
Lemma table_exchange x m t (a b : 'I_nu) : in_sector L nu nd x -> (t < size syms)%N -> a != b ->
  slater_table L nu nd (exchange_cols a b Uup) Udn syms x m t = - slater_table L nu nd Uup Udn syms x m t.
Proof. by move=> Hx Ht Hab; rewrite !slater_tableE // phi_det_exchange. Qed.

Theorem C76_antisymmetric s c x (a b : 'I_nu) : in_sector L nu nd x -> a != b ->
  asymm_qgps sinhf L nu nd M (exchange_cols a b Uup) Udn syms s c x
  = omap (fun z => - z) (asymm_qgps sinhf L nu nd M Uup Udn syms s c x).
Proof.
move=> Hx Hab; rewrite /asymm_qgps; case: ifP => // _; rewrite /mul_coeffs.
have K T' (y y' : nat -> nat -> F) : (forall m t, (t < T')%N -> y' m t = - y m t) ->
    match s with Kernel => sinhf (\sum_(t < T') \sum_(m < M) y' m t) | Projective => \sum_(t < T') sinhf (\sum_(m < M) y' m t) end
    = - match s with Kernel => sinhf (\sum_(t < T') \sum_(m < M) y m t) | Projective => \sum_(t < T') sinhf (\sum_(m < M) y m t) end.
  move=> H; case: s; rewrite ?raddf_sum -?sinh_odd ?raddf_sum /=.
    by congr sinhf; apply: eq_bigr => t _; rewrite raddf_sum; apply: eq_bigr => m _; rewrite H.
  by apply: eq_bigr => t _; rewrite -sinh_odd raddf_sum; congr sinhf; apply: eq_bigr => m _; rewrite H.
have TE m t : (t < size syms)%N -> slater_table L nu nd (exchange_cols a b Uup) Udn syms x m t = - slater_table L nu nd Uup Udn syms x m t.
  by move=> Ht; apply: table_exchange.
set y' := slater_table L nu nd (exchange_cols a b Uup) Udn syms x in TE *; set y := slater_table L nu nd Uup Udn syms x in TE *.
case: ifP => _ /=; first by congr Some; apply: (K _ (fun m t => nth 0 c t * y m t) (fun m t => nth 0 c t * y' m t)) => m t Ht; rewrite TE // mulrN.
case: ifP => _ /=; first by congr Some; apply: (K _ (fun m t => nth 0 c 0 * y m t) (fun m t => nth 0 c 0 * y' m t)) => m t Ht; rewrite TE // mulrN.
case: ifP => // /eqP HT /=; congr Some; apply: (K _ (fun m t => nth 0 c t * y m 0%N) (fun m t => nth 0 c t * y' m 0%N)) => m t _; rewrite TE ?mulrN // HT //.
Qed.
Theorem C76_product_antisymmetric x (a b : 'I_nu) : in_sector L nu nd x -> a != b ->
  asymm_prod sinhf L nu nd M (exchange_cols a b Uup) Udn syms x
  = omap (fun z => - z) (asymm_prod sinhf L nu nd M Uup Udn syms x).
Proof.
move=> Hx Hab; rewrite /asymm_prod; case: ifP => // HM /=; congr Some; rewrite raddf_sum; apply: eq_bigr => t _ /=.
rewrite (eq_bigr (fun m : 'I_M => -1 * sinhf (slater_table L nu nd Uup Udn syms x m t))); last first.
  by move=> m _; rewrite mulN1r -sinh_odd table_exchange.
by rewrite big_split /= prodr_const card_ord -signr_odd HM expr1 mulN1r.
Qed.
End Exchange.

(* C76 is false of the code for several determinants: coefficients 1 and 1 on two determinants
   with values 1 and 2 give sinh(6) instead of sinh(3) *)
Section Refuted.
Let U (m r j : nat) : rat := (m.+1)%:R.
Theorem C76_coefficients_refuted : exists (L nu nd M : nat) (Uup Udn : nat -> nat -> nat -> rat) c x,
  [/\ size c = M, in_sector L nu nd x, forall m, (m < M)%N -> nth 0 c m = 1 &
      forall sinhf : rat -> rat, injective sinhf ->
      asymm_qgps sinhf L nu nd M Uup Udn [:: id] Kernel c x <> Some (asymm_spec sinhf L nu nd M Uup Udn [:: id] Kernel c x)].
Proof.
exists 1%N, 1%N, 0%N, 2%N, U, U, [:: 1; 1], [:: 1%N]; split=> //; first by case=> [|[|m]].
have Hs t i : (t < size [:: (id : nat -> nat)])%N -> (i < 1)%N -> (nth id [:: id] t i < 1)%N by case: t.
move=> sinhf Hi; rewrite (@C76_no_symmetries rat_fieldType sinhf 1 1 0 2 U U [:: id] Hs) // /asymm_spec => -[/Hi].
rewrite /phi_det !big_ord_recl !big_ord0 /= !det_mx00 !det_mx11 !mxE /=.
by move/eqP.
Qed.
(* and three determinants with the default coefficients, as in tests/test_asymmqgps.py L31, fail *)
Example C76_example (sinhf : rat -> rat) : asymm_qgps sinhf 2 1 1 3 U U [:: id] Kernel (default_coeffs rat_fieldType) [:: 1; 2]%N = None /\
  asymm_qgps sinhf 2 1 1 1 U U [:: id; fun i => 1 - i]%N Kernel [:: 3%:R] [:: 1; 2]%N = Some (sinhf 6%:R).
Proof.
split=> //; rewrite C76_one_determinant_partial //; last by case=> [|[|t]] // [|[|i]].
by rewrite /asymm_spec !big_ord_recl !big_ord0 /phi_det /= !det_mx11 !mxE.
Qed.
End Refuted.

Print Assumptions C37_block_orbitals.
Print Assumptions C76_one_determinant_partial.
Print Assumptions C76_equal_coefficients_partial.
Print Assumptions C76_no_symmetries.
Print Assumptions C76_shape_mismatch.
Print Assumptions C76_default_coefficients.
Print Assumptions C76_product.
Print Assumptions C76_antisymmetric.
Print Assumptions C76_product_antisymmetric.
Print Assumptions C76_coefficients_refuted.
