From Verif Require Import Base Fock_Spec Fock_Proofs Occ_Model Occ_Spec Hopping_Model Hopping_Proofs.
From Verif Require Import Buffer_Proofs Hubbard_Model Hubbard_Proofs Mol_Fock Mol_Row.
From Verif Require Import AbInitio_Model AbInitio_Proofs AbInitio_Row AbInitioOtf_Model AbInitioOtf_Proofs Update_Proto Fast_Contract.
Local Open Scope ring_scope.

Section Cfg.
Variable x : cfg.
Hypothesis Hv : valid x.

Lemma nth_add_at y i d k : nth 0%N (add_at y i d) k = if k == i then u8 ((nth 0%N y i)%:Z + d) else nth 0%N y k.
Proof. by rewrite /add_at nth_set_nth. Qed.
Lemma size_add_at y i d : (i < size y)%N -> size (add_at y i d) = size y.
Proof. by move=> H; rewrite size_set_nth; apply/maxn_idPr. Qed.

Lemma upd_two s i a : i != a ->
  apply_updates x [:: occ_minus x s i; occ_plus x s a] [:: i; a] = add_at (add_at x i (- s%:Z)) a s%:Z.
Proof.
move=> H; rewrite /apply_updates /= /add_at set_set_nth [a == i]eq_sym (negbTE H) nth_set_nth /=.
by rewrite [a == i]eq_sym (negbTE H).
Qed.

Lemma upd_four s i a j b : (i < size x)%N -> (a < size x)%N -> (j < size x)%N -> (b < size x)%N ->
  i != a -> i != j -> i != b -> a != j -> a != b -> j != b ->
  apply_updates x [:: occ_minus x s i; occ_plus x s a; occ_minus x s j; occ_plus x s b] [:: i; a; j; b]
  = add_at (add_at (add_at (add_at x i (- s%:Z)) a s%:Z) j (- s%:Z)) b s%:Z.
Proof.
move=> Hi Ha Hj Hb ia ij ib aj ab jb; apply: (@eq_from_nth _ 0%N).
  by rewrite size_apply_updates /= ?Hi ?Ha ?Hj ?Hb // !size_add_at.
move=> k _; rewrite nth_apply_updates // !nth_add_at !inE /= /occ_minus /occ_plus.
have sy (u v : nat) : u != v -> ((u == v) = false) * ((v == u) = false).
  by move=> H; rewrite [v == u]eq_sym (negbTE H).
have Q := (sy _ _ ia, sy _ _ ij, sy _ _ ib, sy _ _ aj, sy _ _ ab, sy _ _ jb).
case: (altP (k =P i)) => [->|ki] /=; first by rewrite eqxx !Q.
case: (altP (k =P a)) => [->|ka] /=; first by rewrite eqxx !Q.
case: (altP (k =P j)) => [->|kj] /=; first by rewrite eqxx !Q.
case: (altP (k =P b)) => [->|kb] /=; first by rewrite eqxx !Q.
by [].
Qed.

Lemma ud_lists i a j b : (i < size x)%N -> (a < size x)%N -> (j < size x)%N -> (b < size x)%N -> i != a ->
  let r := otf_ud_lists x i a j b in
  [/\ r.2 = [:: i; a; j; b],
      apply_updates x r.1 r.2 = add_at (add_at (add_at (add_at x i (- 1)) a 1) j (- 2)) b 2,
      size r.1 = 4%N & dup_ok x r.1 r.2].
Proof.
move=> Hi Ha Hj Hb ia r.
have D0 : dup_ok x [:: occ_minus x 1 i; occ_plus x 1 a] [:: i; a].
  by move=> [|[|p]] //= _; rewrite (negbTE ia).
have [|E1 S1 A1 D1] := @updated_occ x [:: occ_minus x 1 i; occ_plus x 1 a] [:: i; a] j (- 2) erefl _ D0.
  by rewrite /= Hi Ha Hj.
have Hall : all (fun k => (k < size x)%N)
  (rcons (get_updated_occ_previous_move x [:: occ_minus x 1 i; occ_plus x 1 a] [:: i; a] j (- 2)).2 b).
  by rewrite E1 /= Hi Ha Hj Hb.
have [E2 S2 A2 D2] := updated_occ 2 S1 Hall D1.
split=> //.
  by rewrite /r /otf_ud_lists A2 A1 upd_two.
Qed.
End Cfg.

Section Energy.
Variables (F : fieldType) (half : F).
Add Ring RF : (r_theory (GRing.Field.comRingType F)).
Variables (t : nat -> nat -> F) (eri : nat -> nat -> nat -> nat -> F).
Variables (fast : option (seq nat -> seq nat -> F)) (psi : cfg -> F) (x : cfg).
Hypothesis Hf : fast_ok fast psi x.
Hypothesis Hv : valid x.
Let n_elecs := (n_spin Up x, n_spin Dn x).
Notation O := (oinds x). Notation V := (uinds x).
Notation cum s := (cumcount (spin_int s) x).
Let w (y : cfg) : F := psi y / psi x.

Lemma count_occ s : count (fun k => has (nth 0%N x k) (spin_int s)) (iota 0 (size x)) = n_spin s x.
Proof.
rewrite /n_spin -[in RHS](map_nth_iota x) count_map; apply: eq_in_count => k _ /=.
by rewrite has_has_spin // valid_nth.
Qed.
Lemma nz_occ s : nonzero_sized (n_spin s x) (fun k => has (nth 0%N x k) (spin_int s)) (size x) = O s.
Proof.
rewrite nonzero_sizedE ?count_occ //; apply: eq_filter => k.
by rewrite eqb_id.
Qed.
Lemma nz_unocc s : nonzero_sized (size x - n_spin s x) (fun k => ~~ has (nth 0%N x k) (spin_int s)) (size x) = V s.
Proof.
rewrite nonzero_sizedE; first by apply: eq_filter => k; rewrite eqbF_neg.
have := count_predC (fun k => has (nth 0%N x k) (spin_int s)) (iota 0 (size x)).
by rewrite count_occ size_iota => /(f_equal (subn^~ (n_spin s x))) <-; rewrite addKn.
Qed.

Lemma ioP s i : i \in O s -> [/\ (i < size x)%N, occ s i (fock_of x) & has (nth 0%N x i) (spin_int s)].
Proof.
by rewrite mem_oinds // => /andP [H1 H2]; split=> //; rewrite has_has_spin ?valid_nth // -occ_fock.
Qed.
Lemma iuP s i : i \in V s -> [/\ (i < size x)%N, ~~ occ s i (fock_of x) & ~~ has (nth 0%N x i) (spin_int s)].
Proof.
by rewrite mem_uinds // => /andP [H1 H2]; split=> //; rewrite has_has_spin ?valid_nth // -occ_fock.
Qed.
Lemma iouN s i a : i \in O s -> a \in V s -> i != a.
Proof. by move=> /ioP [_ Oi _] /iuP [_ Va _]; apply/eqP => E; rewrite -E Oi in Va. Qed.

Lemma otf_valueE s i a : otf_value half t eri (O s) (V s) (O (other s)) i a
  = ab_value half t eri (O s) (V s) (O (other s)) i a.
Proof. by rewrite /ab_value acc_subE !acc_addE /otf_value !mulr_sumr. Qed.

Lemma otf_diagE : otf_diag half n_elecs t eri x = ab_diag half t eri (O Up) (V Up) (O Dn) (V Dn).
Proof.
rewrite /otf_diag (nz_occ Up) (nz_occ Dn) (nz_unocc Up) (nz_unocc Dn) /ab_diag !acc_add2E !acc_addE add0r.
have S2 (l l' : seq nat) (f : nat -> nat -> F) : \sum_(i <- l) \sum_(j <- l') half * f i j
  = half * (\sum_(i <- l) \sum_(j <- l') f i j).
  by rewrite mulr_sumr; apply: eq_bigr => i _; rewrite mulr_sumr.
by rewrite !S2.
Qed.

Lemma e_oneE s i a : i \in O s -> a \in V s ->
  e_one half t eri x s i a =
  (add_at (add_at x i (- (spin_int s)%:Z)) a (spin_int s)%:Z,
   (parity_multiplicator_hop i a (cum s))%:~R * ab_value half t eri (O s) (V s) (O (other s)) i a).
Proof.
move=> Hi Ha; have [_ _ Oi] := ioP Hi; have [_ _ Va] := iuP Ha.
by rewrite /e_one apply_hopping_live // (iouN Hi Ha).
Qed.

Lemma one_connected s i a : i \in O s -> a \in V s ->
  let occs := [:: occ_minus x (spin_int s) i; occ_plus x (spin_int s) a] in
  connected fast psi x occs [:: i; a] = psi (apply_updates x occs [:: i; a]).
Proof.
move=> Hi Ha occs; have [Hi' _ Oi] := ioP Hi; have [Ha' _ Va] := iuP Ha; have ia := iouN Hi Ha.
have [] := apply_hopping_wf s Hv Hi' Ha'; rewrite apply_hopping_live //; cbv [snd] => V1 _ N1 _.
apply: connectedE; rewrite ?upd_two //=; first by rewrite Hi' Ha'.
by move=> [|[|p]] //= _; rewrite (negbTE ia).
Qed.

Lemma otf_one_ok s i a : i \in O s -> a \in V s ->
  otf_one_term half t eri fast psi x (spin_int s) (cum s) (O s) (V s) (O (other s)) i a
  = (e_one half t eri x s i a).2 * w (e_one half t eri x s i a).1.
Proof.
move=> Hi Ha; rewrite e_oneE // /otf_one_term /otf_one_ratio /amp_ratio /otf_one_parity one_connected // upd_two ?(iouN Hi Ha) //.
by rewrite otf_valueE /w /=; mring (GRing.Field.comRingType F).
Qed.

Lemma r1E s i a : i \in O s -> a \in V s ->
  apply_hopping i a x (spin_int s) (Some (cum s))
  = (parity_multiplicator_hop i a (cum s), add_at (add_at x i (- (spin_int s)%:Z)) a (spin_int s)%:Z).
Proof.
move=> Hi Ha; have [_ _ Oi] := ioP Hi; have [_ _ Va] := iuP Ha.
by rewrite apply_hopping_live // (iouN Hi Ha).
Qed.

Lemma two_connected s i a j b : i \in O s -> a \in V s -> j \in O s -> b \in V s -> i != j -> a != b ->
  let occs := [:: occ_minus x (spin_int s) i; occ_plus x (spin_int s) a; occ_minus x (spin_int s) j; occ_plus x (spin_int s) b] in
  connected fast psi x occs [:: i; a; j; b] = psi (apply_updates x occs [:: i; a; j; b]).
Proof.
move=> Hi Ha Hj Hb ij ab occs.
have [Hi' Oi hi] := ioP Hi; have [Ha' Va ha] := iuP Ha; have [Hj' Oj hj] := ioP Hj; have [Hb' Vb hb] := iuP Hb.
have ia := iouN Hi Ha; have jb := iouN Hj Hb; have ib := iouN Hi Hb; have ja := iouN Hj Ha.
have [] := hop2_same_wf Hv Hi' Ha' Oi Va Hj' Hb' Oj Vb ij ab.
rewrite r1E //; cbv [snd]; rewrite apply_hopping_live //; first last.
- by rewrite !nth_add_at [b == a]eq_sym (negbTE ab) [b == i]eq_sym (negbTE ib).
- by rewrite !nth_add_at (negbTE ja) [j == i]eq_sym (negbTE ij).
cbv [snd] => V2 _ N2.
apply: connectedE; rewrite ?upd_four // 1?eq_sym //=; first by rewrite Hi' Ha' Hj' Hb'.
by move=> [|[|[|[|p]]]] //= _; rewrite ?(negbTE ia) ?(negbTE ij) ?(negbTE ib) ?(negbTE ab) ?(negbTE jb) // [a == j]eq_sym (negbTE ja).
Qed.

Lemma otf_two_ok s i a j b : i \in O s -> a \in V s -> j \in O s -> b \in V s -> i != j -> a != b ->
  half * (eri i a j b * otf_two_inner fast psi x (spin_int s) (cum s) i a j b)
  = (e_two half eri x s i a j b).2 * w (e_two half eri x s i a j b).1.
Proof.
move=> Hi Ha Hj Hb ij ab; rewrite /e_two r1E //; cbv [fst snd].
have [Hi' Oi hi] := ioP Hi; have [Ha' Va ha] := iuP Ha; have [Hj' Oj hj] := ioP Hj; have [Hb' Vb hb] := iuP Hb.
have ia := iouN Hi Ha; have jb := iouN Hj Hb; have ib := iouN Hi Hb; have ja := iouN Hj Ha.
rewrite apply_hopping_live //; first last.
- by rewrite !nth_add_at [b == a]eq_sym (negbTE ab) [b == i]eq_sym (negbTE ib).
- by rewrite !nth_add_at (negbTE ja) [j == i]eq_sym (negbTE ij).
rewrite /otf_two_inner /amp_ratio [_ ++ _]/= [[:: i; a] ++ _]/= two_connected // upd_four // 1?eq_sym //.
rewrite /ab_two_mult /w; cbv [fst snd].
rewrite !mulrN1 !(fun_if (fun z : int => - z)).
set m := (if (a <= _)%N && _ then _ else _).
by mring (GRing.Field.comRingType F).
Qed.

Lemma ud_connected i a j b : i \in O Up -> a \in V Up -> j \in O Dn -> b \in V Dn ->
  let fin := otf_ud_lists x i a j b in
  connected fast psi x fin.1 fin.2 = psi (apply_updates x fin.1 fin.2).
Proof.
move=> Hi Ha Hj Hb fin.
have [Hi' Oi hi] := ioP Hi; have [Ha' Va ha] := iuP Ha; have [Hj' Oj hj] := ioP Hj; have [Hb' Vb hb] := iuP Hb.
have ia := iouN Hi Ha; have jb := iouN Hj Hb.
have E k : has (nth 0%N (add_at (add_at x i (- 1)) a 1) k) 2 = has (nth 0%N x k) 2.
  have [] := hop1_res Hv Hi' Ha' Oi Va; rewrite (r1E Hi Ha); cbv [snd] => F1 V1 S1.
  rewrite -[in LHS](_ : spin_int Dn = 2%N) // -[in RHS](_ : spin_int Dn = 2%N) //.
  rewrite !has_has_spin ?valid_nth // -(occ_fock Dn k x) -(occ_fock Dn k (add_at _ _ _)).
  by rewrite F1 !occ_setocc.
have [V2 N2] : valid (add_at (add_at (add_at (add_at x i (- 1)) a 1) j (- 2)) b 2)
    /\ forall u, n_spin u (add_at (add_at (add_at (add_at x i (- 1)) a 1) j (- 2)) b 2) = n_spin u x.
  have [] := hop2_diff_wf Hv Hi' Ha' Oi Va (isT : Dn != Up) Hj' Hb'.
  by rewrite (r1E Hi Ha); cbv [snd]; rewrite apply_hopping_live ?E.
have [E2 A S1 D] := ud_lists Hi' Ha' Hj' Hb' ia.
by apply: connectedE; rewrite /fin ?A ?S1 ?E2 //= Hi' Ha' Hj' Hb'.
Qed.

Lemma otf_ud_ok i a j b : i \in O Up -> a \in V Up -> j \in O Dn -> b \in V Dn ->
  eri i a j b * otf_ud_inner fast psi x i a j b
  = (e_ud eri x i a j b).2 * w (e_ud eri x i a j b).1.
Proof.
move=> Hi Ha Hj Hb; rewrite /e_ud (r1E Hi Ha); cbv [fst snd].
have [Hi' Oi hi] := ioP Hi; have [Ha' Va ha] := iuP Ha; have [Hj' Oj hj] := ioP Hj; have [Hb' Vb hb] := iuP Hb.
have ia := iouN Hi Ha; have jb := iouN Hj Hb.
have E k : has (nth 0%N (add_at (add_at x i (- 1)) a 1) k) 2 = has (nth 0%N x k) 2.
  have [] := hop1_res Hv Hi' Ha' Oi Va; rewrite (r1E Hi Ha); cbv [snd] => F1 V1 S1.
  rewrite -[in LHS](_ : spin_int Dn = 2%N) // -[in RHS](_ : spin_int Dn = 2%N) //.
  rewrite !has_has_spin ?valid_nth // -(occ_fock Dn k x) -(occ_fock Dn k (add_at _ _ _)).
  by rewrite F1 !occ_setocc.
rewrite apply_hopping_live ?E //.
have [_ A _ _] := ud_lists Hi' Ha' Hj' Hb' ia.
by rewrite /otf_ud_inner /amp_ratio ud_connected // A /w /=; mring (GRing.Field.comRingType F).
Qed.

Lemma foldl_sum (l : seq nat) (f : nat -> F) v : foldl (fun a k => a + f k) v l = v + \sum_(k <- l) f k.
Proof. exact: acc_addE. Qed.
Lemma foldl_sum2 (l l' : seq nat) (f : nat -> nat -> F) v :
  foldl (fun v i => foldl (fun v a => v + f i a) v l') v l = v + \sum_(i <- l) \sum_(a <- l') f i a.
Proof. exact: acc_add2E. Qed.

Lemma otf_twoE s v :
  otf_two half eri fast psi x (spin_int s) (cum s) (O s) (V s) v
  = v + \sum_(e <- l_two half eri x s) e.2 * w e.1.
Proof.
rewrite /otf_two foldl_sum2; congr (_ + _); rewrite /l_two big_flat !big_seq; apply: eq_bigr => i Hi.
rewrite big_flat !big_seq; apply: eq_bigr => a Ha.
rewrite !outer_removedE ?uniq_oinds ?uniq_uinds // big_flat mulr_sumr big_filter big_mkcond /= !big_seq.
apply: eq_bigr => j Hj; rewrite big_flat [j == i]eq_sym.
case: (altP (i =P j)) => [E|ij] /=; first by rewrite big1 // => b _; rewrite big_nil.
rewrite mulr_sumr big_filter big_mkcond /= !big_seq; apply: eq_bigr => b Hb.
rewrite [b == a]eq_sym; case: (altP (a =P b)) => [E|ab] /=; first by rewrite big_nil.
by rewrite big_seq1 otf_two_ok.
Qed.

Lemma otf_udE v : otf_ud n_elecs eri fast psi x v = v + \sum_(e <- l_ud eri x) e.2 * w e.1.
Proof.
rewrite /otf_ud (nz_occ Up) (nz_occ Dn) (nz_unocc Up) (nz_unocc Dn) foldl_sum2.
congr (_ + _); rewrite /l_ud big_flat !big_seq; apply: eq_bigr => i Hi.
rewrite big_flat !big_seq; apply: eq_bigr => a Ha.
rewrite big_flat !big_seq; apply: eq_bigr => j Hj.
rewrite big_flat !big_seq; apply: eq_bigr => b Hb.
by rewrite big_seq1 otf_ud_ok.
Qed.

Lemma otf_oneE s :
  \sum_(i <- O s) \sum_(a <- V s) otf_one_term half t eri fast psi x (spin_int s) (cum s) (O s) (V s) (O (other s)) i a
  = \sum_(e <- l_one half t eri x s) e.2 * w e.1.
Proof.
rewrite /l_one big_flat !big_seq; apply: eq_bigr => i Hi.
rewrite big_flat !big_seq; apply: eq_bigr => a Ha.
by rewrite big_seq1 otf_one_ok.
Qed.

Lemma ab_otfE : psi x != 0 ->
  ab_otf half n_elecs t eri fast psi x = \sum_(e <- ab_list half t eri x) e.2 * (psi e.1 / psi x).
Proof.
move=> Hx; rewrite /ab_otf otf_diagE (nz_occ Up) (nz_occ Dn) (nz_unocc Up) (nz_unocc Dn).
rewrite otf_udE (otf_twoE Dn) (otf_twoE Up) (otf_oneE Up) (otf_oneE Dn).
rewrite /ab_list big_cons divff // mulr1 !big_cat /= -/w.
by rewrite !addrA.
Qed.
End Energy.
