From Verif Require Import Base Fock_Spec Fock_Proofs Occ_Model Occ_Spec Hopping_Model Hopping_Proofs.
From Verif Require Import Buffer_Proofs Hubbard_Model Hubbard_Proofs Mol_Fock Mol_Row.
From Verif Require Import AbInitio_Model AbInitio_Proofs AbInitio_Row AbInitio_Lemmas.
From Verif Require Import AbInitioOtf_Model AbInitioOtf_Proofs AbInitioOtf_Energy AbInitioOtf_RDM Update_Proto Fast_Contract.
Local Open Scope ring_scope.

Lemma C10_conn_lemma (F : fieldType) (half : F) t eri (fast : option (seq nat -> seq nat -> F)) (psi : cfg -> F) x n_elecs s0 :
  fast_ok fast psi x -> valid x -> n_elecs = (n_spin Up x, n_spin Dn x) -> psi x != 0 ->
  ab_otf half n_elecs t eri fast psi x
  = \sum_(e <- pmap id (ob_buf (ab_conn_flattened half t eri [:: x] [:: s0]).1)) e.2 * (psi e.1 / psi x).
Proof. by move=> Hf Hv -> Hp; rewrite ab_single pmap_some ab_otfE. Qed.

Lemma C10_lemma (F : fieldType) (half : F) h eri (fast : option (seq nat -> seq nat -> F)) (psi : cfg -> F) x n_elecs L :
  half + half = 1 -> fast_ok fast psi x -> valid x -> size x = L -> n_elecs = (n_spin Up x, n_spin Dn x) -> psi x != 0 ->
  (forall p q r s, (p < L)%N -> (q < L)%N -> (r < L)%N -> (s < L)%N -> eri p q r s = eri r s p q) ->
  ab_otf half n_elecs (t_mat half L h eri) eri fast psi x * psi x
  = molecular L half h eri (fun f => psi (cfg_of f)) (fock_of x).
Proof.
move=> h2 Hf Hv <- -> Hp He; rewrite ab_otfE // mulr_suml -ab_list_action // !big_seq.
apply: eq_bigr => e He'; rewrite -mulrA divfK //.
have [] := @ab_list_wf F half x Hv (t_mat half (size x) h eri) eri e.1; first exact: map_f.
by move=> Hve _ _; rewrite cfg_ofK.
Qed.

Lemma C14_lemma x i a j b : valid x ->
  (i < size x)%N -> (a < size x)%N -> (j < size x)%N -> (b < size x)%N ->
  has_spin Up (nth 0%N x i) -> ~~ has_spin Up (nth 0%N x a) ->
  has_spin Dn (nth 0%N x j) -> ~~ has_spin Dn (nth 0%N x b) ->
  let: (occs, sites) := otf_ud_lists x i a j b in
  [/\ sites = [:: i; a; j; b], size occs = 4%N,
      fock_of (apply_updates x occs sites)
        = setocc Dn b true (setocc Dn j false (setocc Up a true (setocc Up i false (fock_of x)))) &
      forall p, (p < 4)%N ->
        (if index (nth 0%N sites p) sites == p
         then nth 0%N occs p = nth 0%N (apply_updates x occs sites) (nth 0%N sites p)
         else nth 0%N occs p = nth 0%N x (nth 0%N sites p))].
Proof.
move=> Hv Hi Ha Hj Hb Oi Va Oj Vb.
have ia : i != a by apply/eqP => E; rewrite -E Oi in Va.
have [E1 E2 E3 E4] := ud_lists Hi Ha Hj Hb ia.
case: (otf_ud_lists x i a j b) E1 E2 E3 E4 => occs sites /= E1 E2 E3 E4; split=> //.
- rewrite E2.
  have [F1 V1 S1] := @add_at_fock x i Up false Hv Hi Oi.
  have Hs1 : has_spin Up (nth 0%N (add_at x i (sdelta Up false)) a) = ~~ true.
    by rewrite -occ_fock F1 occ_setocc /= [a == i]eq_sym (negbTE ia) occ_fock (negbTE Va).
  have Ha1 : (a < size (add_at x i (sdelta Up false)))%N by rewrite S1.
  have [F2 V2 S2] := add_at_fock V1 Ha1 Hs1.
  set y := add_at _ a _ in F2 V2 S2.
  have Hs2 : has_spin Dn (nth 0%N y j) = ~~ false.
    by rewrite -occ_fock F2 F1 !occ_setocc /= occ_fock Oj.
  have Hj2 : (j < size y)%N by rewrite S2 S1.
  have [F3 V3 S3] := add_at_fock V2 Hj2 Hs2.
  set z := add_at y j _ in F3 V3 S3.
  have jb : j != b by apply/eqP => E; rewrite -E Oj in Vb.
  have Hs3 : has_spin Dn (nth 0%N z b) = ~~ true.
    by rewrite -occ_fock F3 F2 F1 !occ_setocc /= [b == j]eq_sym (negbTE jb) occ_fock (negbTE Vb).
  have Hb3 : (b < size z)%N by rewrite S3 S2 S1.
  have [F4 V4 S4] := add_at_fock V3 Hb3 Hs3.
  by apply: (etrans F4); rewrite F3 F2 F1.
- move=> p Hp; have Hsz : size sites = 4%N by rewrite E1.
  case: (altP (index (nth 0%N sites p) sites =P p)) => [E|Hne].
    by rewrite nth_apply_updates ?E3 ?Hsz // mem_nth ?Hsz // E.
  apply: E4; first by rewrite Hsz.
  rewrite ltn_neqAle Hne /= leqNgt; apply/negP => Hlt.
  by have := before_find 0%N Hlt; rewrite /= eqxx.
Qed.

(* the RDM arrays do not read the integrals *)
Lemma fold_snd2 (F : fieldType) (l : seq nat) (f f' : F * t4 F -> nat -> F * t4 F) st st' :
  (forall k st st', st.2 = st'.2 -> (f st k).2 = (f' st' k).2) -> st.2 = st'.2 ->
  (foldl f st l).2 = (foldl f' st' l).2.
Proof. by move=> H; elim: l st st' => //= k l IH st st' E; apply: IH; apply: H. Qed.

Lemma rdm_indep (F : fieldType) (half : F) n_elecs t t' eri eri' (fast : option (seq nat -> seq nat -> F)) psi x :
  let r := ab_otf_rdm half n_elecs t eri fast psi x in
  let r' := ab_otf_rdm half n_elecs t' eri' fast psi x in
  r.1.2 = r'.1.2 /\ r.2 = r'.2.
Proof.
rewrite /ab_otf_rdm /rdm_one; split=> //.
apply: fold_snd2 => [k st st' E|]; first by apply: fold_snd2 => // a s s' E' /=; rewrite E'.
do 2! (apply: fold_snd2 => [k st st' E|]; first by apply: fold_snd2 => // a s s' E' /=; rewrite E').
by [].
Qed.

Lemma C11_lemma (F : fieldType) (half : F) n_elecs t eri (fast : option (seq nat -> seq nat -> F)) (psi : cfg -> F) x :
  (0 < size x)%N ->
  let: (en, T, E) := ab_otf_rdm half n_elecs t eri fast psi x in
  [/\ en = \sum_(p < size x) \sum_(q < size x) t p q * T p q
           + \sum_(p < size x) \sum_(q < size x) \sum_(r < size x) \sum_(s < size x) eri p q r s * E p q r s,
      en = ab_otf half n_elecs t eri fast psi x &
      forall t' eri', let r := ab_otf_rdm half n_elecs t' eri' fast psi x in r.1.2 = T /\ r.2 = E].
Proof.
move=> Hx; have [I E1] := rdm_ok half t eri fast psi (erefl (size x)) n_elecs Hx.
have Hi t' eri' := rdm_indep half n_elecs t' t eri' eri fast psi x.
case: (ab_otf_rdm half n_elecs t eri fast psi x) I E1 Hi => -[en T] E I E1 Hi.
by split.
Qed.
