(* C89: the on-the-fly local energies and density matrices evaluated through the cache of the
   sample (use_fast_update, switched on by vstate.model.apply_fast_update) equal those evaluated
   without it. *)
From Verif Require Import Base Fock_Spec Fock_Proofs Occ_Model Occ_Spec Hopping_Model Update_Proto Fast_Contract.
From Verif Require Import Hubbard_Model Hubbard_Lemmas AbInitio_Model AbInitioOtf_Model AbInitio_Lemmas2 Sparse_Model Sparse_Csr Sparse_Energy J1J2_Model J1J2_Props.
From Verif Require Import QGPS_Model Plaq_Model Elec_Model Slater_Model Slater_Pos Slater_Props Backflow_Model Backflow_Props CPD_Model AR_Model ARFull_Model.
From Coq Require Import FunctionalExtensionality.
From Verif Require QGPS_Props Plaq_Props ARFull_Props CPD_Props.
Local Open Scope ring_scope.

(* all local energies of the fermionic Hamiltonians agree, whatever the Hamiltonian *)
Definition same_energies (F : fieldType) (f : seq nat -> seq nat -> F) (psi : seq nat -> F) (x : seq nat) : Prop :=
  let n_elecs := (n_spin Up x, n_spin Dn x) in
  [/\ forall half t eri, ab_otf half n_elecs t eri (Some f) psi x = ab_otf half n_elecs t eri None psi x,
      forall half t eri p q r s, (p < size x)%N -> (q < size x)%N -> (r < size x)%N -> (s < size x)%N ->
        let rdm := ab_otf_rdm half n_elecs t eri (Some f) psi x in
        let rdm' := ab_otf_rdm half n_elecs t eri None psi x in
        [/\ rdm.1.1 = rdm'.1.1, rdm.1.2 p q = rdm'.1.2 p q & rdm.2 p q r s = rdm'.2 p q r s],
      forall (half : F) h eri, half + half = 1 ->
        (forall p q r s, (p < size x)%N -> (q < size x)%N -> (r < size x)%N -> (s < size x)%N -> eri p q r s = eri r s p q) ->
        sp_otf n_elecs (h1_csr (size x) h) (h2_csr (size x) eri) (Some f) psi x
        = sp_otf n_elecs (h1_csr (size x) h) (h2_csr (size x) eri) None psi x &
      forall U edges t, all (fun e => [&& e.1 < size x, e.2 < size x & e.1 != e.2])%N edges ->
        hub_otf U edges t (Some f) psi x = hub_otf U edges t None psi x].

Section General.
Variables (F : fieldType) (f : seq nat -> seq nat -> F) (psi : seq nat -> F) (x : seq nat).
Hypotheses (Hv : valid x) (Hp : psi x != 0).

Theorem C89_hubbard U edges t : fast_ok_uniq (Some f) psi x ->
  all (fun e => [&& e.1 < size x, e.2 < size x & e.1 != e.2])%N edges ->
  hub_otf U edges t (Some f) psi x = hub_otf U edges t None psi x.
Proof.
move=> Hf He.
have H1 : all (fun e => (e.1 < size x)%N && (e.2 < size x)%N) edges.
  by apply: sub_all He => e /and3P[-> ->].
have H2 : all (fun e : nat * nat => e.1 != e.2) edges by apply: sub_all He => e /and3P[].
by rewrite (C07_lemma U t 0%N Hf Hv H1 H2 Hp) (@C07_lemma F U edges t None psi x 0%N I Hv H1 H2 Hp).
Qed.

Hypothesis Hf : fast_ok (Some f) psi x.

Lemma ab_same half t eri :
  ab_otf half (n_spin Up x, n_spin Dn x) t eri (Some f) psi x = ab_otf half (n_spin Up x, n_spin Dn x) t eri None psi x.
Proof. by rewrite (C10_conn_lemma half t eri 0%N Hf Hv erefl Hp) (@C10_conn_lemma F half t eri None psi x _ 0%N I Hv erefl Hp). Qed.

Lemma rdm_facts half n_elecs t eri fast : (0 < size x)%N ->
  let r := ab_otf_rdm half n_elecs t eri fast psi x in
  [/\ r.1.1 = \sum_(p < size x) \sum_(q < size x) t p q * r.1.2 p q
           + \sum_(p < size x) \sum_(q < size x) \sum_(a < size x) \sum_(s < size x) eri p q a s * r.2 p q a s,
      r.1.1 = ab_otf half n_elecs t eri fast psi x &
      forall t' eri', let r' := ab_otf_rdm half n_elecs t' eri' fast psi x in r'.1.2 = r.1.2 /\ r'.2 = r.2].
Proof.
by move=> H0; apply: (C11_lemma half n_elecs t eri fast psi H0).
Qed.

(* a density matrix element is the energy for a Hamiltonian with a single matrix element *)
Lemma rdm_element half n_elecs t eri fast p q r s : (p < size x)%N -> (q < size x)%N -> (r < size x)%N -> (s < size x)%N ->
  let rdm := ab_otf_rdm half n_elecs t eri fast psi x in
  rdm.1.2 p q = ab_otf half n_elecs (fun a b => ((a, b) == (p, q))%:R) (fun _ _ _ _ => 0) fast psi x
  /\ rdm.2 p q r s = ab_otf half n_elecs (fun _ _ => 0) (fun a b c d => ((a, b, c, d) == (p, q, r, s))%:R) fast psi x.
Proof.
move=> Hpp Hq Hr Hs rdm; have H0 : (0 < size x)%N by apply: leq_ltn_trans Hpp.
have E t' eri' : ab_otf half n_elecs t' eri' fast psi x
    = \sum_(a < size x) \sum_(b < size x) t' a b * rdm.1.2 a b
      + \sum_(a < size x) \sum_(b < size x) \sum_(c < size x) \sum_(d < size x) eri' a b c d * rdm.2 a b c d.
  have [_ _ /(_ t' eri') [E1 E2]] := rdm_facts half n_elecs t eri fast H0.
  by have [E3 E4 _] := rdm_facts half n_elecs t' eri' fast H0; rewrite -E4 E3 E1 E2.
have D1 k (Hk : (k < size x)%N) (g : nat -> F) : \sum_(a < size x) (a == k :> nat)%:R * g a = g k.
  rewrite (bigD1 (Ordinal Hk)) //= eqxx mul1r big1 ?addr0 // => a Ha.
  by rewrite -val_eqE /= in Ha; rewrite (negbTE Ha) mul0r.
split.
  rewrite E [X in _ + X]big1 ?addr0; last first.
    by move=> a _; rewrite big1 // => b _; rewrite big1 // => c _; rewrite big1 // => d _; rewrite mul0r.
  rewrite -[LHS](D1 p Hpp (fun a => rdm.1.2 a q)); apply: eq_bigr => a _.
  rewrite -[rdm.1.2 a q](D1 q Hq (fun b => rdm.1.2 a b)) mulr_sumr; apply: eq_bigr => b _.
  by rewrite xpair_eqE mulrA -natrM mulnb.
rewrite E [X in X + _]big1 ?add0r; last by move=> a _; rewrite big1 // => b _; rewrite mul0r.
rewrite -[LHS](D1 p Hpp (fun a => rdm.2 a q r s)); apply: eq_bigr => a _.
rewrite -[rdm.2 a q r s](D1 q Hq (fun b => rdm.2 a b r s)) mulr_sumr; apply: eq_bigr => b _.
rewrite -[rdm.2 a b r s](D1 r Hr (fun c => rdm.2 a b c s)) !mulr_sumr; apply: eq_bigr => c _.
rewrite -[rdm.2 a b c s](D1 s Hs (fun d => rdm.2 a b c d)) !mulr_sumr; apply: eq_bigr => d _.
by rewrite !xpair_eqE !mulrA -!natrM !mulnb.
Qed.

Theorem C89_contract_suffices : same_energies f psi x.
Proof.
have RD half t eri fast : (0 < size x)%N -> (ab_otf_rdm half (n_spin Up x, n_spin Dn x) t eri fast psi x).1.1
    = ab_otf half (n_spin Up x, n_spin Dn x) t eri fast psi x.
  by move=> H0; have [] := rdm_facts half (n_spin Up x, n_spin Dn x) t eri fast H0.
split.
- exact: ab_same.
- move=> half t eri p q r s Hpp Hq Hr Hs; have H0 : (0 < size x)%N by apply: leq_ltn_trans Hpp.
  have [T1 E1] := rdm_element half (n_spin Up x, n_spin Dn x) t eri (Some f) Hpp Hq Hr Hs.
  have [T2 E2] := rdm_element half (n_spin Up x, n_spin Dn x) t eri None Hpp Hq Hr Hs.
  by move=> rdm rdm'; rewrite /rdm /rdm' !RD // T1 T2 E1 E2 !ab_same.
- move=> half h eri h2 He; apply: (mulIf Hp).
  by rewrite (sp_otfE h Hf Hv Hp h2 He) (@sp_otfE F half h eri None psi x I Hv Hp h2 He).
by move=> U edges t; apply: C89_hubbard; apply: fast_okW.
Qed.
End General.

(* every model that offers apply_fast_update, except CPDBackflow; psi is the value of the same
   model on a full configuration, f its value from the cache of x *)
Section Models.
Variables (F : fieldType) (L : nat) (x : seq nat).
Hypotheses (Hx : size x = L) (Hv : valid x).

(* qGPS (any out_transformation) *)
Theorem C89_qgps (out : seq (seq F) -> F) eps M s :
  let psi y := out (ca_prod (qgps_full eps M s y)) in
  (if sy_perms s is Some ps then all (fun p => perm_eq p (iota 0 L)) ps else true) ->
  QGPS_Props.nonvanishing eps M s x -> psi x != 0 ->
  same_energies (fun occs sites => out (ca_prod (qgps_fast eps M s (qgps_full eps M s x) occs sites))) psi x.
Proof.
move=> psi Hs Hn Hp; apply: C89_contract_suffices => // y sites occs Hd _ _.
by rewrite (QGPS_Props.C32_qgps_fast_update Hs Hx Hn Hd).
Qed.

(* PlaquetteqGPS *)
Theorem C89_plaquette (out : seq (seq (seq F)) -> F) eps M plaquettes s :
  let psi y := out (pc_prod (plaq_full eps M plaquettes s y)) in
  all (fun pl => uniq pl && all (fun k => (k < L)%N) pl) plaquettes ->
  (if sy_perms s is Some ps then all (fun p => perm_eq p (iota 0 L)) ps else true) ->
  Plaq_Props.plaq_nonvanishing eps M plaquettes s x -> psi x != 0 ->
  same_energies (fun occs sites => out (pc_prod (plaq_fast eps M L plaquettes s (plaq_full eps M plaquettes s x) occs sites))) psi x.
Proof.
move=> psi Hpl Hs Hn Hp; apply: C89_contract_suffices => // y sites occs Hd _ _.
by rewrite (Plaq_Props.C34_plaquette_fast_update_partial Hpl Hs Hx Hn Hd).
Qed.

(* ARqGPSFull (any function of the amplitudes of the symmetry copies) *)
Theorem C89_arfull (R : realFieldType) (wexp : F -> R) (out : seq F -> F) (value : seq (R * F) -> F) D M
    constrained normalize count_spins renorm (P : params F) s :
  let full := arfull wexp out D M L constrained normalize count_spins renorm P s in
  let fast := arfull_fast wexp out D M L constrained normalize count_spins renorm P s in
  let psi y := value (full y).1 in
  (if sy_perms s is Some ps then all (fun p => perm_eq p (iota 0 L)) ps else true) ->
  ARFull_Props.nonvanishing M L P s x -> psi x != 0 ->
  same_energies (fun occs sites => value (fast (full x).2 occs sites).1) psi x.
Proof.
move=> full fast psi Hs Hn Hp; apply: C89_contract_suffices => // y sites occs Hd _ _.
by rewrite /fast /full (ARFull_Props.C72_arfull_fast_update _ _ _ _ _ _ _ Hs Hx Hn Hd).
Qed.

Lemma amplitude_dets nu nd (chi : seq F) (a b : slater_cache F nu nd) :
  map (@cc_det F nu nd) (sc_comps a) = map (@cc_det F nu nd) (sc_comps b) -> slater_amplitude chi a = slater_amplitude chi b.
Proof.
rewrite /slater_amplitude; move: (sc_comps a) (sc_comps b) => k l; elim: k l chi => [|c k IH] [|d l] // [|v chi] //=.
by case=> E /IH {}IH; rewrite !big_cons IH /= E.
Qed.

Lemma slater_contract nu nd blocked constant_time (cs : seq (component F (nu + nd))) (chi : seq F) y sites occs :
  in_sector L nu nd x -> in_sector L nu nd y -> wf_comps L blocked cs -> nonsingular L cs x -> denotes x y sites occs ->
  slater_amplitude chi (slater_fast L constant_time cs (slater_full L blocked constant_time cs x) occs sites)
  = slater_amplitude chi (slater_full L blocked constant_time cs y).
Proof.
move=> Hsx Hsy Hc Hns Hde; apply: amplitude_dets.
by have [-> _] := C37_slater_fast_update constant_time chi Hsx Hsy Hde Hc Hns; rewrite C37_slater_full_evaluation.
Qed.

(* Slater *)
Theorem C89_slater nu nd blocked constant_time (cs : seq (component F (nu + nd))) (chi : seq F) :
  let full := slater_full L blocked constant_time cs in
  let psi y := slater_amplitude chi (full y) in
  n_spin Up x = nu -> n_spin Dn x = nd -> wf_comps L blocked cs -> nonsingular L cs x -> psi x != 0 ->
  same_energies (fun occs sites => slater_amplitude chi (slater_fast L constant_time cs (full x) occs sites)) psi x.
Proof.
move=> full psi Hu Hd Hc Hns Hp; apply: C89_contract_suffices => // y sites occs Hde Hvy Hny.
by apply: slater_contract => //; case: Hde => Hsz _ _ _ _; split; rewrite ?Hny ?Hsz.
Qed.

(* SlaterqGPS *)
Theorem C89_slater_qgps expf nu nd blocked constant_time (cs : seq (component F (nu + nd))) (chi : seq F) eps M s :
  let full := slater_qgps_full expf L blocked constant_time cs chi eps M s in
  let fast := slater_qgps_fast expf L constant_time cs chi eps M s in
  let psi y := (full y).1 in
  (if sy_perms s is Some ps then all (fun p => perm_eq p (iota 0 L)) ps else true) ->
  wf_comps L blocked cs -> n_spin Up x = nu -> n_spin Dn x = nd -> nonsingular L cs x ->
  QGPS_Props.nonvanishing eps M s x -> psi x != 0 ->
  same_energies (fun occs sites => (fast (full x).2 occs sites).1) psi x.
Proof.
move=> full fast psi Hs Hc Hu Hd Hns Hn Hp; apply: C89_contract_suffices => // y sites occs Hde Hvy Hny.
rewrite /psi /fast /full /slater_qgps_fast /slater_qgps_full /slater_qgps; cbn [fst snd].
rewrite (QGPS_Props.C32_qgps_fast_update Hs Hx Hn Hde) (@slater_contract _ _ blocked _ _ _ y) //.
by case: Hde => Hsz _ _ _ _; split; rewrite ?Hny ?Hsz.
Qed.

(* Backflow with the qGPS correction of the scripts *)
Theorem C89_backflow nu nd fm restricted syms orbitals M rows cols (eps : nat -> nat -> nat -> F) :
  let full := bf_full L nu nd fm restricted syms orbitals (qcorr_full M rows cols eps) in
  let fast := bf_fast L nu nd fm restricted syms orbitals (qcorr_fast M rows cols eps) in
  let psi y := (full y).1 in
  factors_ok M rows cols eps x -> psi x != 0 ->
  same_energies (fun occs sites => (fast (full x).2 occs sites).1) psi x.
Proof.
move=> full fast psi Hn Hp; apply: C89_contract_suffices => // y sites occs Hd _ _.
rewrite /psi /full /fast.
have H := @C74_backflow_update_chain F L nu nd fm restricted syms orbitals M rows cols eps x [:: (y, (sites, occs))] (And3 Hn Hd I).
exact: (congr1 fst H).
Qed.

(* CPDBackflow, Hubbard energy only (see below for the others) *)
Theorem C89_cpd_hubbard_partial M nu nd fm restricted (eps : nat -> nat -> nat -> nat -> nat -> F) U edges t :
  let full := cpd_full M L nu nd fm restricted eps None in
  let fast := cpd_fast M L nu nd fm restricted eps in
  let psi y := (full y).1 in
  CPD_Props.nonvanishing eps x -> psi x != 0 -> all (fun e => [&& e.1 < size x, e.2 < size x & e.1 != e.2])%N edges ->
  hub_otf U edges t (Some (fun occs sites => (fast (full x).2 occs sites).1)) psi x = hub_otf U edges t None psi x.
Proof.
move=> full fast psi Hn Hp He; apply: C89_hubbard => // y sites occs Hd Hu _ _.
have Hc : CPD_Props.changes_once x y sites.
  move=> j Hj; have [_ _ _ _ H] := Hd; apply: H.
  by apply: contra Hj => Hj; rewrite (count_uniq_mem _ Hu) Hj.
by have [] := CPD_Props.C35_cpd_fast_update_partial M L nu nd fm restricted Hd Hc Hn.
Qed.
End Models.

(* qGPS on spins, Heisenberg-type Hamiltonians *)
Theorem C89_heisenberg (F : fieldType) (f : seq int -> seq nat -> F) psi x ops acting :
  exchange_fast_ok (Some f) psi x -> all is_spin x -> psi x != 0 -> size ops = size acting ->
  all (fun ij => [&& (ij.1 < size x)%N, (ij.2 < size x)%N & ij.1 != ij.2]) acting ->
  (forall k, (k < size ops)%N -> heisenberg_like (nth (fun _ _ => 0) ops k)) ->
  j1j2_local_en (Some f) psi ops acting x = j1j2_local_en None psi ops acting x.
Proof.
move=> Hf Hx Hp Hs Ha Ho; apply: (mulIf Hp).
by rewrite (C15_heisenberg_on_the_fly Hf Hx Hp Hs Ha Ho) (@C15_heisenberg_on_the_fly F None psi x I Hx Hp ops acting Hs Ha Ho).
Qed.

Theorem C89_heisenberg_qgps (F : fieldType) (out : seq (seq F) -> F) eps M s (x : seq int) ops acting :
  let ind := map state_to_local_index in
  let psi y := out (ca_prod (qgps_full eps M s (ind y))) in
  let f occs sites := out (ca_prod (qgps_fast eps M s (qgps_full eps M s (ind x)) (ind occs) sites)) in
  (if sy_perms s is Some ps then all (fun p => perm_eq p (iota 0 (size x))) ps else true) ->
  QGPS_Props.nonvanishing eps M s (ind x) -> all is_spin x -> psi x != 0 -> size ops = size acting ->
  all (fun ij => [&& (ij.1 < size x)%N, (ij.2 < size x)%N & ij.1 != ij.2]) acting ->
  (forall k, (k < size ops)%N -> heisenberg_like (nth (fun _ _ => 0) ops k)) ->
  j1j2_local_en (Some f) psi ops acting x = j1j2_local_en None psi ops acting x.
Proof.
move=> ind psi f Hs Hn Hx Hp; apply: C89_heisenberg => // i j Hi Hj ij _; rewrite /f /psi.
have E k y v : ind (set_nth 0 y k v) = set_nth 0%N (ind y) k (state_to_local_index v).
  elim: y k => [|a y IH] [|k] //=; last by rewrite IH.
  by congr (_ :: _); elim: k => //= k ->.
by rewrite (@QGPS_Props.C32_qgps_fast_update F eps M (size x) s _ (ind (set_nth 0 (set_nth 0 x i (nth 0 x j)) j (nth 0 x i)))) ?size_map //
  !E; apply: denotes_two; rewrite ?size_map.
Qed.

(* False for CPDBackflow with the ab-initio energies: the double excitation of the electrons of
   sites 0 and 1 to site 2 lists site 2 twice, and the cached update multiplies its new factor
   twice (C35_repeated_site_refuted). *)
Section Explicit.
Variable eps : nat -> nat -> nat -> nat -> nat -> rat.
Variable x : seq nat.
Let full := cpd_full 1 3 1 1 true true eps None.
(* 1 x 1 determinants *)
Let det1 (orb : nat -> nat -> rat) (n : seq nat) : rat :=
  orb (nth 0%N (nonzero_sized 1 (fun k => has (nth 0%N n k) 1) (size n)) 0) 0%N
  * orb (nth 0%N (nonzero_sized 1 (fun k => has (nth 0%N n k) 2) (size n)) 0) 0%N.
Let orb1 (prods : nat -> nat -> nat -> rat) (a b : nat) := prods a b 0%N.
Definition psi1 y : rat := det1 (orb1 (fun a b m => foldr (fun k v => eps a b (nth 0%N y k) m k * v) 1 (iota 0 (size y)))) y.
Definition f1 occs sites : rat :=
  let n := cpd_update_config x sites occs in
  let pr a b m l := foldr (fun q v => eps a b q.1 m q.2 * v) 1 (zip l sites) in
  det1 (orb1 (fun a b m => foldr (fun k v => eps a b (nth 0%N x k) m k * v) 1 (iota 0 (size x))
        / pr a b m [seq nth 0%N x i | i <- sites] * pr a b m [seq nth 0%N n i | i <- sites])) n.
Lemma prodE a b m y : \prod_(k < size y) eps a b (nth 0%N y k) m k = foldr (fun k v => eps a b (nth 0%N y k) m k * v) 1 (iota 0 (size y)).
Proof. by rewrite -(big_mkord xpredT (fun k => eps a b (nth 0%N y k) m k)) /index_iota subn0; elim: (iota 0 _) => [|k l IH]; rewrite ?big_nil ?big_cons ?IH. Qed.
Lemma psi1E : (fun y => (full y).1) = psi1.
Proof.
apply: functional_extensionality => y; rewrite /full /cpd_full /cpd_det /= !det_mx11 !mxE /psi1 /det1 /orb1.
by rewrite /cpd_orbitals !big_ord_recl !big_ord0 !addr0 /cpd_site_prod !prodE.
Qed.
Lemma f1E : (fun occs sites => (cpd_fast 1 3 1 1 true true eps (full x).2 occs sites).1) = f1.
Proof.
apply: functional_extensionality => occs; apply: functional_extensionality => sites.
rewrite /cpd_fast /cpd_det /= !det_mx11 !mxE /f1 /det1 /orb1 /cpd_orbitals !big_ord_recl !big_ord0 !addr0.
have E a b m l : \prod_(q <- zip l sites) eps a b q.1 m q.2 = foldr (fun q v => eps a b q.1 m q.2 * v) 1 (zip l sites).
  by elim: (zip l sites) => [|k r IH]; rewrite ?big_nil ?big_cons ?IH.
by rewrite /cpd_with_cache !E /full /cpd_full /cpd_site_prod; cbn [cp_prods cp_config snd]; rewrite !prodE.
Qed.
End Explicit.
Theorem C89_cpd_ab_initio_refuted : exists (F : fieldType) M L nu nd eps (x : seq nat) half t eri,
  let full := cpd_full (F := F) M L nu nd true true eps None in
  let psi y := (full y).1 in
  let f occs sites := (cpd_fast M L nu nd true true eps (full x).2 occs sites).1 in
  [/\ valid x /\ size x = L, n_spin Up x = nu /\ n_spin Dn x = nd, CPD_Props.nonvanishing eps x /\ psi x != 0,
      half + half = 1 /\ forall p q r s, eri p q r s = eri r s p q &
      ab_otf half (nu, nd) t eri (Some f) psi x <> ab_otf half (nu, nd) t eri None psi x].
Proof.
pose eps0 (a b o m k : nat) : rat := if o == 3%N then 2%:R else 1.
pose eri0 (p q r s : nat) : rat := ((p, q, r, s) \in [:: (0, 2, 1, 2); (1, 2, 0, 2)]%N)%:R.
exists rat_fieldType, 1%N, 3%N, 1%N, 1%N, eps0, [:: 1; 2; 0]%N, (2%:R^-1), (fun _ _ => 0), eri0.
move=> full psi f.
have Hp : psi [:: 1; 2; 0]%N != 0 by have -> : psi = psi1 eps0 by exact: psi1E.
rewrite /psi /f psi1E f1E; split=> //.
- split; first by move=> a b m k _; rewrite /eps0; case: ifP.
  exact: Hp.
- split=> // p q r s; rewrite /eri0 !inE !xpair_eqE; congr (nat_of_bool _)%:R.
  by rewrite -!andbA; do ![case: (_ == _) => //=].
by apply/eqP; rewrite /ab_otf /otf_ud /otf_two /otf_diag /otf_one_term /otf_value !unlock; vm_compute.
Qed.

Print Assumptions C89_hubbard. Print Assumptions C89_contract_suffices. Print Assumptions C89_qgps.
Print Assumptions C89_plaquette. Print Assumptions C89_arfull. Print Assumptions C89_slater.
Print Assumptions C89_slater_qgps. Print Assumptions C89_backflow. Print Assumptions C89_cpd_hubbard_partial.
Print Assumptions C89_heisenberg. Print Assumptions C89_heisenberg_qgps. Print Assumptions C89_cpd_ab_initio_refuted.

(* one electron of each spin on two sites, two products, integrals t_pq = 1, (pq|rs) = p + q + r + s: the
   energy from the cache of x *)
Example C89_example :
  let eps (o m i : nat) : rat := (o + 2 * m * i + 1)%:R in
  let s := SymSet None false in
  let x := [:: 1; 2]%N in
  let out (l : seq (seq rat)) := foldr +%R 0 (map (foldr +%R 0) l) in
  let psi y := out (ca_prod (qgps_full eps 2 s y)) in
  let f occs sites := out (ca_prod (qgps_fast eps 2 s (qgps_full eps 2 s x) occs sites)) in
  [/\ valid x, psi x = 16%:R &
      ab_otf (2%:R^-1) (1%N, 1%N) (fun _ _ => 1) (fun p q r s => (p + q + r + s)%:R) (Some f) psi x = 18%:R].
Proof.
move=> eps s x out psi f.
have E : psi = fun y => out [:: [seq foldr (fun k v => eps (nth 0%N y k) m k * v) 1 (iota 0 (size y)) | m <- [:: 0; 1]%N]].
  apply: functional_extensionality => y; rewrite /psi /qgps_full /get_site_prod /sym_copies /site_prod /=.
  by rewrite !(prodE (fun _ _ => eps) 0%N 0%N).
have Hp : psi x = 16%:R by rewrite E.
split=> //.
have H : same_energies f psi x.
  apply: (@C89_qgps _ 2) => //; last by rewrite -/(psi x) Hp.
  by move=> c m i; rewrite inE => /eqP -> _ _; rewrite /eps addn1 Num.Theory.pnatr_eq0.
have {}H : forall half t eri, ab_otf half (1, 1)%N t eri (Some f) psi x = ab_otf half (1, 1)%N t eri None psi x by case: H.
rewrite H {H Hp}; clearbody psi; rewrite E /ab_otf /otf_ud /otf_two /otf_diag /otf_one_term /otf_value !unlock; vm_compute; by [].
Qed.
