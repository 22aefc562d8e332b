From Verif Require Import Base Fock_Spec Fock_Proofs Occ_Model Occ_Spec Hopping_Model Hopping_Proofs.
From Verif Require Import Buffer_Proofs Hubbard_Model Hubbard_Proofs Mol_Fock Mol_Row.
From Verif Require Import AbInitio_Model AbInitio_Proofs AbInitio_Row AbInitioOtf_Model AbInitioOtf_Proofs AbInitioOtf_Energy.
From Verif Require Import Sparse_Model Sparse_Csr Sparse_Fock Update_Proto Fast_Contract.
Local Open Scope ring_scope.

Lemma update_configE x site sites conf s create : size conf = size sites ->
  all (fun k => (k < size x)%N) (rcons sites site) -> dup_ok x conf sites ->
  let r := update_config x site sites conf s create in
  let y := apply_updates x conf sites in
  [/\ r.2 = rcons sites site, size r.1.1 = size r.2,
      apply_updates x r.1.1 r.2 = add_at y site (if create then s%:Z else - s%:Z),
      r.1.2 = (if create then ~~ has (nth 0%N y site) s else has (nth 0%N y site) s) & dup_ok x r.1.1 r.2].
Proof.
move=> Hs Hall Hd r y.
have [E2 S A D] := updated_occ (if create then s%:Z else - s%:Z) Hs Hall Hd.
have Ho : nth 0%N (rcons conf (nth 0%N x site)) (nth 0%N (nonzero_sized 1
    (fun k => nth 0%N (rcons sites site) k == site) (size (rcons sites site))) 0) = nth 0%N y site.
  rewrite first_index; last by rewrite mem_rcons inE eqxx.
  rewrite /y nth_apply_updates // -[rcons sites site]cats1 index_cat nth_rcons; case: (boolP (site \in sites)) => H.
    by rewrite Hs index_mem H.
  by rewrite /= eqxx addn0 Hs ltnn eqxx.
by split=> //; rewrite /r /update_config /= Ho.
Qed.

(* electrons of a species after one ladder operator *)
Lemma num_setocc s t k v g L : on_sites L g -> (k < L)%N ->
  (num (species t (setocc s k v g)) + (t == s) * occ s k g = num (species t g) + (t == s) * v)%N.
Proof.
move=> [L1 L2] Hk; case: s; case: t => /=; rewrite ?mul0n ?addn0 // ?mul1n.
  by rewrite num_set // L1.
by rewrite num_set // L2.
Qed.
Lemma n_spin_fock t y : n_spin t y = num (species t (fock_of y)).
Proof. by case: t; rewrite /n_spin /num /= count_map. Qed.

Section Sp.
Variables (F : fieldType).
Add Ring RF : (r_theory (GRing.Field.comRingType F)).
Variables (fast : option (seq nat -> seq nat -> F)) (psi : cfg -> F) (x : cfg).
Hypothesis Hf : fast_ok fast psi x.
Hypothesis Hv : valid x.
Hypothesis Hpsi : psi x != 0.
Let L := size x.
Let f := fock_of x.
Notation cum s := (cumcount (spin_int s) x).
Let phi : fock -> F := fun g => psi (cfg_of g).
Let on : on_sites L f := on_sites_fock x.

Definition base s := if s is Up then 0%N else num f.1.
Lemma cumE s k : (k < L)%N -> (nth 0 (cum s) k + base s = before s k f + occ s k f)%N.
Proof.
move=> Hk; rewrite nth_cumcount // num_take_succ occ_nth_species.
by case: s; [rewrite addn0|rewrite addnC addnA].
Qed.

Lemma quad_of s s' i a j b (y2 : cfg) :
  (a < L)%N -> (b < L)%N ->
  valid y2 -> size y2 = L -> fock_of y2 = setocc s' j false (setocc s i false f) ->
  occ s i f -> occ s' j (setocc s i false f) ->
  let y3 := add_at y2 b (sdelta s' true) in let y4 := add_at y3 a (sdelta s true) in
  quad phi f s s' i a j b
  = (if ~~ has (nth 0%N y3 a) (spin_int s) && ~~ has (nth 0%N y2 b) (spin_int s') then
      sgn F (before s i f + before s' j (setocc s i false f)
             + before s' b (fock_of y2) + before s a (fock_of y3)) * psi y4
     else 0)
  /\ (~~ has (nth 0%N y3 a) (spin_int s) && ~~ has (nth 0%N y2 b) (spin_int s') ->
     [/\ fock_of y3 = setocc s' b true (fock_of y2), ~~ occ s' b (fock_of y2) & ~~ occ s a (fock_of y3)]).
Proof.
move=> Ha Hb Hv2 S2 F2 Oi Oj y3 y4.
have HB : has (nth 0%N y2 b) (spin_int s') = occ s' b (fock_of y2).
  by rewrite has_has_spin ?valid_nth // occ_fock.
rewrite quadE Oi Oj -F2 HB [true && _]andTb [true && _]andTb.
case: (boolP (occ s' b (fock_of y2))) => Ob; rewrite ?andbF //.
have Hb2 : (b < size y2)%N by rewrite S2.
have [|F3 V3 S3] := add_at_fock (b := true) (s := s') Hv2 Hb2.
  by rewrite -occ_fock (negbTE Ob).
rewrite -/y3 in F3 V3 S3.
have HA : has (nth 0%N y3 a) (spin_int s) = occ s a (fock_of y3).
  by rewrite has_has_spin ?valid_nth // occ_fock.
rewrite HA -F3; case: (boolP (occ s a (fock_of y3))) => Oa //; rewrite !andbT; split; last by [].
have Ha3 : (a < size y3)%N by rewrite S3 S2.
have [|F4 V4 S4] := add_at_fock (b := true) (s := s) V3 Ha3.
  by rewrite -occ_fock (negbTE Oa).
by rewrite -F4 /phi cfg_ofK.
Qed.

Lemma sp_parityE p n : odd (absz p) = odd n -> sp_parity F p = sgn F n.
Proof.
rewrite /sp_parity /sgn => ->; rewrite -signr_odd.
by case: (odd n); rewrite ?expr0 ?expr1 //= mulr0n subr0.
Qed.

Lemma odd_absz_add (p q : int) : odd (absz (p + q)%R) = odd (absz p) (+) odd (absz q).
Proof. lia. Qed.
Lemma odd_absz_opp (p : int) : odd (absz (- p)%R) = odd (absz p).
Proof. lia. Qed.

Lemma olt_s s k l : olt s k s l = (k < l)%N. Proof. by case: s. Qed.

(* electrons before an empty site after two removals of the same species *)
Lemma site_same s i j k : (i < L)%N -> (j < L)%N -> (k < L)%N -> (i < j)%N ->
  occ s i f -> occ s j f -> ~~ occ s k (setocc s j false (setocc s i false f)) ->
  odd (nth 0%N (cum s) k) = odd (base s) (+) odd (before s k (setocc s j false (setocc s i false f)))
    (+) (j <= k)%N (+) (i <= k)%N.
Proof.
move=> Hi Hj Hk ij Oi Oj; rewrite !occ_setocc !eqxx /= => Ok.
have o1 : on_sites L (setocc s i false f) by apply: on_sites_setocc.
have := before_setocc s s false o1 Hk Hj; have := before_setocc s s false on Hk Hi.
have Ck := cumE s Hk; rewrite !olt_s occ_setocc eqxx /= Oi Oj.
have -> : (j == i) = false by apply/eqP; lia.
move: (before s k (setocc s j _ _)) (before s k (setocc s i _ _)) (before s k f) Ck Ok => B2 B1 B0.
have : (k == i) ==> occ s k f by apply/implyP => /eqP ->.
have : (k == j) ==> occ s k f by apply/implyP => /eqP ->.
move: (nth _ _ _) (base s) => c B.
by case: (ltngtP k i) => [H1|H1|H1]; case: (ltngtP k j) => [H2|H2|H2]; case: (occ s k f) => //=; lia.
Qed.

Lemma sgn_same s i a j b (y2 y3 : cfg) : (i < L)%N -> (a < L)%N -> (j < L)%N -> (b < L)%N -> (i < j)%N ->
  fock_of y2 = setocc s j false (setocc s i false f) -> fock_of y3 = setocc s b true (fock_of y2) ->
  occ s i f -> occ s j f -> ~~ occ s b (fock_of y2) -> ~~ occ s a (fock_of y3) ->
  let c k : int := (nth 0%N (cum s) k)%:Z in
  odd (absz (c i + c j - 2 + c a + c b - ((j <= a)%N%:Z + (i <= a)%N%:Z + (j <= b)%N%:Z + (i <= b)%N%:Z
                              - (b <= a)%N%:Z + (i < j)%N%:Z))%R)
  = odd (before s i f + before s j (setocc s i false f) + before s b (fock_of y2) + before s a (fock_of y3)).
Proof.
move=> Hi Ha Hj Hb ij F2 F3 Oi Oj; rewrite F3 F2 => Ob Oa c.
have o1 : on_sites L (setocc s i false f) by apply: on_sites_setocc.
have o2 : on_sites L (setocc s j false (setocc s i false f)) by apply: on_sites_setocc.
have Oa2 : ~~ occ s a (setocc s j false (setocc s i false f)) /\ a != b.
  by move: Oa; rewrite [occ s a (setocc s b _ _)]occ_setocc eqxx /=; case: (altP (a =P b)).
case: Oa2 => Oa2 ab.
have Pa := site_same Hi Hj Ha ij Oi Oj Oa2; have Pb := site_same Hi Hj Hb ij Oi Oj Ob.
have Ba : odd (before s a (setocc s b true (setocc s j false (setocc s i false f))))
  = odd (before s a (setocc s j false (setocc s i false f))) (+) (b <= a)%N.
  have -> : (b <= a)%N = (b < a)%N by rewrite [LHS]leq_eqVlt eq_sym (negbTE ab).
  have := before_setocc s s true o2 Ha Hb; rewrite (negbTE Ob) olt_s.
  by rewrite muln0 muln1 addn0 => ->; rewrite oddD oddb.
have Bj : odd (before s j f) = odd (before s j (setocc s i false f)) (+) true.
  have := before_setocc s s false on Hj Hi; rewrite Oi olt_s ij muln0 addn0 => <-.
  by rewrite oddD.
have Pi : odd (nth 0%N (cum s) i) = odd (base s) (+) odd (before s i f) (+) true.
  have := f_equal odd (cumE s Hi); rewrite !oddD Oi.
  by case: (odd (nth _ _ _)); case: (odd (base s)); case: (odd _).
have Pj : odd (nth 0%N (cum s) j) = odd (base s) (+) odd (before s j f) (+) true.
  have := f_equal odd (cumE s Hj); rewrite !oddD Oj.
  by case: (odd (nth _ _ _)); case: (odd (base s)); case: (odd _).
rewrite !oddD Ba /c !(odd_absz_add, odd_absz_opp) !absz_nat Pi Pj Pa Pb Bj ij.
have odd_b (t : bool) : odd t = t by case: t.
rewrite !odd_b.
move: (odd (before s i f)) (odd (before s j _)) (odd (base s)) (odd (before s a _)) (odd (before s b _)).
move: (j <= a)%N (i <= a)%N (j <= b)%N (i <= b)%N (b <= a)%N.
by do 10! case.
Qed.

Lemma site_one s i k : (i < L)%N -> (k < L)%N -> occ s i f -> ~~ occ s k (setocc s i false f) ->
  odd (nth 0%N (cum s) k) = odd (base s) (+) odd (before s k (setocc s i false f)) (+) (i <= k)%N.
Proof.
move=> Hi Hk Oi; rewrite occ_setocc eqxx /= => Ok.
have := before_setocc s s false on Hk Hi.
have Ck := cumE s Hk; rewrite !olt_s Oi.
move: (before s k (setocc s i _ _)) (before s k f) Ck Ok => B1 B0.
have : (k == i) ==> occ s k f by apply/implyP => /eqP ->.
move: (nth _ _ _) (base s) => c B.
by case: (ltngtP k i) => [H1|H1|H1]; case: (occ s k f) => //=; lia.
Qed.

Lemma sgn_ud i a j b (y2 y3 : cfg) : (i < L)%N -> (a < L)%N -> (j < L)%N -> (b < L)%N ->
  fock_of y2 = setocc Dn j false (setocc Up i false f) -> fock_of y3 = setocc Dn b true (fock_of y2) ->
  occ Up i f -> occ Dn j f -> ~~ occ Dn b (fock_of y2) -> ~~ occ Up a (fock_of y3) ->
  let cu k : int := (nth 0%N (cum Up) k)%:Z in
  let cd k : int := (nth 0%N (cum Dn) k)%:Z in
  odd (absz (cu i + cd j - 2 + cu a + cd b - ((i <= a)%N%:Z + (j <= b)%N%:Z))%R)
  = odd (before Up i f + before Dn j (setocc Up i false f) + before Dn b (fock_of y2) + before Up a (fock_of y3)).
Proof.
move=> Hi Ha Hj Hb F2 F3 Oi Oj; rewrite F3 F2 => Ob Oa cu cd.
have o1 : on_sites L (setocc Up i false f) by apply: on_sites_setocc.
have o2 : on_sites L (setocc Dn j false f) by apply: on_sites_setocc.
have C : setocc Dn j false (setocc Up i false f) = setocc Up i false (setocc Dn j false f) by rewrite setocc_comm.
have Oa' : ~~ occ Up a (setocc Up i false f) by move: Oa; rewrite !occ_setocc.
have Ob' : ~~ occ Dn b (setocc Dn j false f) by move: Ob; rewrite !occ_setocc.
have Pa := site_one Hi Ha Oi Oa'; have Pb := site_one Hj Hb Oj Ob'.
have Ba : before Up a (setocc Dn b true (setocc Dn j false (setocc Up i false f))) = before Up a (setocc Up i false f).
  by [].
have Bj : odd (before Dn j f) = odd (before Dn j (setocc Up i false f)) (+) true.
  by have := before_setocc Dn Up false on Hj Hi; rewrite Oi [olt _ _ _ _]/= muln0 addn0 => <-; rewrite oddD.
have Bb : odd (before Dn b (setocc Dn j false (setocc Up i false f)))
  = odd (before Dn b (setocc Dn j false f)) (+) true.
  have Oi2 : occ Up i (setocc Dn j false f) by rewrite occ_setocc.
  have := before_setocc Dn Up false o2 Hb Hi; rewrite Oi2 [olt _ _ _ _]/= muln0 addn0 => <-.
  by rewrite C oddD addbK.
have Pi : odd (nth 0%N (cum Up) i) = odd (base Up) (+) odd (before Up i f) (+) true.
  have := f_equal odd (cumE Up Hi); rewrite !oddD Oi.
  by case: (odd (nth _ _ _)); case: (odd (base _)); case: (odd _).
have Pj : odd (nth 0%N (cum Dn) j) = odd (base Dn) (+) odd (before Dn j f) (+) true.
  have := f_equal odd (cumE Dn Hj); rewrite !oddD Oj.
  by case: (odd (nth _ _ _)); case: (odd (base _)); case: (odd _).
have Q (q1 q2 q3 q4 : nat) : odd (q1 + q2 + q3 + q4) = odd q1 (+) odd q2 (+) odd q3 (+) odd q4 by rewrite !oddD.
rewrite Q Ba /cu /cd !(odd_absz_add, odd_absz_opp) !absz_nat Pi Pj Pa Pb Bj Bb.
have odd_b (t : bool) : odd t = t by case: t.
rewrite !odd_b [odd (base Up)]/=.
move: (odd (before Up i f)) (odd (before Dn j _)) (odd (base Dn)) (odd (before Up a _)) (odd (before Dn b _)).
move: (i <= a)%N (j <= b)%N.
by do 7! case.
Qed.

Definition body (s s' : spin) (sites occs : seq nat) (a b : nat) (p : int) (v : F) : F :=
  let '(occ_b, valid_b, sites_b) := update_config x b sites occs (spin_int s') true in
  let '(occ_a, valid_a, sites_a) := update_config x a sites_b occ_b (spin_int s) true in
  if valid_a && valid_b then v * amp_ratio fast psi x occ_a sites_a * sp_parity F p else 0.

Lemma body_ok s s' i a j b sites occs p v :
  (i < L)%N -> (a < L)%N -> (j < L)%N -> (b < L)%N ->
  occ s i f -> occ s' j (setocc s i false f) ->
  size occs = size sites -> all (fun k => (k < L)%N) sites -> dup_ok x occs sites ->
  valid (apply_updates x occs sites) ->
  fock_of (apply_updates x occs sites) = setocc s' j false (setocc s i false f) ->
  (forall y2 y3, fock_of y2 = setocc s' j false (setocc s i false f) ->
     fock_of y3 = setocc s' b true (fock_of y2) -> ~~ occ s' b (fock_of y2) -> ~~ occ s a (fock_of y3) ->
     odd (absz p) = odd (before s i f + before s' j (setocc s i false f)
                         + before s' b (fock_of y2) + before s a (fock_of y3))) ->
  body s s' sites occs a b p v * psi x = v * quad phi f s s' i a j b.
Proof.
move=> Hi Ha Hj Hb Oi Oj Hs Hall Hd V2 F2 Hp; rewrite /body.
have S2 : size (apply_updates x occs sites) = L by apply: size_apply_updates.
have Hall1 : all (fun k => (k < size x)%N) (rcons sites b) by rewrite all_rcons Hall Hb.
have := update_configE (spin_int s') true Hs Hall1 Hd.
case: (update_config x b sites occs (spin_int s') true) => -[occ_b valid_b] sites_b; cbv [fst snd] => -[E1 S1 A1 -> D1].
have Hall2 : all (fun k => (k < size x)%N) (rcons sites_b a) by rewrite E1 !all_rcons Hall Hb Ha.
have := update_configE (spin_int s) true S1 Hall2 D1.
case: (update_config x a sites_b occ_b (spin_int s) true) => -[occ_a valid_a] sites_a; cbv [fst snd] => -[E3 S3 A3 -> D3].
rewrite A1.
have [-> H] := quad_of Ha Hb V2 S2 F2 Oi Oj.
have Q t : sdelta t true = (spin_int t)%:Z by [].
rewrite !Q in H *; case: ifP H => [_ /(_ isT) [F3 Ob Oa]|_ _]; last by rewrite mul0r mulr0.
rewrite (sp_parityE (Hp _ _ F2 F3 Ob Oa)).
have CE : connected fast psi x occ_a sites_a
    = psi (add_at (add_at (apply_updates x occs sites) b (spin_int s')%:Z) a (spin_int s)%:Z).
  have Hb2 : (b < size (apply_updates x occs sites))%N by rewrite S2.
  have [|F3' V3 S3'] := add_at_fock (b := true) (s := s') V2 Hb2; first by rewrite -occ_fock (negbTE Ob).
  have Ha3 : (a < size (add_at (apply_updates x occs sites) b (sdelta s' true)))%N by rewrite S3' S2.
  have [|F4 V4 S4] := add_at_fock (b := true) (s := s) V3 Ha3; first by rewrite -occ_fock (negbTE Oa).
  rewrite connectedE ?A3 ?A1 //; first by rewrite E3.
  move=> u; rewrite !n_spin_fock F4 F3' F2.
  have o1 : on_sites L (setocc s i false f) by apply: on_sites_setocc.
  have o2 : on_sites L (setocc s' j false (setocc s i false f)) by apply: on_sites_setocc.
  have o3 : on_sites L (setocc s' b true (setocc s' j false (setocc s i false f))) by apply: on_sites_setocc.
  have N1 := num_setocc s u false on Hi; have N2 := num_setocc s' u false o1 Hj.
  have N3 := num_setocc s' u true o2 Hb; have N4 := num_setocc s u true o3 Ha.
  rewrite Oi in N1; rewrite Oj in N2; rewrite -F2 (negbTE Ob) F2 in N3; rewrite -F2 -F3' (negbTE Oa) F3' F2 in N4.
  by move: N1 N2 N3 N4; rewrite !muln0 !muln1 !addn0 => <- <- -> ->.
rewrite /amp_ratio CE.
move: (sgn _ _) (psi (add_at _ a _)) => g z.
by rewrite -[RHS]mulr1 -(divff Hpsi); mring (GRing.Field.comRingType F).
Qed.

Lemma occ_minus_add s i : add_at x i (- (spin_int s)%:Z) = set_nth 0%N x i (occ_minus x (spin_int s) i).
Proof. by []. Qed.

Lemma body_same s i a j b v : (i < L)%N -> (a < L)%N -> (j < L)%N -> (b < L)%N -> (i < j)%N ->
  occ s i f -> occ s j f ->
  let c k : int := (nth 0%N (cum s) k)%:Z in
  body s s [:: i; j] [:: occ_minus x (spin_int s) i; occ_minus x (spin_int s) j] a b
    (c i + c j - 2 + c a + c b - ((j <= a)%N%:Z + (i <= a)%N%:Z + (j <= b)%N%:Z + (i <= b)%N%:Z
                              - (b <= a)%N%:Z + (i < j)%N%:Z)) v * psi x
  = v * quad phi f s s i a j b.
Proof.
move=> Hi Ha Hj Hb ij Oi Oj c.
have nij : (i == j) = false by apply/eqP; lia.
have nji : (j == i) = false by rewrite eq_sym.
have Oj1 : occ s j (setocc s i false f) by rewrite occ_setocc eqxx nji.
have EU : apply_updates x [:: occ_minus x (spin_int s) i; occ_minus x (spin_int s) j] [:: i; j]
  = add_at (add_at x i (sdelta s false)) j (sdelta s false).
  by rewrite /apply_updates /= /add_at set_set_nth nji nth_set_nth /= nji.
have [F1 V1 S1] := @add_at_fock x i s false Hv Hi (etrans (esym (occ_fock s i x)) Oi).
have Hj1 : (j < size (add_at x i (sdelta s false)))%N by rewrite S1.
have [|F2 V2 S2] := @add_at_fock _ j s false V1 Hj1; first by rewrite -occ_fock F1.
apply: (body_ok _ Hi Ha Hj Hb Oi Oj1) => //.
- by rewrite /= Hi Hj.
- by move=> [|[|q]] //= _; rewrite nij.
- by rewrite EU.
- by rewrite EU F2 F1.
- by move=> y2 y3 G2 G3 Ob Oa; apply: sgn_same Hi Ha Hj Hb ij G2 G3 Oi Oj Ob Oa.
Qed.

Lemma body_ud i a j b v : (i < L)%N -> (a < L)%N -> (j < L)%N -> (b < L)%N ->
  occ Up i f -> occ Dn j f ->
  let cu k : int := (nth 0%N (cum Up) k)%:Z in
  let cd k : int := (nth 0%N (cum Dn) k)%:Z in
  let r := update_config x j [:: i] [:: occ_minus x 1 i] 2 false in
  body Up Dn r.2 r.1.1 a b (cu i + cd j - 2 + cu a + cd b - ((i <= a)%N%:Z + (j <= b)%N%:Z)) v * psi x
  = v * quad phi f Up Dn i a j b.
Proof.
move=> Hi Ha Hj Hb Oi Oj cu cd r.
have Oj1 : occ Dn j (setocc Up i false f) by rewrite occ_setocc.
have [F1 V1 S1] := @add_at_fock x i Up false Hv Hi (etrans (esym (occ_fock Up i x)) Oi).
have Hj1 : (j < size (add_at x i (sdelta Up false)))%N by rewrite S1.
have [|F2 V2 S2] := @add_at_fock _ j Dn false V1 Hj1; first by rewrite -occ_fock F1.
have D0 : dup_ok x [:: occ_minus x 1 i] [:: i] by case.
have [|R1 R2 R3 R4 R5] := @update_configE x j [:: i] [:: occ_minus x 1 i] 2 false erefl _ D0.
  by rewrite /= Hi Hj.
rewrite -/r in R1 R2 R3 R4 R5.
have EU : apply_updates x r.1.1 r.2 = add_at (add_at x i (sdelta Up false)) j (sdelta Dn false) by rewrite R3.
apply: (body_ok _ Hi Ha Hj Hb Oi Oj1) => //.
- by rewrite R1 /= Hi Hj.
- by rewrite EU.
- by rewrite EU F2 F1.
- by move=> y2 y3 G2 G3 Ob Oa; apply: sgn_ud Hi Ha Hj Hb G2 G3 Oi Oj Ob Oa.
Qed.
End Sp.
