(* Examples and refutations for C80 to C82. *)
From Coq Require Import Reals Lra.
From Verif Require Import Base Fld Numq Rstruct Sup_Model Sup_Fit_Model Sup_Ev_Alg Sup_RVM_Model Sup_RVM_Core Sup_RVM_Ev Sup_RVM_Marg Sup_RVM_Step Sup_RVM_Props.
Import Num.Theory Order.TTheory.
Local Open Scope ring_scope.

(* --- the contracts are met, with both factorisations in use *)
Definition chol1 m (A : 'M[RR]_m) : option 'M[RR]_m :=
  if [forall k, forall l, (k != l) ==> (A k l == 0)] && [forall k, 0 < A k k]
  then Some (diag_mx (\row_k (sqrt (A k k) : RR))) else None.
Lemma chol1_ok : chol_ok chol1.
Proof.
move=> m A L; rewrite /chol1; case: ifP => // /andP[/forallP H1 /forallP H2] [<-].
have sq k : (sqrt (A k k) : RR) * sqrt (A k k) = A k k by apply: sqrt_sqrt; apply/RleP; rewrite ltW.
split; first exact: diag_mx_is_trig.
  by move=> k; rewrite !mxE eqxx mulr1n; apply/RltP/sqrt_lt_R0/RltP.
rewrite tr_diag_mx mulmx_diag; apply/matrixP => k l; rewrite !mxE.
case: eqP => [<-|/eqP N]; first by rewrite mulr1n sq.
by rewrite mulr0n; have /forallP /(_ l) := H1 k; rewrite N => /eqP.
Qed.
Lemma invmx_ok : pinvh_ok (fun m (A : 'M[RR]_m) => invmx A).
Proof. by []. Qed.

Section Orth.
Variables (N n : nat) (p : 'I_N -> RR) (Phi : 'M[RR]_(N, n)) (t : 'cV[RR]_N).
Hypothesis p_gt0 : forall i, 0 < p i.
Lemma orth_S (act : pred 'I_n) alpha i : (forall j, act j -> 0 < alpha j) -> (forall j, act j -> gram p Phi i j = 0) ->
  quadf (invmx (Cov p Phi act alpha)) (col i Phi) = gram p Phi i i /\
  bilf (invmx (Cov p Phi act alpha)) (col i Phi) t = gvec p Phi t i 0.
Proof.
move=> Ha Ho; rewrite -[quadf _ _]/(bilf _ _ _) (bil_phi Phi p_gt0 Ha) (bil_t Phi p_gt0 t Ha).
have Z m (B : 'M[RR]_(_, m)) k : (gA p Phi act *m B) i k = 0.
  by rewrite mxE big1 // => l _; rewrite mxE Ho ?mul0r //; apply: (enum_valP l).
by rewrite !addE !oppE -!mulmxA !Z !subr0.
Qed.
End Orth.

Section Numbers.
Variable F : numFieldType.
Lemma n_S : 2%:R / 7%:R * 2%:R / (2%:R / 7%:R + 2%:R) = 2%:R * 8%:R^-1 :> F.
Proof. numq F. Qed.
Lemma n_Q : 2%:R / 7%:R * 4%:R / (2%:R / 7%:R + 2%:R) = 2%:R * 4%:R^-1 :> F.
Proof. numq F. Qed.
Lemma n_d : 1 / (1 ^+ 2 / 3%:R) - 1 / (2%:R / 7%:R / 2%:R) = - 4%:R :> F.
Proof. numq F. Qed.
Lemma n_1 : 1 + 8%:R^-1 * - 4%:R = 2%:R^-1 :> F.
Proof. numq F. Qed.
Lemma n_2 : 4%:R^-1 ^+ 2 / (8%:R^-1 + 1 / (- 4%:R)) = 2%:R^-1 - 1 :> F.
Proof. numq F. Qed.
Lemma n_v : 2%:R / 7%:R / (2%:R / 7%:R + 2%:R) = 8%:R^-1 :> F.
Proof. numq F. Qed.
Lemma n_w : 2%:R * (1 ^+ 2 / 3%:R) / (2%:R * (1 ^+ 2 / 3%:R) + 2%:R) = 4%:R^-1 :> F.
Proof. numq F. Qed.
Lemma n_u : 4%:R ^+ 2 / (2%:R / 7%:R + 2%:R) = 7%:R :> F.
Proof. numq F. Qed.
Lemma n_z : 4%:R ^+ 2 / (2%:R * (1 ^+ 2 / 3%:R) + 2%:R) = 6%:R :> F.
Proof. numq F. Qed.
End Numbers.

(* --- complex_expand: one data point with K = 1 and log amplitude 2.  Feature 0 has the best
   precision 2/7; the step chooses 2/3 *)
Definition x_row : crow RR 1 := CRow (const_mx 1) 0 1 2%:R 0 1.
Definition x_ranks := [:: [:: x_row]].
Definition x0 : 'I_(1 + 1) := lshift 1 ord0.
Definition x1 : 'I_(1 + 1) := rshift 1 ord0.
Definition x_alpha (j : 'I_(1 + 1)) : RR := if j == x0 then 2%:R / 7%:R else 10%:R.
Notation xK := (cKtK x_ranks).
Lemma x_cases (j : 'I_(1 + 1)) : j = x0 \/ j = x1.
Proof. by case: (splitP j) => k; rewrite [k]ord1 => E; [left | right]; apply: val_inj. Qed.
Lemma x_re : \sum_(rk <- x_ranks) \sum_(r <- rk) cs r * (ckr r 0 0 * ckr r 0 0 + cki r 0 0 * cki r 0 0) = 1 :> RR.
Proof. by rewrite !big_cons !big_nil /= !mxE !mulr0 !addr0 !mulr1. Qed.
Lemma x_im : \sum_(rk <- x_ranks) \sum_(r <- rk) cs r * (ckr r 0 0 * cki r 0 0 - cki r 0 0 * ckr r 0 0) = 0 :> RR.
Proof. by rewrite !big_cons !big_nil /= !mxE !(mulr0, mul0r, subr0, addr0). Qed.
Lemma xK00 : xK x0 x0 = 1. Proof. by rewrite /cKtK block_mxEul mxE x_re. Qed.
Lemma xK11 : xK x1 x1 = 1. Proof. by rewrite /cKtK block_mxEdr mxE x_re. Qed.
Lemma xK01 : xK x0 x1 = 0. Proof. by rewrite /cKtK block_mxEur mxE mxE x_im oppr0. Qed.
Lemma xK10 : xK x1 x0 = 0. Proof. by rewrite /cKtK block_mxEdl mxE x_im. Qed.
Lemma xy0 : cy x_ranks x0 0 = 2%:R.
Proof. by rewrite /cy col_mxEu mxE !big_cons !big_nil /= !mxE !(mulr0, mul0r, addr0, mul1r). Qed.
Lemma xy1 : cy x_ranks x1 0 = 0.
Proof. by rewrite /cy col_mxEd mxE !big_cons !big_nil /= !mxE !(mulr0, mul0r, addr0, mul1r, subr0). Qed.

Section Witness.
Variables (chol : forall m, 'M[RR]_m -> option 'M[RR]_m) (pinvh : forall m, 'M[RR]_m -> 'M[RR]_m).
Hypotheses (Hchol : chol_ok chol) (Hpinvh : pinvh_ok pinvh).
Notation act := (act_of 10%:R 0 xK).
Notation dat := (flatten x_ranks).
Lemma x_pos : all (fun r => 0 < cs r) dat. Proof. by rewrite /= ltr01. Qed.
Notation xp := (cp_gt0 ltr01 x_pos).
Notation xG := (cHG 1 x_ranks).
Notation xY := (cHy 1 x_ranks).
Lemma x_act alpha j : act alpha j = (alpha j < 10%:R).
Proof.
rewrite /act_of /active /valid_kern; have -> : `|xK j j| = 1.
  by case: (x_cases j) => ->; rewrite ?xK00 ?xK11 normr1.
by rewrite ltr01 andbT.
Qed.
Definition xpos (alpha : 'I_(1 + 1) -> RR) := forall j, act alpha j -> 0 < alpha j.
Lemma x_orth alpha i j : predD1 (act alpha) i j -> gram (@cprec _ 1 dat) (cdesign dat) i j = 0.
Proof.
move=> /andP[N _]; rewrite -xG mxE; apply/eqP; rewrite mulf_eq0; apply/orP; right; move: N.
by case: (x_cases i) => ->; case: (x_cases j) => ->; rewrite ?eqxx ?xK01 ?xK10.
Qed.
Lemma x_sq alpha i : xpos alpha ->
  sl (@cprec _ 1 dat) (cdesign dat) 10%:R 0 xK alpha i = 2%:R /\
  ql (@cprec _ 1 dat) (cdesign dat) (ctargets dat) 10%:R 0 xK alpha i = if i == x0 then 4%:R else 0.
Proof.
move=> Ha; have Hp j : predD1 (act alpha) i j -> 0 < alpha j by case/andP => _ /Ha.
have [E1 E2] := orth_S (ctargets dat) xp Hp (@x_orth alpha i).
rewrite /sl /ql /Cloo E1 E2 -xY -xG !scaE mulr1; split.
  by case: (x_cases i) => ->; rewrite ?xK00 ?xK11 mulr1.
by case: (x_cases i) => ->; rewrite ?xy0 ?xy1 ?mulr0 //= -natrM.
Qed.
Notation S := (S_of chol pinvh true 10%:R 0 1 xK).
Notation Q := (Q_of chol pinvh true 10%:R 0 1 xK (cy x_ranks)).
Notation th := (theta chol pinvh true 10%:R 0 1 xK (cy x_ranks)).
Notation sx := (s_of chol pinvh true 10%:R 0 1 xK).
Notation qx := (q_of chol pinvh true 10%:R 0 1 xK (cy x_ranks)).
Lemma x_good : xpos x_alpha.
Proof. by move=> j _; rewrite /x_alpha; case: eqP => _; rewrite ?divr_gt0 ?ltr0n. Qed.
Lemma x_a0 : act x_alpha x0.
Proof. by rewrite x_act /x_alpha eqxx ltr_pdivr_mulr ?ltr0n // -natrM ltr_nat. Qed.
Lemma x_a1 : act x_alpha x1 = false.
Proof. by rewrite x_act /x_alpha /= ltxx. Qed.
Let two0 : (2%:R : RR) != 0. Proof. by rewrite pnatr_eq0. Qed.
Lemma x_s i : sx x_alpha i = 1.
Proof.
apply: (mulfI two0); rewrite mulr1.
by have := s_loo Hchol Hpinvh xp xG ltr01 x_good i; rewrite (proj1 (x_sq i x_good)).
Qed.
Lemma x_q i : qx x_alpha i = if i == x0 then 2%:R else 0.
Proof.
apply: (mulfI two0); have := q_loo Hchol Hpinvh xp xG xY ltr01 x_good i; rewrite (proj2 (x_sq i x_good)) => ->.
by case: eqP; rewrite ?mulr0 // -natrM.
Qed.
Lemma x_th0 : th x_alpha x0 = 3%:R.
Proof. rewrite /theta x_s x_q eqxx gtr0_norm ?ltr0n //; numq RR. Qed.
Lemma x_th1 : th x_alpha x1 = - 1.
Proof. by rewrite /theta x_s x_q /= normr0 expr0n sub0r. Qed.
Lemma x_S : S x_alpha x0 = 8%:R^-1.
Proof.
apply: (mulfI two0); rewrite -n_S; have := Sc_act Hchol Hpinvh xp xG ltr01 x_good x_a0.
by rewrite (proj1 (x_sq x0 x_good)) /x_alpha eqxx.
Qed.
Lemma x_Q : Q x_alpha x0 = 4%:R^-1.
Proof.
apply: (mulfI two0); rewrite -n_Q; have := Qc_act Hchol Hpinvh xp xG xY ltr01 x_good x_a0.
by rewrite (proj1 (x_sq x0 x_good)) (proj2 (x_sq x0 x_good)) /x_alpha eqxx.
Qed.
Lemma ln2_lt1 : rln 2%:R < 1.
Proof.
have h : (2%:R : RR) != 1 by numq RR.
have := rln_lt_pred (ltr0Sn RR 1) h; suff -> : 2%:R - 1 = 1 :> RR by [].
numq RR.
Qed.
Lemma ln2_gt : 2%:R^-1 < rln 2%:R.
Proof.
have h0 : 0 < 2%:R^-1 :> RR by numq RR.
have h1 : (2%:R^-1 : RR) != 1 by numq RR.
have := rln_lt_pred h0 h1; rewrite rlnV ?ltr0n //; suff -> : 2%:R^-1 - 1 = - 2%:R^-1 :> RR by rewrite ltr_opp2.
numq RR.
Qed.
Lemma x_dL0 : deltaL rln chol pinvh true 10%:R 0 1 xK (cy x_ranks) x_alpha x0 = Some (rln 2%:R - 2%:R^-1).
Proof.
rewrite /deltaL /al_eff x_th0 ltr0n x_a0 x_s x_S x_Q.
have -> : x_alpha x0 = 2%:R / 7%:R by rewrite /x_alpha eqxx.
rewrite n_d n_1 leNgt invr_gt0 ltr0n /= orbF.
rewrite expr1n mul1r invr_eq0 !mulf_eq0 !invr_eq0 !pnatr_eq0 /= oppr_eq0 pnatr_eq0 /=.
rewrite gtr0_norm ?invr_gt0 ?ltr0n // n_2 rlnV ?ltr0n // opprK; congr Some.
have -> : 2%:R^-1 - 1 = - 2%:R^-1 :> RR by rewrite {2}(splitr 1) div1r opprD addrA subrr sub0r.
exact: addrC.
Qed.
Lemma x_dL1 : deltaL rln chol pinvh true 10%:R 0 1 xK (cy x_ranks) x_alpha x1 = Some 0.
Proof. by rewrite /deltaL x_th1 x_a1 ltr_oppr oppr0 ltr10. Qed.
Lemma x_argmax i0 : argmax i0 (deltaL rln chol pinvh true 10%:R 0 1 xK (cy x_ranks) x_alpha) = x0.
Proof.
have := argmax_max (deltaL rln chol pinvh true 10%:R 0 1 xK (cy x_ranks) x_alpha) i0 x0.
set a := argmax _ _; have [->|->//] : a = x1 \/ a = x0 by case: a => [[|[|]]] // h; [right|left]; apply/val_inj.
by rewrite x_dL0 x_dL1 /= subr_gt0 ln2_gt.
Qed.
Lemma x_step i0 : update_precisions rln chol pinvh true 10%:R 0 1 xK (cy x_ranks) i0 x_alpha = upd x_alpha x0 (2%:R * (1 ^+ 2 / 3%:R)).
Proof. by rewrite /update_precisions x_argmax x_th0 ltr0n x_s. Qed.
Lemma x_drop i0 :
  cmodel_evidence 1 dat (fun j => update_precisions rln chol pinvh true 10%:R 0 1 xK (cy x_ranks) i0 x_alpha j < 10%:R)
    (update_precisions rln chol pinvh true 10%:R 0 1 xK (cy x_ranks) i0 x_alpha) <
  cmodel_evidence 1 dat (fun j => x_alpha j < 10%:R) x_alpha.
Proof.
have Ev alpha : cmodel_evidence 1 dat (fun j => alpha j < 10%:R) alpha =
    evidence (@cprec _ 1 dat) (cdesign dat) (ctargets dat) 10%:R 0 xK alpha.
  by rewrite /cmodel_evidence /evidence; congr gauss_ln; apply: eq_Cov => // j; rewrite x_act.
have V i : 0 < `|xK i i| by case: (x_cases i) => ->; rewrite ?xK00 ?xK11 normr1 ltr01.
rewrite !Ev x_step (ev_upd (cdesign dat) (ctargets dat) xp V x0 x_good); last by numq RR.
rewrite (ev_loo (cdesign dat) (ctargets dat) xp x0 x_good) /cur x_a0 ltr_add2l ltr_pmul2r ?invr_gt0 ?ltr0n //.
have -> : (2%:R * (1 ^+ 2 / 3%:R) < 10%:R :> RR) by numq RR.
have [-> ->] := x_sq x0 x_good; rewrite eqxx /gain.
have -> : x_alpha x0 = 2%:R / 7%:R by rewrite /x_alpha eqxx.
rewrite n_v n_w n_u n_z !rlnV ?ltr0n //.
have -> : (8%:R : RR) = 4%:R * 2%:R by numq RR.
rewrite rlnM ?ltr0n // opprD -addrA ltr_add2l addrC ltr_subr_addr.
apply: lt_le_trans (_ : 6%:R + 1 <= _); first by rewrite ltr_add2l ln2_lt1.
by numq RR.
Qed.
End Witness.

(* the step of update_precisions for complex parameters can lower the evidence: the precision it
   chooses is the best one for half of s and q (C80_expand) *)
Theorem C81_expand_refuted : exists (ranks : seq (seq (crow RR 1))) (alpha : 'I_(1 + 1) -> RR) (acut : RR),
  let dat := flatten ranks in
  let ev alpha := cmodel_evidence 1 dat (fun j => alpha j < acut) alpha in
  [/\ all (fun r => (0 < cs r) && (cw r == 1)) dat, (forall i, 0 < `|cKtK ranks i i|), (forall i, 0 < alpha i) &
  forall chol pinvh i0, chol_ok chol -> pinvh_ok pinvh ->
    let alpha' := update_precisions rln chol pinvh true acut 0 1 (cKtK ranks) (cy ranks) i0 alpha in
    [/\ (forall i, 0 < alpha' i), (forall i, (alpha' i < acut) = (alpha i < acut)), alpha' x0 != alpha x0 &
        ev alpha' < ev alpha]].
Proof.
exists x_ranks, x_alpha, 10%:R => dat ev; split.
- by rewrite /= ltr01 eqxx.
- by move=> i; case: (x_cases i) => ->; rewrite ?xK00 ?xK11 normr1 ltr01.
- by move=> i; rewrite /x_alpha; case: eqP => _; [rewrite divr_gt0 ?ltr0n | rewrite ltr0n].
- move=> chol pinvh i0 H1 H2; rewrite (x_step H1 H2 i0) => alpha'.
  have Ea i : alpha' i = if i == x0 then 2%:R * (1 ^+ 2 / 3%:R) else x_alpha i by [].
  split.
  + by move=> i; rewrite Ea /x_alpha; case: eqP => _; [numq RR | rewrite ltr0n].
  + move=> i; rewrite Ea /x_alpha; case: eqP => // _.
    have a1 : 2%:R * (1 ^+ 2 / 3%:R) < 10%:R :> RR by numq RR.
    have a2 : 2%:R / 7%:R < 10%:R :> RR by numq RR.
    by rewrite a1 a2.
  + by rewrite Ea /x_alpha eqxx; numq RR.
  + by have := x_drop H1 H2 i0; rewrite (x_step H1 H2 i0).
Qed.
