(* The log-space fit step as an operation of the learner with its cached kernel matrix (Sup_Model):
   what C53 says holds after any history of calls.  Concrete instances of C53, and the effect of
   complex_expand on the regularisation. *)
From Verif Require Import Base Sup_Model Sup_Cache Sup_Fit_Model Sup_Fit_Proofs Sup_Fit_Props Sup_Fit_Expand.
Import Num.Theory Order.TTheory.
Local Open Scope ring_scope.

Section Step.
Variables (C : numFieldType) (conj : {rmorphism C -> C}) (big : C -> bool) (D M l : nat) (b : bool).
Hypothesis big_neq0 : forall x, big x -> x != 0.
Notation N := (M * D)%N.
Notation conf := (l.+1.-tuple 'I_D).
Notation feats := {ffun 'I_M * 'I_D -> C}.
Variable solve : forall m, 'M[C]_m -> 'cV[C]_m -> 'cV[C]_m.

(* one row per data point: features, weighting, log amplitude *)
Definition data_of (K : seq feats) (ws ts : seq C) : seq (feats * C * C) := zip (zip K ws) ts.

(* fit_step L1230-1260 on one rank, opt_alpha = opt_noise = False; [others]: the data of the other
   ranks, which enter through _mpi_sum *)
Definition logfit_step acut kcut beta (alpha : 'I_(N + b) -> C) (pm : 'rV[C]_N) (st : learner C D M l)
    (cs : seq (seq conf)) (ws ts : seq C) (r : {ffun 'I_M -> 'I_l.+1}) (others : seq (seq (feats * C * C))) :=
  if set_kernel_mat big (set_ref_sites st r) cs is Some st1 then
    let data := data_of (K_matrix st1) ws ts :: others in
    Some (write_ref_sites st1
           [ffun dw => fit_epsilon conj solve acut kcut beta alpha pm data (epsilon st1) r (dw.1, dw.2, r dw.2)])
  else None.

(* after any history the new epsilon is the one of C53 for the features computed from scratch *)
Theorem C53_step acut kcut beta (alpha : 'I_(N + b) -> C) pm e0 os cs ws ts r others :
  exists st st', [/\ run big (init_learner e0) os = Some st,
    logfit_step acut kcut beta alpha pm st cs ws ts r others = Some st' &
    epsilon st' = fit_epsilon conj solve acut kcut beta alpha pm
      (data_of (scratch (epsilon st) r cs) ws ts :: others) (epsilon st) r].
Proof.
have [st [st1 [H1 H2 H3]]] := C51_partial big_neq0 e0 os r cs.
have [st2 [H4 Hc]] : exists st, run big (init_learner e0) os = Some st /\ consistent st by apply: runP.
move: H4; rewrite H1 => -[Est]; subst st2.
have [st3 [[H5 H6 H7 H8] _]] := set_kernelP big_neq0 (st := set_ref_sites st r) cs Hc erefl.
move: H5; rewrite H2 => -[E3]; subst st3.
exists st; eexists; split; first by [].
  by rewrite /logfit_step H2.
rewrite /write_ref_sites H8 /= H3 H7 /=; apply/ffunP => -[[d w] j]; rewrite ffunE /= ffunE /=.
case: eqP => [->|/eqP Hj] //.
by rewrite /fit_epsilon /update_epsilon /write_eps ffunE /= (negPf Hj).
Qed.
End Step.

Lemma all_N1 (a c : 'I_(1 * 1 + false)) : a = c.
Proof. by apply: val_inj; case: a c => [[|a] Ha] [[|c] Hc]. Qed.
Lemma sum_N1 (R : zmodType) (F : 'I_(1 * 1 + false) -> R) : \sum_k F k = F (lshift false (mxvec_index ord0 ord0)).
Proof.
have E : (1 * 1 + false = 1)%N by [].
rewrite (reindex (cast_ord (esym E))) /=; last by exists (cast_ord E) => k _; [exact: cast_ordKV | exact: cast_ordK].
rewrite big_ord_recl big_ord0 addr0; congr F; exact: all_N1.
Qed.


(* the normal equation with one parameter *)
Lemma one_param (C : numFieldType) (conj : {rmorphism C -> C}) (l : nat)
  (conjK : involutive conj) (norm_ge0 : forall x, 0 <= x * conj x) (conj_ge0 : forall x, 0 <= x -> conj x = x)
  solve acut kcut beta alE alB pm (data : seq (seq ({ffun 'I_1 * 'I_1 -> C} * C * C))) :
  exact_solver solve -> 0 < beta -> 0 <= alE -> 0 <= alB ->
  all (all (fun x : {ffun 'I_1 * 'I_1 -> C} * C * C => 0 <= x.1.2)) data ->
  is_active conj acut kcut (fun _ _ => alE) data ord0 ord0 ->
  (beta * feature_norm conj data ord0 ord0 + alE) *
    wt conj false solve acut kcut beta (fun _ _ => alE) alB (fun _ _ => pm) data ord0 ord0 =
  beta * y_of conj (fit_rows false (pm_vec (fun _ _ => pm)) data) (lshift false (mxvec_index ord0 ord0)) 0.
Proof.
move=> Hs Hb HE HB Hd Ha; apply/eqP; rewrite -subr_eq0; apply/eqP.
rewrite -(@W_resid _ conj _ conjK norm_ge0 conj_ge0 beta (alpha_vec (fun _ _ => alE) alB)
  (fit_rows false (pm_vec (fun _ _ => pm)) data) Hb _ _ (fit_active conj acut kcut (alpha_vec (fun _ _ => alE) alB) (pm_vec (fun _ _ => pm)) data)
  solve Hs (lshift false (mxvec_index ord0 ord0))); last first.
- by rewrite act_feature.
- exact: rows_ge0.
- by move=> i; apply: alpha_ge0.
rewrite /resid; congr (_ - _); rewrite [RHS]mxE sum_N1; congr (_ * _).
rewrite [RHS]mxE eqxx KtK_feature; congr (_ + _).
by rewrite /alpha_vec row_mxEl mxvecE mxE.
Qed.

(* a fit with one parameter and the data points (1, log amplitude 1), (2, log amplitude 1) *)
Section Example.
Let Q := rat_numFieldType.
Let idc := [rmorphism of @idfun Q].
Definition ex_data : seq (seq ({ffun 'I_1 * 'I_1 -> Q} * Q * Q)) :=
  [:: [:: ([ffun => 1], 1, 1)]; [:: ([ffun => 2%:R], 1, 1)]].
Definition ex_eps : {ffun 'I_1 * 'I_1 * 'I_2 -> Q} := [ffun => 7%:R].
Definition ex_refs : {ffun 'I_1 -> 'I_2} := [ffun => ord0].
Definition ex_fit solve : {ffun 'I_1 * 'I_1 * 'I_2 -> Q} :=
  eps' idc false solve 10%:R 0 1 (fun _ _ => 1) 1 (fun _ _ => 0) ex_data ex_eps ex_refs.

Example C53_example solve : exact_solver solve ->
  ex_fit solve (ord0, ord0, ord0) = 1 / 2%:R /\ ex_fit solve (ord0, ord0, lift ord0 ord0) = 7%:R.
Proof.
move=> Hs; split; last by rewrite /ex_fit eps'E ffunE /= ffunE.
have Hn : feature_norm idc ex_data ord0 ord0 = 5%:R.
  by rewrite /feature_norm !big_cons !big_nil /= !ffunE /=; apply/eqP; vm_compute.
have Hv : is_valid idc 0 ex_data ord0 ord0 by rewrite /is_valid Hn.
rewrite /ex_fit eps'E ffunE eqxx Hv addr0.
have := @one_param Q idc 1 (fun x => erefl) _ _ solve 10%:R 0 1 1 1 0 ex_data Hs ltr01 ler01 ler01 erefl.
rewrite /is_active Hv Hn mul1r => /(_ _ _ isT) H.
have {}H : (5%:R + 1) * wt idc false solve 10 0 1 (fun=> (fun=> 1)) 1 (fun=> (fun=> 0)) ex_data ord0 ord0 = 3%:R.
  rewrite H ?mul1r; first last.
  - by [].
  - by move=> x; exact: sqr_ge0.
  rewrite mxE /fit_rows !big_cons !big_nil /= !row_mxEl !mxvecE !mxE !ffunE.
  have Z (v : 'rV[Q]_(1 * 1)) : \sum_(k < 1 * 1) pm_vec (fun _ _ : 'I_1 => 0 : Q) 0 k * v 0 k = 0.
    by rewrite big1 // => k _; case/mxvec_indexP: k => w d; rewrite mxvecE mxE mul0r.
  rewrite !Z.
  by apply/eqP; vm_compute.
by apply: (@mulfI _ (5%:R + 1)) => //; rewrite H; apply/eqP; vm_compute.
Qed.
End Example.

Section Alg2.
Variable A : comRingType.
Add Ring RX2 : (r_theory A).
Lemma alg_half (h z c : A) :
  (1 - z) * (1 - c) + z * c - (h + (1 + 1) * ((z - h) * (c - h))) = (1 - (1 + 1) * h) * (1 + h - z - c).
Proof. by mring A. Qed.
End Alg2.

(* With complex_expand the regularisation is only half of alpha: the result does not minimise the loss
   with alpha |w|^2 *)
Section Half.
Variable C : numClosedFieldType.
Notation cj := [rmorphism of @conjC C].
Definition hf_data : seq (seq ({ffun 'I_1 * 'I_1 -> C} * C * C)) := [:: [:: ([ffun => 1], 1, 1)]].
Definition hf_eps (z : C) : {ffun 'I_1 * 'I_1 * 'I_1 -> C} := [ffun => z].
Definition hf_refs : {ffun 'I_1 -> 'I_1} := [ffun => ord0].
Definition hf_fit solve := epsx' false solve 10%:R 0 1 (fun _ _ => 1) (fun _ _ => 1) 1 1 (fun _ _ => 0) hf_data (hf_eps 1) hf_refs 0.

Definition hf_loss e := eps_loss cj false 1 (fun _ _ => 1) 1 (fun _ _ => 0) hf_data hf_refs e 0.
Definition hf_lossx e := eps_lossx false 1 (fun _ _ => 1) (fun _ _ => 1) 1 1 (fun _ _ => 0) hf_data hf_refs e 0.

Lemma hf_lossE (e : {ffun 'I_1 * 'I_1 * 'I_1 -> C}) :
  hf_loss e = (1 - e (ord0, ord0, ord0)) * (1 - e (ord0, ord0, ord0))^* + e (ord0, ord0, ord0) * (e (ord0, ord0, ord0))^*.
Proof.
rewrite /hf_loss /eps_loss !(big_cons, big_nil) !big_ord_recl !big_ord0 /= !(ffunE, addr0, mul1r, subr0).
by [].
Qed.
Lemma hf_lossxE (e : {ffun 'I_1 * 'I_1 * 'I_1 -> C}) :
  hf_lossx e = (1 - e (ord0, ord0, ord0)) * (1 - e (ord0, ord0, ord0))^* + e (ord0, ord0, ord0) * (e (ord0, ord0, ord0))^* / 2%:R.
Proof.
rewrite /hf_lossx /eps_lossx !(big_cons, big_nil) !big_ord_recl !big_ord0 /= !(ffunE, addr0, mul1r, subr0).
by congr (_ + _); rewrite -mulrDr -norm_ReIm mulrC.
Qed.

Theorem C53_half_refuted solve : exact_solver solve -> real_solver solve ->
  exists e2, hf_loss e2 < hf_loss (hf_fit solve).
Proof.
move=> Hs Hr.
have Hx (e2 : {ffun 'I_1 * 'I_1 * 'I_1 -> C}) : hf_lossx (hf_fit solve) <= hf_lossx e2.
  have Ha w d : activeR 10%:R 0 (fun _ _ => 1) (hf_data) w d.
    rewrite /activeR /is_valid /feature_norm !big_cons !big_nil !ffunE /= !(addr0, mul1r, conjC1, normr1).
    by rewrite ltr01 (ltr_nat _ 1).
  have Hb (c : C) : eps_lossx false 1 (fun _ _ => 1) (fun _ _ => 1) 1 1 (fun _ _ => 0) hf_data hf_refs (hf_fit solve) c
      = hf_lossx (hf_fit solve) by [].
  rewrite -(Hb (biasx' false solve 10%:R 0 1 (fun _ _ => 1) (fun _ _ => 1) 1 1 (fun _ _ => 0) hf_data 0)).
  apply: C53_expand_partial => //=; try exact: ler01; try exact: ltr01.
  - by move=> _ _; exact: ler01.
  - by move=> _ _; exact: ler01.
  - by rewrite ler01.
  - by move=> w d; case/andP: (Ha w d) => _ ->.
  - by move=> w d; rewrite (Ha w d).
  - by move=> w d; rewrite (Ha w d : activeI _ _ _ _ _ _).
  - by rewrite /biasx' /fitx_bias /update_bias_expand big_ord0 add0r.
  by rewrite /biasx' /fitx_bias /update_bias_expand big_ord0 add0r.
set z := hf_fit solve (ord0, ord0, ord0); pose h : C := 2%:R^-1.
have Hh : (1 + 1) * h = 1 by rewrite -[1 + 1]/(2%:R) /h mulfV // pnatr_eq0.
have Ch : h^* = h by rewrite /h geC0_conj // invr_ge0 ler0n.
have E (y : C) : (1 - y) * (1 - y)^* + y * y^* = h + (1 + 1) * ((y - h) * (y - h)^*).
  apply/eqP; rewrite -subr_eq0 !rmorphB /= Ch conjC1 alg_half Hh subrr mul0r //.
exists (hf_eps h); rewrite !hf_lossE -/z ffunE !E subrr mul0r mulr0 addr0 ltr_addl.
rewrite mulr_gt0 ?(ltr_nat _ 0 2) // lt_neqAle mul_conjC_ge0 andbT eq_sym mul_conjC_eq0 subr_eq0.
apply/eqP => Ez; have := Hx (hf_eps (2%:R / 3%:R)); rewrite !hf_lossxE -/z Ez ffunE.
have Ct : (2%:R / 3%:R : C)^* = 2%:R / 3%:R by rewrite geC0_conj // divr_ge0 ?ler0n.
rewrite !rmorphB /= conjC1 Ch Ct /h.
have -> : (1 - 2%:R^-1) * (1 - 2%:R^-1) + 2%:R^-1 / 2%:R / 2%:R = ratr ((1 - 2%:R^-1) * (1 - 2%:R^-1) + 2%:R^-1 / 2%:R / 2%:R) :> C.
  by rewrite !(rmorph_nat, rmorph1, rmorphB, rmorphD, rmorphM, fmorphV, rmorphN).
have -> : (1 - 2%:R / 3%:R) * (1 - 2%:R / 3%:R) + 2%:R / 3%:R * (2%:R / 3%:R) / 2%:R = ratr ((1 - 2%:R / 3%:R) * (1 - 2%:R / 3%:R) + 2%:R / 3%:R * (2%:R / 3%:R) / 2%:R) :> C.
  by rewrite !(rmorph_nat, rmorph1, rmorphB, rmorphD, rmorphM, fmorphV, rmorphN).
by rewrite ler_rat; vm_compute.
Qed.
End Half.
