(* C101: a step of the iteratively reweighted least squares is a Gauss-Newton step for the loss of the
   generalised linear model; its fixed points are the stationary points of the loss, provided the weights of
   the inactive elements vanish. *)
From Coq Require Import Reals Lra.
From Verif Require Import Base Fld Rstruct Calc Sup_Fit_Model Sup_RVM_Model Sup_RVM_Core Sup_Glm_Irls_Model.
From Verif Require Sup_Glm_Grad.
Import Num.Theory Order.TTheory.
Local Open Scope ring_scope.
Notation get_loss := Sup_Glm_Grad.get_loss.
Notation along := Sup_Glm_Grad.along.

Lemma rsumE n (f : nat -> RR) : rsum n f = \sum_(i < n) f i.
Proof. by elim: n => [|n IH] /=; rewrite ?big_ord0 // big_ord_recr /= -IH. Qed.
(* the coordinate direction j *)
Definition unit_dir (j k : nat) : RR := if k == j then 1 else 0.
Definition lstsq_ok (lstsq : forall m, 'M[RR]_m -> 'cV[RR]_m -> 'cV[RR]_m) : Prop :=
  forall m (A : 'M[RR]_m) b, A \in unitmx -> lstsq m A b = invmx A *m b.
Lemma exp_gt0 x : (0 : RR) < exp x. Proof. by apply/RltP; apply: exp_pos. Qed.
Lemma pd_unit n (A : 'M[RR]_n) : (forall x : 'cV_n, x != 0 -> 0 < (x^T *m A *m x) 0 0) -> A \in unitmx.
Proof.
move=> H; rewrite -row_free_unit -kermx_eq0; apply/rowV0P => v /sub_kermxP vA.
case: (eqVneq v 0) => // v0; have := H v^T; rewrite trmxK trmx_eq0 => /(_ v0).
by rewrite vA mul0mx mxE ltxx.
Qed.

Section Fixed.
Variables (chol : forall m, 'M[RR]_m -> option 'M[RR]_m) (lstsq : forall m, 'M[RR]_m -> 'cV[RR]_m -> 'cV[RR]_m).
Hypotheses (Hchol : chol_ok chol) (Hlstsq : lstsq_ok lstsq).
Variables (m p : nat) (K : nat -> nat -> RR) (s y alpha : nat -> RR) (active : nat -> bool) (noise : RR).
Hypotheses (n_gt0 : 0 < noise) (s_ge0 : forall i, (i < m)%N -> 0 <= s i)
  (a_gt0 : forall j, (j < p)%N -> active j -> 0 < alpha j).
Notation act := (@gact p active).
Notation step := (irls_step chol lstsq m p K s y alpha active noise).
Variable w : nat -> RR.
Notation pr := (rpred p K w).
Notation A := (irls_KtK_alpha m p K s alpha noise w).
(* Gauss-Newton approximation of the Hessian: the derivative of the prediction i with respect to the weight j
   is pred_i K_ij *)
Definition gauss_newton (j k : nat) : RR :=
  rsum m (fun i => s i * (pr i * K i j) * (pr i * K i k)) / noise + (if j == k then alpha j else 0).
Add Ring RG : (r_theory (GRing.Field.comRingType RR)).
Lemma AE (a b : 'I_p) : A a b = gauss_newton a b.
Proof.
rewrite !mxE /gauss_newton !rsumE mulr_suml; congr (_ + _); apply: eq_bigr => i _.
rewrite /irls_S ger0_norm ?ltW ?exp_gt0 //; move: (pr i) noise^-1 => u v; rewrite expr2.
mring (GRing.Field.comRingType RR).
Qed.
Notation Aact := (sub_mat act A).
Definition ev (k : 'I_#|act|) : 'I_p := enum_val k.
Lemma quad_A (x : 'cV[RR]_#|act|) : (x^T *m Aact *m x) 0 0 =
  \sum_(i < m) s i / noise * (pr i * \sum_(k < #|act|) K i (ev k) * x k 0) ^+ 2 + \sum_(k < #|act|) alpha (ev k) * x k 0 ^+ 2.
Proof.
have E k : (x^T *m Aact) 0 k = \sum_(i < m) s i / noise * (pr i * \sum_(l < #|act|) K i (ev l) * x l 0) * (pr i * K i (ev k)) + alpha (ev k) * x k 0.
  rewrite mxE; under eq_bigr => l _ do rewrite [x^T _ _]mxE [Aact _ _]mxE AE -!/(ev _) /gauss_newton rsumE mulrDr.
  rewrite big_split /=; congr (_ + _).
    rewrite [RHS](eq_bigr (fun i : 'I_m => \sum_(l < #|act|) s i / noise * pr i * (K i (ev l) * x l 0) * (pr i * K i (ev k)))) => [|i _].
      rewrite exchange_big; apply: eq_bigr => l _ /=; rewrite mulr_suml mulr_sumr; apply: eq_bigr => i _.
      move: (pr i) noise^-1 => u v; mring (GRing.Field.comRingType RR).
    rewrite !mulr_sumr mulr_suml; apply: eq_bigr => l _; move: (pr i) noise^-1 => u v; mring (GRing.Field.comRingType RR).
  rewrite (bigD1 k) //= eqxx big1 ?addr0 1?mulrC // => l lk.
  by rewrite -[ev l == ev k :> nat]/(ev l == ev k) (inj_eq enum_val_inj) (negbTE lk) mulr0.
rewrite mxE; under eq_bigr => k _ do rewrite E mulrDl.
rewrite big_split /=; congr (_ + _); last by apply: eq_bigr => k _; rewrite expr2 mulrA.
under eq_bigr => k _ do rewrite mulr_suml.
rewrite exchange_big; apply: eq_bigr => i _ /=; set Z : RR := \sum_(l < #|act|) K i (ev l) * x l 0.
have -> : s i / noise * (pr i * Z) ^+ 2 = s i / noise * (pr i * Z) * pr i * Z by rewrite expr2; move: (pr i) noise^-1 => u v; mring (GRing.Field.comRingType RR).
transitivity (\sum_(k < #|act|) s i / noise * (pr i * Z) * pr i * (K i (ev k) * x k 0)); last by rewrite -mulr_sumr.
apply: eq_bigr => k _; move: (pr i) noise^-1 Z => u v Z; mring (GRing.Field.comRingType RR).
Qed.
Lemma quad_pos (x : 'cV[RR]_#|act|) : x != 0 -> 0 < (x^T *m Aact *m x) 0 0.
Proof.
move=> x0; have [k xk] : exists k, x k 0 != 0.
  case: (pickP (fun k => x k 0 != 0)) => [k|H]; first by exists k.
  by case/eqP: x0; apply/matrixP => k j; rewrite [j]ord1 mxE; apply/eqP; have /negbFE := H k.
have ev_act l : active (ev l) by exact: (enum_valP l).
rewrite quad_A ltr_paddl //.
  apply: sumr_ge0 => i _; apply: mulr_ge0; last exact: sqr_ge0.
  by apply: mulr_ge0; [exact: s_ge0 | rewrite invr_ge0 ltW].
rewrite (bigD1 k) //= ltr_paddr //; first by apply: sumr_ge0 => l _; rewrite mulr_ge0 ?sqr_ge0 // ltW // a_gt0.
by rewrite mulr_gt0 ?a_gt0 // lt_def sqrf_eq0 xk sqr_ge0.
Qed.
Lemma A_unit : Aact \in unitmx. Proof. exact: pd_unit quad_pos. Qed.
(* the solution of the normal equations, whichever routine is used *)
Lemma solE : Aact *m irls_sol chol lstsq m p K s y alpha active noise w = sub_vec act (irls_y m p K s y noise w).
Proof.
rewrite /irls_sol; case E: (chol _) => [L|]; last by rewrite Hlstsq ?A_unit // mulKVmx ?A_unit.
have [Lt Lp LL] := Hchol E; have LU : L \in unitmx.
  by rewrite unitmxE (det_trig Lt) unitfE; apply/prodf_neq0 => k _; rewrite gt_eqF.
by rewrite -LL -mulmxA mulKVmx ?unitmx_tr // mulKVmx.
Qed.

(* w plus the residual of the gradient equation *)
Definition rvec (j : nat) : RR := rsum m (fun i => K i j * (s i * pr i * (y i - pr i))) / noise.
Lemma betaE : glm_beta noise = noise^-1. Proof. by rewrite /glm_beta gt_eqF // div1r. Qed.
Lemma ln_pr i : ln (pr i) = rsum p (fun j => K i j * w j). Proof. exact: ln_exp. Qed.
Hypothesis inact0 : forall j, (j < p)%N -> active j = false -> w j = 0.
Lemma sum_act (f : nat -> RR) : (forall j, (j < p)%N -> active j = false -> f j = 0) ->
  \sum_(j < p) f j = \sum_(k < #|act|) f (ev k).
Proof.
move=> f0; rewrite -(big_enum_val (A := act) (fun j : 'I_p => f j)) [RHS]big_mkcond /=; apply: eq_bigr => j _.
by rewrite unfold_in /gact; case E: (active j) => //; rewrite f0.
Qed.
Lemma y_split : sub_vec act (irls_y m p K s y noise w) =
  sub_mat act (irls_KtK m p K s noise w) *m (\col_k w (ev k)) + \col_k rvec (ev k).
Proof.
apply/matrixP => k j; rewrite [j]ord1 !mxE -/(ev k) /rvec !rsumE mulr_suml.
under [X in _ = X + _]eq_bigr => l _ do rewrite !mxE -!/(ev _) rsumE mulr_suml.
rewrite exchange_big -big_split /=; apply: eq_bigr => i _.
rewrite -(sum_act (f := fun j => K i (ev k) * (irls_S p K s noise w i * K i j) * w j)) => [|l lp H]; last by rewrite inact0 // mulr0.
rewrite /irls_z ln_pr rsumE mulrDr mulrDr; congr (_ + _).
  by rewrite !mulr_sumr; apply: eq_bigr => l _; rewrite !mulrA.
rewrite /irls_S /irls_e ger0_norm ?ltW ?exp_gt0 // expr2; have : pr i != 0 by rewrite gt_eqF // exp_gt0.
move: (pr i) noise^-1 => u v u0; rewrite -[RHS]mulr1 -(divff u0); move: u^-1 => t; mring (GRing.Field.comRingType RR).
Qed.
(* gradient of the loss along the coordinate j *)
Lemma grad_dir j : (j < p)%N -> active j -> derivable_pt_lim (fun t => get_loss m p K s y alpha active (glm_beta noise) (along w (unit_dir j) t)) 0 (alpha j * w j - rvec j).
Proof.
move=> jp aj; have := @Sup_Glm_Grad.C67_gradient m p K s y alpha active (glm_beta noise) w (unit_dir j).
have H : forall k, active k = false -> unit_dir j k = 0 by move=> k; rewrite /unit_dir; case: eqP => // ->; rewrite aj.
move=> /(_ H); congr (derivable_pt_lim _ _ _).
rewrite rsumE (bigD1 (Ordinal jp)) //= big1 => [|k kj]; last first.
  by rewrite /unit_dir; case: eqP => [E|_]; [case/eqP: kj; exact: val_inj | rewrite RmultE mul0r].
have -> : Sup_Glm_Grad.get_grad m p K s y alpha (glm_beta noise) w j =
  glm_beta noise * - rsum m (fun i => K i j * (s i * pr i * (y i - pr i))) + alpha j * w j by exact: erefl.
rewrite addr0 /unit_dir eqxx RmultE mul1r addrC mulrN betaE /rvec; congr (_ - _); exact: mulrC.
Qed.
(* one step: the Gauss-Newton matrix times the change of the weights is minus the gradient *)
Lemma step_act k : step w (ev k) = irls_sol chol lstsq m p K s y alpha active noise w k 0.
Proof.
rewrite /irls_step ltn_ord (_ : active (ev k)) ?(enum_valP k) //=; last exact: (enum_valP k).
rewrite (big_pred1 k) // => l /=; rewrite -[RHS](inj_eq enum_val_inj).
by rewrite -[_ == _ :> nat]/(enum_val l == enum_val k).
Qed.
Lemma newton_eq : Aact *m (\col_k (step w (ev k) - w (ev k))) = \col_k (rvec (ev k) - alpha (ev k) * w (ev k)).
Proof.
have -> : \col_k (step w (ev k) - w (ev k)) = irls_sol chol lstsq m p K s y alpha active noise w - \col_k w (ev k).
  by apply/matrixP => k j; rewrite [j]ord1 !mxE step_act.
rewrite mulmxBr solE y_split.
have -> : Aact = sub_mat act (irls_KtK m p K s noise w) + diag_mx (\row_k alpha (ev k)).
  apply/matrixP => k l; rewrite !mxE (inj_eq enum_val_inj); congr (_ + _).
  by case: eqP => [->|]; rewrite ?mulr1n ?mulr0n.
rewrite mulmxDl opprD addrACA subrr add0r; apply/matrixP => k j; rewrite [j]ord1 mul_diag_mx !mxE.
by [].
Qed.
Lemma step_inact j : ~~ ((j < p)%N && active j) -> step w j = w j.
Proof. by rewrite /irls_step => /negbTE ->. Qed.
Lemma act_ev j : (j < p)%N -> active j -> exists k : 'I_#|act|, nat_of_ord (ev k) = j.
Proof.
move=> jp aj; have H : Ordinal jp \in act by rewrite unfold_in.
by exists (enum_rank_in H (Ordinal jp)); rewrite /ev enum_rankK_in.
Qed.
Lemma gn_sum k : \sum_(l < p) gauss_newton (ev k) l * (step w l - w l) = rvec (ev k) - alpha (ev k) * w (ev k).
Proof.
rewrite (sum_act (f := fun l => gauss_newton (ev k) l * (step w l - w l))) => [|l lp H]; last first.
  by rewrite step_inact ?subrr ?mulr0 // H andbF.
have := congr1 (fun M : 'cV_#|act| => M k 0) newton_eq; rewrite !mxE => <-.
by apply: eq_bigr => l _; rewrite [in RHS]mxE AE mxE.
Qed.

(* A step is a Gauss-Newton step for the loss with beta = 1 / noise_tilde: the Gauss-Newton matrix times the
   change of the weights is minus the gradient of the loss *)
Theorem C101_step j d : (j < p)%N -> active j ->
  derivable_pt_lim (fun t => get_loss m p K s y alpha active (glm_beta noise) (along w (unit_dir j) t)) 0 d ->
  rsum p (fun k => gauss_newton j k * (step w k - w k)) = - d.
Proof.
move=> jp aj Hd; rewrite (uniqueness_limite _ _ _ _ Hd (grad_dir jp aj)) rsumE opprB.
by have [k <-] := act_ev jp aj; rewrite gn_sum.
Qed.
(* the fixed points are the weights at which the loss is stationary in every active weight *)
Theorem C101_fixed : (forall j, (j < p)%N -> step w j = w j) <->
  (forall j, (j < p)%N -> active j ->
     derivable_pt_lim (fun t => get_loss m p K s y alpha active (glm_beta noise) (along w (unit_dir j) t)) 0 0).
Proof.
split=> [H j jp aj | H j jp].
  have E : alpha j * w j - rvec j = 0.
    have [k <-] := act_ev jp aj; apply/eqP; rewrite -oppr_eq0 opprB -gn_sum big1 // => l _; by rewrite H ?subrr ?mulr0.
  by rewrite -E; apply: grad_dir.
case aj: (active j); last by rewrite step_inact // aj andbF.
have E0 : \col_k (step w (ev k) - w (ev k)) = 0.
  have : Aact *m \col_k (step w (ev k) - w (ev k)) = 0.
    rewrite newton_eq; apply/matrixP => k i; rewrite !mxE.
    have ak : active (ev k) by exact: (enum_valP k).
    have := uniqueness_limite _ _ _ _ (H _ (ltn_ord (ev k)) ak) (grad_dir (ltn_ord (ev k)) ak).
    by move/esym/eqP; rewrite subr_eq0 => /eqP <-; rewrite subrr.
  by move/(congr1 (mulmx (invmx Aact))); rewrite mulKmx ?A_unit // mulmx0.
have [k <-] := act_ev jp aj; apply/eqP; rewrite -subr_eq0; apply/eqP.
by have := congr1 (fun M : 'cV_#|act| => M k 0) E0; rewrite !mxE.
Qed.
(* away from a fixed point the loss decreases along the step *)
Theorem C101_descent d :
  derivable_pt_lim (fun t => get_loss m p K s y alpha active (glm_beta noise) (along w (fun k => step w k - w k) t)) 0 d ->
  (exists j, (j < p)%N /\ step w j != w j) -> d < 0.
Proof.
move=> Hd [j [jp nj]].
have H : forall k, active k = false -> step w k - w k = 0 by move=> k ak; rewrite step_inact ?subrr // ak andbF.
rewrite (uniqueness_limite _ _ _ _ Hd (@Sup_Glm_Grad.C67_gradient m p K s y alpha active (glm_beta noise) w _ H)).
set x : 'cV[RR]_#|act| := \col_k (step w (ev k) - w (ev k)).
have x0 : x != 0.
  apply/eqP => E; have aj : active j by apply/negPn/negP => /negbTE ja; move: nj; rewrite step_inact ?eqxx // ja andbF.
  have [k kj] := act_ev jp aj; have := congr1 (fun M : 'cV_#|act| => M k 0) E; rewrite !mxE kj => /eqP.
  by rewrite subr_eq0 (negbTE nj).
suff -> : rsum p (fun k => Rmult (step w k - w k)%R (Sup_Glm_Grad.get_grad m p K s y alpha (glm_beta noise) w k)) = - (x^T *m Aact *m x) 0 0.
  by rewrite oppr_lt0 quad_pos.
rewrite rsumE (sum_act (f := fun k => Rmult (step w k - w k)%R (Sup_Glm_Grad.get_grad m p K s y alpha (glm_beta noise) w k))) => [|k kp ak]; last first.
  by rewrite H // RmultE mul0r.
rewrite -mulmxA newton_eq mxE -sumrN; apply: eq_bigr => k _; rewrite !mxE RmultE -mulrN opprB; congr (_ * _).
have -> : Sup_Glm_Grad.get_grad m p K s y alpha (glm_beta noise) w (ev k) =
  glm_beta noise * - rsum m (fun i => K i (ev k) * (s i * pr i * (y i - pr i))) + alpha (ev k) * w (ev k) by exact: erefl.
by rewrite addrC mulrN betaE /rvec; congr (_ - _); exact: mulrC.
Qed.
End Fixed.

(* the inactive weights keep their values, so the hypothesis above holds after any number of steps if it holds
   for the initial weights *)
Theorem C101_inactive chol lstsq m p K s y alpha active noise n w j :
  active j = false -> irls chol lstsq m p K s y alpha active noise n w j = w j.
Proof. by move=> aj; elim: n => // n IH; rewrite /irls iterS {1}/irls_step aj andbF; exact: IH. Qed.
