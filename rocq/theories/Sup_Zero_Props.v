(* C102: where the zero amplitudes are not the limit of small ones. *)
From Coq Require Import Reals Lra Lia List Psatz.
From Verif Require Import Sup_Glm_Grad Sup_Zero_Model Sup_Zero.
Local Open Scope R_scope.

Lemma ln_no_limit s c l : 0 < s -> ~ lim0 (fun t => s * (ln (Rabs t) - c)) l.
Proof.
intros s0 H; destruct (H 1) as [d [d0 Hd]]; [lra|].
set (B := (Rabs l + 2) / s + Rabs c).
assert (E := exp_pos (- B)); set (t := Rmin (d / 2) (exp (- B))).
assert (t0 : 0 < t) by (apply Rmin_pos; lra).
assert (T1 : t <= d / 2) by apply Rmin_l; assert (T2 : t <= exp (- B)) by apply Rmin_r.
specialize (Hd t); rewrite (Rabs_pos_eq t) in Hd by lra.
specialize (Hd ltac:(lra) ltac:(lra)).
assert (LT : ln t <= - B).
{ rewrite <- (ln_exp (- B)); destruct T2 as [T2|T2]; [apply Rlt_le, ln_increasing; lra|rewrite T2; lra]. }
assert (Q : s * (ln t - c) <= - (Rabs l + 2)).
{ assert (C := Rle_abs (- c)); rewrite Rabs_Ropp in C.
  apply Rle_trans with (s * (- ((Rabs l + 2) / s))); [apply Rmult_le_compat_l; unfold B in LT; lra|].
  right; field; lra. }
assert (L := Rle_abs (- l)); rewrite Rabs_Ropp in L.
apply Rabs_def2 in Hd; lra.
Qed.

(* weightings: one configuration with amplitude 0 and weighting 2 *)
Theorem C102_weighting_refuted : exists (m : nat) K noise (wt amps : nat -> R) j,
  0 < noise /\ (forall i, 0 < wt i) /\
  ~ lim0 (fun t => y0 m K noise None None (Some wt) (fun _ => 0) (perturbed amps t) j)
      (y0 m K noise None None (Some wt) (fun _ => 0) amps j).
Proof.
exists 1%nat, (fun _ _ => 1), 1, (fun _ => 2), (fun _ => 0), 0%nat.
split; [lra|]; split; [intros; lra|]; intros H.
assert (P := proj1 (C102_weighted 1 (fun _ _ => 1) 1 (fun _ => 0) None (fun _ => 2) (fun _ => 0) Rlt_0_1 I 0 0)).
assert (E := lim0_unique _ _ _ H P); simpl in E; destruct (Req_EM_T 0 0) as [_|N]; [|now apply N].
lra.
Qed.

(* iterative noise estimate: the precision of a zero amplitude stays positive, and the target -1/2 is no limit *)
Theorem C102_iterative_refuted : exists (m : nat) K noise (pred amps : nat -> R) j,
  0 < noise /\ 0 < S_diag noise (Some pred) None None amps j /\
  forall l, ~ lim0 (fun t => y0 m K noise (Some pred) None None (fun _ => 0) (perturbed amps t) j) l.
Proof.
exists 1%nat, (fun _ _ => 1), 1, (fun _ => 1), (fun _ => 0), 0%nat.
set (s := S_diag 1 (Some (fun _ => 1)) None None (fun _ => 0) 0).
assert (SP : 0 < s).
{ unfold s, S_diag, S_noise, is0; destruct (Req_EM_T 1 0); [lra|].
  apply Rdiv_lt_0_compat; [lra|].
  assert (Q : 1 < sqrt (4 * 1 / Rabs 1 ^ 2 + 1)).
  { rewrite Rabs_R1, <- sqrt_1 at 1; apply sqrt_lt_1; lra. }
  assert (L := ln_increasing 2 _ ltac:(lra) (Rplus_lt_compat_l 1 _ _ Q)).
  replace (1 + 1) with 2 in L by ring.
  replace (ln (1 / 2)) with (- ln 2); [lra|].
  unfold Rdiv; rewrite Rmult_1_l, ln_Rinv; lra. }
split; [lra|]; split; [exact SP|]; intros l H; apply (ln_no_limit s 0 l SP).
revert H; apply lim0_ext; intros t t0.
assert (PT : perturbed (fun _ => 0) t 0%nat = t)
  by (unfold perturbed; destruct (Req_EM_T 0 0) as [_|N]; [reflexivity|now contradiction N]).
unfold y0, multiplicator, fit_data; simpl rsum; rewrite !PT; unfold is0; destruct (Req_EM_T t 0); [contradiction|].
change (S_noise 1 (Some (fun _ : nat => 1)) None (perturbed (fun _ : nat => 0) t) 0) with s; ring.
Qed.

(* without noise the row of a zero amplitude keeps precision one and the target is no limit either *)
Theorem C102_noiseless_refuted : exists (m : nat) K (amps : nat -> R) j,
  KtK0 m K 0 None None None amps j j = 1 /\ y0 m K 0 None None None (fun _ => 0) amps j = - 1 / 2 /\
  forall l, ~ lim0 (fun t => y0 m K 0 None None None (fun _ => 0) (perturbed amps t) j) l.
Proof.
exists 1%nat, (fun _ _ => 1), (fun _ => 0), 0%nat.
unfold KtK0, y0, multiplicator, S_diag, S_noise, is0; simpl; destruct (Req_EM_T 0 0) as [_|N]; [|now contradiction N].
split; [ring|]; split; [field|]; intros l H; apply (ln_no_limit 1 0 l Rlt_0_1).
revert H; apply lim0_ext; intros t t0.
assert (PT : perturbed (fun _ => 0) t 0%nat = t)
  by (unfold perturbed; destruct (Req_EM_T 0 0) as [_|N]; [reflexivity|now contradiction N]).
unfold fit_data; rewrite !PT; destruct (Req_EM_T t 0); [contradiction|ring].
Qed.

(* log_marg_lik with weightings raises as soon as some but at least two amplitudes are left *)
Lemma len_kept (s amps : list R) : length s = length amps ->
  length (map fst (filter (fun p => negb (is0 (snd p))) (combine s amps))) = length (filter (fun a => negb (is0 a)) amps).
Proof.
revert amps; induction s as [|a s IH]; intros [|b amps]; simpl; try discriminate; trivial.
intros [= H]; destruct (is0 b); simpl; rewrite IH; trivial.
Qed.
Lemma len_lt (amps : list R) : In 0 amps -> (length (filter (fun a => negb (is0 a)) amps) < length amps)%nat.
Proof.
induction amps as [|a l IH]; [intros []|].
assert (LE : (length (filter (fun a => negb (is0 a)) l) <= length l)%nat).
{ clear; induction l as [|b l IH]; simpl; [lia|]; destruct (is0 b); simpl; lia. }
intros [E|H]; simpl.
- subst a; unfold is0 at 1; destruct (Req_EM_T 0 0) as [_|N]; [simpl; lia|now contradiction N].
- specialize (IH H); destruct (is0 a); simpl; lia.
Qed.
Theorem C102_evidence_raises s_diag amps wt :
  length s_diag = length amps -> length wt = length amps -> In 0 amps ->
  (exists x y, x <> 0 /\ y <> 0 /\ exists l1 l2 l3, amps = l1 ++ x :: l2 ++ y :: l3) ->
  weighted_precisions s_diag amps wt = None.
Proof.
intros Hs Hw H0 [x [y [x0 [y0 [l1 [l2 [l3 E]]]]]]]; unfold weighted_precisions.
assert (L := len_kept s_diag amps Hs); assert (LL := len_lt amps H0).
assert (G : (2 <= length (filter (fun a => negb (is0 a)) amps))%nat).
{ rewrite E, filter_app; simpl; rewrite filter_app; simpl; unfold is0 at 2 4.
  destruct (Req_EM_T x 0); [contradiction|]; destruct (Req_EM_T y 0); [contradiction|]; simpl.
  rewrite app_length; simpl; rewrite app_length; simpl; lia. }
revert L; generalize (map fst (filter (fun p => negb (is0 (snd p))) (combine s_diag amps))); intros q L.
unfold np_div; destruct (Nat.eqb_spec (length q) (length wt)) as [Q|Q]; [lia|].
destruct q as [|q1 [|q2 q]]; simpl in *; [lia|lia|].
destruct wt as [|w1 [|w2 wt]]; simpl in *; trivial; lia.
Qed.

(* two configurations, the second with amplitude 0: its precision is 0, its entry of the vector -1/2 *)
Example C102_example : let amps := fun i => match i with O => 1 | _ => 0 end in
  let K := fun i j : nat => if Nat.eqb i j then 1 else 0 in
  y0 2 K 1 None None None (fun _ => 0) amps 0 = 0 /\ y0 2 K 1 None None None (fun _ => 0) amps 1 = - 1 / 2 /\
  KtK0 2 K 1 None None None amps 0 0 = 1 / ln 2 /\ KtK0 2 K 1 None None None amps 1 1 = 0 /\
  weighted_precisions (1 :: 1 :: 1 :: nil) (1 :: 0 :: 1 :: nil) (1 :: 1 :: 1 :: nil) = None.
Proof.
simpl; unfold y0, KtK0, multiplicator, fit_data, S_diag, S_noise; simpl rsum.
assert (A : is0 1 = false) by (unfold is0; destruct (Req_EM_T 1 0); [lra|reflexivity]).
assert (B : is0 0 = true) by (unfold is0; destruct (Req_EM_T 0 0) as [_|N]; [reflexivity|now contradiction N]).
rewrite !A, !B, !Rabs_R1, ln_1; replace (1 + 1 / (1 * (1 * 1))) with 2 by field.
assert (L2 : 0 < ln 2) by (rewrite <- ln_1; apply ln_increasing; lra).
split; [field; lra|]; split; [field; lra|]; split; [field; lra|]; split; [ring|].
unfold weighted_precisions; simpl; rewrite !A, !B; reflexivity.
Qed.

Print Assumptions C102_limit_partial.
Print Assumptions C102_weighted.
Print Assumptions C102_weighting_refuted.
Print Assumptions C102_iterative_refuted.
Print Assumptions C102_noiseless_refuted.
Print Assumptions C102_evidence_raises.
