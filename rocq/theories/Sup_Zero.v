(* C102: zero amplitudes in the log-space fit are the limit of small amplitudes. *)
From Coq Require Import Reals Lra Lia List Psatz.
From Verif Require Import Sup_Glm_Grad Sup_Zero_Model.
Local Open Scope R_scope.

(* limit at 0, over non-zero arguments of either sign *)
Definition lim0 (f : R -> R) (l : R) : Prop :=
  forall eps, 0 < eps -> exists d, 0 < d /\ forall t, t <> 0 -> Rabs t < d -> Rabs (f t - l) < eps.
Lemma lim0_const c : lim0 (fun _ => c) c.
Proof. intros eps He; exists 1; split; [lra|]; intros; replace (c - c) with 0 by ring; now rewrite Rabs_R0. Qed.
Lemma lim0_add f g a b : lim0 f a -> lim0 g b -> lim0 (fun t => f t + g t) (a + b).
Proof.
intros Hf Hg eps He; destruct (Hf (eps / 2)) as [d [d0 Hd]]; [lra|]; destruct (Hg (eps / 2)) as [e [e0 Hq]]; [lra|].
exists (Rmin d e); split; [now apply Rmin_pos|]; intros t t0 Ht.
assert (H1 := Hd t t0 (Rlt_le_trans _ _ _ Ht (Rmin_l _ _))); assert (H2 := Hq t t0 (Rlt_le_trans _ _ _ Ht (Rmin_r _ _))).
replace (f t + g t - (a + b)) with ((f t - a) + (g t - b)) by ring.
apply Rle_lt_trans with (1 := Rabs_triang _ _); lra.
Qed.
Lemma lim0_scale c f a : lim0 f a -> lim0 (fun t => c * f t) (c * a).
Proof.
intros Hf eps He; destruct (Hf (eps / (1 + Rabs c))) as [d [d0 Hd]].
{ apply Rdiv_lt_0_compat; [lra|]. assert (H := Rabs_pos c); lra. }
exists d; split; [exact d0|]; intros t t0 Ht; specialize (Hd t t0 Ht).
replace (c * f t - c * a) with (c * (f t - a)) by ring; rewrite Rabs_mult.
assert (Hc := Rabs_pos c); assert (Hx := Rabs_pos (f t - a)).
apply Rle_lt_trans with ((1 + Rabs c) * Rabs (f t - a)); [nra|].
apply Rmult_lt_reg_r with (/ (1 + Rabs c)); [apply Rinv_0_lt_compat; lra|].
replace ((1 + Rabs c) * Rabs (f t - a) * / (1 + Rabs c)) with (Rabs (f t - a)) by (field; lra); exact Hd.
Qed.
Lemma lim0_ext f g a : (forall t, t <> 0 -> f t = g t) -> lim0 f a -> lim0 g a.
Proof.
intros H Hf eps He; destruct (Hf eps He) as [d [d0 Hd]]; exists d; split; [exact d0|].
intros t t0 Ht; rewrite <- H by exact t0; now apply Hd.
Qed.
Lemma lim0_sum n f l : (forall i, (i < n)%nat -> lim0 (f i) (l i)) -> lim0 (fun t => rsum n (fun i => f i t)) (rsum n l).
Proof.
induction n as [|n IH]; intros H; simpl; [apply lim0_const|].
apply lim0_add; [apply IH; intros; apply H; lia|apply H; lia].
Qed.
Lemma lim0_unique f a b : lim0 f a -> lim0 f b -> a = b.
Proof.
intros Ha Hb; destruct (Req_dec a b) as [|N]; [assumption|exfalso].
assert (P : 0 < Rabs (a - b)) by (apply Rabs_pos_lt; lra).
destruct (Ha (Rabs (a - b) / 2)) as [d [d0 Hd]]; [lra|]; destruct (Hb (Rabs (a - b) / 2)) as [e [e0 He]]; [lra|].
assert (M := Rmin_pos d e d0 e0).
assert (t0 : Rmin d e / 2 <> 0) by lra.
assert (A : Rabs (Rmin d e / 2) = Rmin d e / 2) by (apply Rabs_pos_eq; lra).
assert (H1 : Rabs (Rmin d e / 2) < d) by (rewrite A; assert (Q := Rmin_l d e); lra).
assert (H2 : Rabs (Rmin d e / 2) < e) by (rewrite A; assert (Q := Rmin_r d e); lra).
specialize (Hd _ t0 H1); specialize (He _ t0 H2); revert Hd He.
set (z := f (Rmin d e / 2)); intros.
assert (T := Rabs_triang (z - b) (- (z - a))); rewrite Rabs_Ropp in T.
replace (z - b + - (z - a)) with (a - b) in T by ring; lra.
Qed.

(* 1 / ln (1 + c / t^2) tends to 0 *)
Lemma ln_large c M : 0 < c -> 0 < M -> exists d, 0 < d /\ d <= 1 /\ forall t, t <> 0 -> Rabs t < d -> M < ln (1 + c / Rabs t ^ 2).
Proof.
intros c0 M0; assert (E := exp_pos M).
exists (Rmin 1 (c / exp M)); split; [apply Rmin_pos; [lra|now apply Rdiv_lt_0_compat]|]; split; [apply Rmin_l|].
intros t t0 Ht; assert (P := Rabs_pos_lt t t0).
assert (T1 := Rlt_le_trans _ _ _ Ht (Rmin_l _ _)); assert (T2 := Rlt_le_trans _ _ _ Ht (Rmin_r _ _)).
rewrite <- (ln_exp M) at 1; apply ln_increasing; [exact E|].
assert (Q : exp M < c / Rabs t ^ 2); [|lra].
apply Rmult_lt_reg_r with (Rabs t ^ 2); [nra|].
replace (c / Rabs t ^ 2 * Rabs t ^ 2) with c by (field; lra).
assert (T3 : exp M * Rabs t < c).
{ apply Rmult_lt_reg_r with (/ exp M); [now apply Rinv_0_lt_compat|].
  replace (exp M * Rabs t * / exp M) with (Rabs t) by (field; lra); exact T2. }
nra.
Qed.
Lemma S_lim c : 0 < c -> lim0 (fun t => 1 / ln (1 + c / Rabs t ^ 2)) 0.
Proof.
intros c0 eps He; destruct (ln_large c (/ eps) c0 (Rinv_0_lt_compat _ He)) as [d [d0 [_ Hd]]].
exists d; split; [exact d0|]; intros t t0 Ht; specialize (Hd t t0 Ht).
assert (I := Rinv_0_lt_compat _ He).
assert (P : 0 < 1 / ln (1 + c / Rabs t ^ 2)) by (apply Rdiv_lt_0_compat; lra).
rewrite Rminus_0_r, Rabs_pos_eq by lra; unfold Rdiv; rewrite Rmult_1_l, <- (Rinv_inv eps).
apply Rinv_lt_contravar; [nra|exact Hd].
Qed.
Lemma mult_lim c k : 0 < c -> lim0 (fun t => 1 / ln (1 + c / Rabs t ^ 2) * (ln (Rabs t) - k)) (- 1 / 2).
Proof.
intros c0.
set (C := Rmax (Rabs (ln c)) (Rabs (ln (1 + c))) + Rabs k + 1).
assert (CP : 0 < C).
{ unfold C; assert (A := Rabs_pos k); assert (B := Rle_trans _ _ _ (Rabs_pos (ln c)) (Rmax_l _ (Rabs (ln (1 + c))))); lra. }
intros eps He; destruct (ln_large c (C / eps) c0) as [d [d0 [d1 Hd]]]; [now apply Rdiv_lt_0_compat|].
exists d; split; [exact d0|]; intros t t0 Ht; specialize (Hd t t0 Ht).
assert (P := Rabs_pos_lt t t0).
assert (EL : ln (1 + c / Rabs t ^ 2) = ln (Rabs t ^ 2 + c) - 2 * ln (Rabs t)).
{ replace (1 + c / Rabs t ^ 2) with ((Rabs t ^ 2 + c) / Rabs t ^ 2) by (field; lra).
  unfold Rdiv; rewrite ln_mult, ln_Rinv by (try apply Rinv_0_lt_compat; nra).
  replace (Rabs t ^ 2) with (Rabs t * Rabs t) at 2 by ring; rewrite ln_mult by exact P; ring. }
revert Hd EL; set (L := ln (1 + c / Rabs t ^ 2)); intros.
assert (CE : 0 < C / eps) by now apply Rdiv_lt_0_compat.
assert (B : Rabs (ln (Rabs t ^ 2 + c)) <= C - Rabs k - 1).
{ unfold C; assert (L1 : ln c <= ln (Rabs t ^ 2 + c)) by (apply Rlt_le, ln_increasing; nra).
  assert (L2 : ln (Rabs t ^ 2 + c) <= ln (1 + c)).
  { apply Rlt_le, ln_increasing; nra. }
  assert (M1 := Rmax_l (Rabs (ln c)) (Rabs (ln (1 + c)))); assert (M2 := Rmax_r (Rabs (ln c)) (Rabs (ln (1 + c)))).
  assert (R1 := Rle_abs (ln (1 + c))); assert (R2 := Rle_abs (- ln c)); rewrite Rabs_Ropp in R2.
  apply Rabs_le; lra. }
replace (1 / L * (ln (Rabs t) - k) - - 1 / 2) with ((ln (Rabs t ^ 2 + c) / 2 - k) / L)
  by (replace (ln (Rabs t)) with ((ln (Rabs t ^ 2 + c) - L) / 2) by lra; field; lra).
unfold Rdiv; rewrite Rabs_mult, (Rabs_pos_eq (/ L)) by (apply Rlt_le, Rinv_0_lt_compat; lra).
assert (N : Rabs (ln (Rabs t ^ 2 + c) * / 2 - k) < C).
{ replace (ln (Rabs t ^ 2 + c) * / 2 - k) with (ln (Rabs t ^ 2 + c) * / 2 + - k) by ring.
  apply Rle_lt_trans with (1 := Rabs_triang _ _); rewrite Rabs_Ropp, Rabs_mult, (Rabs_pos_eq (/ 2)) by lra.
  assert (Q := Rabs_pos (ln (Rabs t ^ 2 + c))); lra. }
apply Rmult_lt_reg_r with L; [lra|].
rewrite Rmult_assoc, Rinv_l, Rmult_1_r by lra.
apply Rlt_trans with (1 := N).
apply Rmult_lt_reg_r with (/ eps); [now apply Rinv_0_lt_compat|].
replace (eps * L * / eps) with L by (field; lra); exact Hd.
Qed.

Section Claim.
Variables (m : nat) (K : nat -> nat -> R) (noise : R) (shift : nat -> R).
(* the data with every zero amplitude replaced by t *)
Definition perturbed (amps : nat -> R) (t : R) : nat -> R := fun i => if Req_EM_T (amps i) 0 then t else amps i.
Definition positive (o : option (nat -> R)) : Prop := match o with None => True | Some f => forall i, 0 < f i end.
Definition weight_of (o : option (nat -> R)) (i : nat) : R := match o with None => 1 | Some f => f i end.

Lemma S_form rw wt amps i : 0 < noise -> positive rw -> amps i <> 0 ->
  S_diag noise None rw wt amps i = weight_of wt i * (1 / ln (1 + noise * weight_of rw i / Rabs (amps i) ^ 2)).
Proof.
intros n0 Hr a0; unfold S_diag, S_noise, is0.
destruct (Req_EM_T noise 0); [lra|]; destruct (Req_EM_T (amps i) 0); [contradiction|].
assert (P := Rabs_pos_lt _ a0).
destruct rw as [rw|]; simpl weight_of in *; simpl positive in *.
- specialize (Hr i); replace (noise / (Rabs (amps i) ^ 2 / rw i)) with (noise * rw i / Rabs (amps i) ^ 2) by (field; split; lra).
  destruct wt; simpl weight_of; ring.
- rewrite Rmult_1_r; destruct wt; simpl weight_of; ring.
Qed.
Lemma weight_pos rw i : positive rw -> 0 < weight_of rw i.
Proof. destruct rw; simpl; intros H; [apply H|lra]. Qed.

Lemma C102_S rw wt amps i : 0 < noise -> positive rw ->
  lim0 (fun t => S_diag noise None rw wt (perturbed amps t) i) (S_diag noise None rw wt amps i).
Proof.
intros n0 Hr; destruct (Req_EM_T (amps i) 0) as [E|N].
- replace (S_diag noise None rw wt amps i) with (weight_of wt i * 0).
  2:{ unfold S_diag, S_noise, is0; destruct (Req_EM_T noise 0); [lra|]; destruct (Req_EM_T (amps i) 0); [|contradiction].
      destruct wt; simpl; ring. }
  apply lim0_ext with (fun t => weight_of wt i * (1 / ln (1 + noise * weight_of rw i / Rabs t ^ 2))).
  + intros t t0; rewrite S_form; trivial; unfold perturbed; destruct (Req_EM_T (amps i) 0); trivial; contradiction.
  + apply lim0_scale, S_lim, Rmult_lt_0_compat; [exact n0|now apply weight_pos].
- apply lim0_ext with (fun _ => S_diag noise None rw wt amps i); [|apply lim0_const].
  intros t t0; rewrite !S_form; trivial; unfold perturbed; destruct (Req_EM_T (amps i) 0); trivial; contradiction.
Qed.
Lemma C102_mult rw wt amps i : 0 < noise -> positive rw ->
  lim0 (fun t => multiplicator noise None rw wt shift (perturbed amps t) i)
    (if Req_EM_T (amps i) 0 then weight_of wt i * (- 1 / 2) else multiplicator noise None rw wt shift amps i).
Proof.
intros n0 Hr; destruct (Req_EM_T (amps i) 0) as [E|N].
- apply lim0_ext with (fun t => weight_of wt i * (1 / ln (1 + noise * weight_of rw i / Rabs t ^ 2) * (ln (Rabs t) - shift i))).
  + intros t t0; unfold multiplicator, is0.
    assert (H : perturbed amps t i = t) by (unfold perturbed; destruct (Req_EM_T (amps i) 0); trivial; contradiction).
    rewrite S_form; unfold fit_data; rewrite ?H; trivial; destruct (Req_EM_T t 0); [contradiction|ring].
  + apply lim0_scale, mult_lim, Rmult_lt_0_compat; [exact n0|now apply weight_pos].
- apply lim0_ext with (fun _ => multiplicator noise None rw wt shift amps i); [|apply lim0_const].
  intros t t0; unfold multiplicator, is0.
  assert (H : perturbed amps t i = amps i) by (unfold perturbed; destruct (Req_EM_T (amps i) 0); trivial; contradiction).
  unfold fit_data; rewrite H; destruct (Req_EM_T (amps i) 0); [contradiction|].
  rewrite !S_form; rewrite ?H; trivial.
Qed.

(* without weightings both terms of the normal equations at zero amplitudes are the limits of those at small amplitudes *)
Theorem C102_limit_partial rw amps : 0 < noise -> positive rw -> forall j k,
  lim0 (fun t => y0 m K noise None rw None shift (perturbed amps t) j) (y0 m K noise None rw None shift amps j) /\
  lim0 (fun t => KtK0 m K noise None rw None (perturbed amps t) j k) (KtK0 m K noise None rw None amps j k).
Proof.
intros n0 Hr j k; split; unfold y0, KtK0; apply (lim0_sum m (fun i t => _)); intros i _.
- apply lim0_scale; assert (H := C102_mult rw None amps i n0 Hr); simpl in H.
  destruct (Req_EM_T (amps i) 0) as [E|N]; [|exact H].
  replace (multiplicator noise None rw None shift amps i) with (1 * (- 1 / 2)); [exact H|].
  unfold multiplicator, is0; destruct (Req_EM_T (amps i) 0); [ring|contradiction].
- apply lim0_scale; apply lim0_ext with (fun t => K i k * S_diag noise None rw None (perturbed amps t) i); [intros; ring|].
  replace (S_diag noise None rw None amps i * K i k) with (K i k * S_diag noise None rw None amps i) by ring.
  apply lim0_scale, C102_S; assumption.
Qed.

(* with weightings the matrix is still the limit, the vector is off by half the excess weight of the zero amplitudes *)
Theorem C102_weighted rw wt amps : 0 < noise -> positive rw -> forall j k,
  lim0 (fun t => y0 m K noise None rw (Some wt) shift (perturbed amps t) j)
    (y0 m K noise None rw (Some wt) shift amps j + rsum m (fun i => if Req_EM_T (amps i) 0 then K i j * ((1 - wt i) / 2) else 0)) /\
  lim0 (fun t => KtK0 m K noise None rw (Some wt) (perturbed amps t) j k) (KtK0 m K noise None rw (Some wt) amps j k).
Proof.
intros n0 Hr j k; split; unfold y0, KtK0.
- match goal with |- lim0 _ ?l => replace l with (rsum m (fun i => K i j * (if Req_EM_T (amps i) 0 then wt i * (- 1 / 2) else multiplicator noise None rw (Some wt) shift amps i))) end.
  + apply (lim0_sum m (fun i t => _)); intros i _; apply lim0_scale; exact (C102_mult rw (Some wt) amps i n0 Hr).
  + induction m as [|n IH]; simpl; [ring|]; rewrite IH; clear IH.
    unfold multiplicator at 4, is0; destruct (Req_EM_T (amps n) 0); [field|].
    unfold multiplicator, is0; destruct (Req_EM_T (amps n) 0); [contradiction|ring].
- apply (lim0_sum m (fun i t => _)); intros i _; apply lim0_scale.
  apply lim0_ext with (fun t => K i k * S_diag noise None rw (Some wt) (perturbed amps t) i); [intros; ring|].
  replace (S_diag noise None rw (Some wt) amps i * K i k) with (K i k * S_diag noise None rw (Some wt) amps i) by ring.
  apply lim0_scale, C102_S; assumption.
Qed.
End Claim.
