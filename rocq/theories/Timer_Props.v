(* C107: run times, remaining times and their printed form. *)
From Coq Require Import ZArith Lia.
From Verif Require Import Base Fld Timer_Model.
From mathcomp Require Import zify.
Import Num.Theory Order.TTheory.
Local Open Scope ring_scope.

Section Claim.
Variable R : realFieldType.
Local Notation timer := (timer R).

(* consecutive steps s+1, s+2, ... : from the second on every run time is that of its step; the first one is divided by the
   number of all steps since 0 *)
Lemma updates_from (tm : timer) (times : seq R) s : (t_prev_step tm <= s)%N ->
  exists tms, updates tm (zip times (iota s.+1 (size times))) = Some tms /\ size tms = size times /\
  forall k, (k < size times)%N ->
    let now := nth 0 times k in let before := nth 0 (t_prev tm :: times) k in
    let runtime := (now - before) / (if k is 0 then (s.+1 - t_prev_step tm)%:R else 1) in
    t_out (nth tm tms k) = Some (now - t_start tm, runtime, runtime * ((t_total tm)%:R - (s + k.+1)%:R)).
Proof.
elim: times tm s => [|now times IH] tm s Hs; first by exists [::].
rewrite /= /update gtn_eqF ?ltnS //; set tm' := Tm _ _ _ _ _.
have [tms [E1 [E2 E3]]] := IH tm' s.+1 (leqnn _); rewrite E1 /=; exists (tm' :: tms); split=> //; split; first by rewrite /= E2.
case=> [|k] Hk /=; first by rewrite natrB ?addn1 // ltnW.
have := E3 k Hk; rewrite /= addSnnS (set_nth_default tm) ?E2 // => ->.
by rewrite subSnn; case: k Hk => [|k] Hk //=; rewrite invr1.
Qed.
(* a run from step 1 *)
Theorem C107_runtime total (t0 : R) (times : seq R) :
  exists tms, updates (new_timer total t0) (zip times (iota 1 (size times))) = Some tms /\ size tms = size times /\
  forall k, (k < size times)%N ->
    let now := nth 0 times k in let before := nth 0 (t0 :: times) k in
    t_out (nth (new_timer total t0) tms k) = Some (now - t0, now - before, (now - before) * (total%:R - k.+1%:R)).
Proof.
have [//|tms [E1 [E2 E3]]] := @updates_from (new_timer total t0) times 0; exists tms; split=> //; split=> // k Hk.
by rewrite E3 // /new_timer /=; case: k Hk => [|k] Hk /=; rewrite divr1.
Qed.
(* a resumed run from step s + 1: only the first run time is wrong, by the factor s + 1 *)
Theorem C107_resumed_partial total (t0 : R) (times : seq R) s :
  exists tms, updates (new_timer total t0) (zip times (iota s.+1 (size times))) = Some tms /\ size tms = size times /\
  forall k, (k < size times)%N ->
    let now := nth 0 times k in let before := nth 0 (t0 :: times) k in
    exists runtime remaining, t_out (nth (new_timer total t0) tms k) = Some (now - t0, runtime, remaining) /\
    remaining = runtime * (total%:R - (s + k.+1)%:R) /\
    (if k is 0 then s.+1%:R else 1) * runtime = now - before.
Proof.
have [//|tms [E1 [E2 E3]]] := @updates_from (new_timer total t0) times s; exists tms; split=> //; split=> // k Hk.
rewrite /= E3 //; eexists; eexists; split; first reflexivity; split=> //.
by case: k Hk => [|k] _; rewrite ?subn0 mulrC divfK ?oner_eq0 ?pnatr_eq0.
Qed.
Theorem C107_resumed_refuted total (t0 t1 : R) s : (0 < s)%N -> t0 < t1 ->
  exists tm, update (new_timer total t0) t1 s.+1 = Some tm /\ forall e r m, t_out tm = Some (e, r, m) -> r < t1 - t0.
Proof.
move=> Hs Ht; eexists; split; first reflexivity; move=> e r m /= [_ <- _].
rewrite subr0 ltr_pdivr_mulr ?ltr0n // ltr_pmulr ?subr_gt0 // ltr1n //.
Qed.
(* descent finishing: the number of its steps is compared with labels that include the training *)
Theorem C107_descent_refuted desc (tm : timer) (now : R) step : t_total tm = desc -> (desc < step)%N -> (t_prev_step tm < step)%N ->
  t_prev tm < now -> exists tm', update tm now step = Some tm' /\ forall e r m, t_out tm' = Some (e, r, m) -> m < 0.
Proof.
move=> Et Hd Hs Hn; rewrite /update gtn_eqF //; eexists; split; first reflexivity; move=> e r m /= [_ _ <-].
rewrite pmulr_rlt0; first by rewrite subr_lt0 Et ltr_nat.
by rewrite divr_gt0 // subr_gt0 // ltr_nat.
Qed.
End Claim.

Local Close Scope ring_scope.
Delimit Scope Z_scope with zz.
(* the printed form of a duration that is not negative *)
Theorem C107_printed (secs : Z) : (0 <= secs)%zz -> let: (d, (h, m, s)) := strftimedelta secs in
  ((if d is Some d then d else 0) * 86400 + h * 3600 + m * 60 + s = secs /\ 0 <= h < 24 /\ 0 <= m < 60 /\ 0 <= s < 60)%zz.
Proof.
move=> H; rewrite /strftimedelta.
have Hd : (0 <= secs / 86400)%zz by apply: Z.div_pos.
have E1 := Z.div_mod secs 86400 ltac:(done); have B1 := Z.mod_pos_bound secs 86400 ltac:(done).
set d := (secs / 86400)%zz in Hd E1 *; set r := (secs mod 86400)%zz in E1 B1 *.
have E2 := Z.div_mod r 3600 ltac:(done); have B2 := Z.mod_pos_bound r 3600 ltac:(done).
have E3 := Z.div_mod (r mod 3600) 60 ltac:(done); have B3 := Z.mod_pos_bound (r mod 3600) 60 ltac:(done).
have E4 := Z.div_mod r 60 ltac:(done); have B4 := Z.mod_pos_bound r 60 ltac:(done).
case: (Z.ltb_spec 0 d) => Hlt; lia.
Qed.
(* a negative one is printed as a positive one: one second less than nothing as 23:59:59 *)
Theorem C107_printed_refuted : exists secs, (secs < 0)%zz /\ strftimedelta secs = (None, (23, 59, 59)%zz).
Proof. by exists (-1)%zz. Qed.

Example C107_example : strftimedelta 200000 = (Some 2%zz, (7, 33, 20)%zz).
Proof. by []. Qed.
