(* C105: interrupted and resumed training of scripts/ARGPS/argps/vmc.py. *)
From Verif Require Import Base Vmc_Script_Model.
From mathcomp Require Import zify.
Import Num.Theory Order.TTheory.
Local Open Scope ring_scope.

Section Claim.
Variables (V O E : Type) (R : realDomainType).
Local Notation driver := (driver V O E).
Local Notation files := (files V O E R).
Variables (adv : stepper V O E R) (every last : nat) (d0 : driver).
Hypothesis d0_new : d_step d0 = 0%N.

(* the files after any number of sessions, each killed at any time *)
Inductive history : files -> Prop :=
| h_new : history (Fl None [::])
| h_session f k cut : history f -> history (session adv every last d0 k cut f).

(* the driver after n steps without any interruption *)
Definition straight (n : nat) : driver := iter n (fun d => (advance adv d).2) d0.
Lemma straight_step n : d_step (straight n) = n.
Proof.
elim: n => // n IH; rewrite /straight iterS -/(straight n) /advance.
by case: (adv _ _ _ _) => obs [[v o] e] /=; rewrite IH.
Qed.

(* number of the latest check-point *)
Definition stored (f : files) : nat := if ckpt f is Some (_, _, _, n) then n else 0%N.
Definition fine (f : files) : Prop :=
  [/\ restore d0 (ckpt f) = straight (stored f),
      (stored f <= last)%N,
      forall t obs, List.In (t, obs) (rows f) -> (0 < t <= last)%N /\ obs = (advance adv (straight t.-1)).1,
      forall t, (0 < t <= stored f)%N -> exists obs, List.In (t, obs) (rows f) &
      (0 < every)%N -> forall t obs, List.In (t, obs) (rows f) -> (t <= stored f + every)%N].
(* during a session, before turn number step *)
Definition going (step : nat) (d : driver) (f : files) : Prop :=
  [/\ fine f, d = straight step.-1, (0 < step <= last.+1)%N, (stored f <= step.-1)%N & forall t, (0 < t < step)%N -> exists obs, List.In (t, obs) (rows f)]
  /\ ((0 < every)%N -> (step.-1 %/ every * every <= stored f)%N) /\ (last < step -> stored f = last)%N.

Lemma In_rcons (T : Type) (x y : T) l : List.In x (rcons l y) <-> x = y \/ List.In x l.
Proof. by elim: l => [|a l IH] /=; [split=> [[->|//]|[->|//]]; left|rewrite IH; tauto]. Qed.

Lemma logged_fine step d f : going step d f -> (step <= last)%N -> fine (logged adv step d f).2.
Proof.
move=> [[[Hc Hl Hr Hv Hb] Ed /andP[H0 Hs] Hle Hcov] [Hm _]] Hsl; rewrite /logged; case Ea: (advance adv d) => [obs d'] /=.
split=> //= [t ob /In_rcons[[-> ->]|/Hr//]|t /Hv[ob Hi]|He t ob /In_rcons[[-> _]|Hi]].
- by rewrite H0 Hsl -Ed Ea.
- by exists ob; apply/In_rcons; right.
- change (step <= stored f + every)%N; move: (Hm He) (divn_eq step.-1 every) (ltn_pmod step.-1 He).
  by move: (step.-1 %/ every * every)%N (step.-1 %% every)%N => a b; lia.
- exact: Hb He _ _ Hi.
Qed.
Lemma body_going step d f : going step d f -> (step <= last)%N ->
  going step.+1 (body adv every last step d f).1 (body adv every last step d f).2.
Proof.
move=> Hg Hsl; have := logged_fine Hg Hsl; move: Hg.
move=> [[[Hc Hl Hr Hv Hb] Ed /andP[H0 Hs] Hle Hcov] [Hm Hd]]; rewrite /body /logged; case Ea: (advance adv d) => [obs d'] /=.
have Ed' : d' = straight step.
  by rewrite -(prednK H0) /straight iterS -/(straight step.-1) -Ed Ea.
have Hst : save d' = (d_var d', d_opt d', d_ema d', step) by rewrite /save Ed' straight_step.
move=> [/= Hc' Hl' Hr' Hv' Hb'].
have Hcov' t : (0 < t < step.+1)%N -> exists ob, List.In (t, ob) (rcons (rows f) (step, obs)).
  move=> /andP[Ht]; rewrite ltnS leq_eqVlt => /predU1P[->|Hts]; first by exists obs; apply/In_rcons; left.
  by have [|ob Hi] := Hcov t; [rewrite Ht|exists ob; apply/In_rcons; right].
case Est: (stores every last step) => /=.
  have Esv rs : stored (Fl (R := R) (Some (save d')) rs) = step by rewrite Hst.
  split; last by rewrite Esv /=; split=> [_|Hlt]; [apply: leq_trunc_div|lia].
  split=> //=; rewrite ?Esv //.
  split; rewrite ?Esv //.
  - by rewrite /= -Ed'; case: (d').
  - by move=> He t ob /In_rcons[[-> _]|/(Hb He)]; rewrite ?leq_addr //; lia.
have Esv rs : stored (Fl (R := R) (ckpt f) rs) = stored f by [].
move/negbT: Est; rewrite /stores negb_or negb_and negbK => /andP[Hev Hns].
split; last rewrite Esv /=; first by split=> //=; rewrite ?Esv; lia.
split=> [He|]; last by lia.
have Hnd : ~~ (every %| step)%N by move: Hev; rewrite (gtn_eqF He).
suff -> : (step %/ every = step.-1 %/ every)%N by apply: Hm.
rewrite -{1}(prednK H0) divnS // (negbTE (_ : ~~ (every %| _)%N)) ?add0n //.
by rewrite prednK.
Qed.
Lemma turns_going k step d f : going step d f -> let: (step', d', f') := turns adv every last k step d f in
  going step' d' f' /\ ((last < step + k)%N -> (last < step')%N).
Proof.
elim: k step d f => [|k IH] step d f Hg /=; first by rewrite addn0.
case: (leqP step last) => Hsl; last by [].
have := body_going Hg Hsl; case: (body adv every last step d f) => d' f' /= /IH.
by rewrite addSnnS.
Qed.
Lemma session_fine k cut f : fine f -> fine (session adv every last d0 k cut f) /\
  ((last <= k)%N -> stored (session adv every last d0 k cut f) = last).
Proof.
move=> Hf; rewrite /session; case: (Hf) => Hc Hl Hr Hv Hb.
have Hg : going (d_step (restore d0 (ckpt f))).+1 (restore d0 (ckpt f)) f.
  rewrite Hc straight_step; split; last by split=> //= [_|]; [apply: leq_trunc_div|lia].
  by split=> //=; rewrite ?ltnS ?Hl.
have := turns_going k Hg; case: (turns _ _ _ _ _ _ _) => [[step d'] f'] [Hg' Hk].
have [[Hf' _ _ _ _] [_ Hlast]] := Hg'.
case: (cut) => /=; last by split=> // Hkl; apply/Hlast/Hk; rewrite Hc straight_step; lia.
case: leqP => Hs; last by split=> // Hkl; apply/Hlast/Hk; rewrite Hc straight_step; lia.
split; first exact: logged_fine Hg' Hs.
by move=> Hkl; have := Hk; rewrite Hc straight_step; lia.
Qed.
Lemma history_fine f : history f -> fine f.
Proof.
elim=> {f} [|f k cut _ H]; last by case: (session_fine k cut H).
by split=> //= t; rewrite /stored /=; lia.
Qed.

(* whatever the interruptions: a check-point is the driver of the uninterrupted run after the same number of steps *)
Theorem C105_checkpoint f c : history f -> ckpt f = Some c ->
  exists n, (n <= last)%N /\ c = (d_var (straight n), d_opt (straight n), d_ema (straight n), n).
Proof.
move=> /history_fine[Hc Hl _ _ _] Ec; exists (stored f); split=> //; rewrite -Hc /stored Ec.
by case: c Ec => [[[v o] e] n].
Qed.
(* and the row with label t of metrics.csv is the energy of step t of that run *)
Theorem C105_rows f t obs : history f -> List.In (t, obs) (rows f) ->
  (0 < t <= last)%N /\ obs = (advance adv (straight t.-1)).1.
Proof. by move=> /history_fine[_ _ Hr _ _]; apply: Hr. Qed.
(* at most checkpoint_every steps are done again *)
Theorem C105_repeated f t obs : (0 < every)%N -> history f -> List.In (t, obs) (rows f) ->
  (t <= (if ckpt f is Some (_, _, _, n) then n else 0) + every)%N.
Proof. by move=> He /history_fine[_ _ _ _ Hb]; apply: Hb He t obs. Qed.
(* a session that is not killed ends the training: all steps have been done and logged, the last driver is stored *)
Theorem C105_complete f k : history f -> (0 < last <= k)%N -> let f' := session adv every last d0 k false f in
  ckpt f' = Some (d_var (straight last), d_opt (straight last), d_ema (straight last), last) /\
  forall t, (0 < t <= last)%N -> exists obs, List.In (t, obs) (rows f').
Proof.
move=> Hf /andP[H0 Hk] f'; have [[Hc' Hl' _ Hv' _] Hs] := session_fine k false (history_fine Hf).
rewrite -/f' in Hc' Hl' Hv' Hs; rewrite Hs // in Hc' Hv'; split=> //.
have [n [Hn Ec]] : exists n, (n <= last)%N /\ ckpt f' = Some (d_var (straight n), d_opt (straight n), d_ema (straight n), n).
  case Ec: (ckpt f') => [c|]; last by move: (Hs Hk); rewrite /stored Ec => E0; rewrite -E0 in H0.
  by have [n [Hn ->]] := C105_checkpoint (h_session k false Hf) Ec; exists n.
by have := Hs Hk; rewrite Ec /stored Ec => <-.
Qed.
End Claim.

(* three sessions: killed during step 4, killed during step 3 of its own, completed; steps 3, 4, 5 are done again *)
Example C105_example :
  let adv : stepper nat unit nat [realDomainType of int] := fun n v _ e => ((v%:Z, e%:Z), ((v * 2 + n)%N, tt, (e + v)%N)) in
  let d0 := Dr 1%N tt 0%N 0%N in
  let f1 := session adv 2 6 d0 3 true (Fl None [::]) in
  let f2 := session adv 2 6 d0 2 true f1 in
  let f3 := session adv 2 6 d0 6 false f2 in
  [/\ [seq r.1 | r <- rows f3] = [:: 1; 2; 3; 4; 3; 4; 5; 5; 6]%N, ckpt f2 = Some (27, tt, 20, 4)%N & ckpt f3 = Some (121, tt, 105, 6)%N].
Proof. by []. Qed.
