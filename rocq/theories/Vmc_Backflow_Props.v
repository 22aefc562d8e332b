(* C106: training, best parameters and restart of scripts/cpd-backflow/cpd_backflow/vmc.py. *)
From Verif Require Import Base Vmc_Script_Model Vmc_Script_Props.
From mathcomp Require Import zify.
Import Num.Theory Order.TTheory.
Local Open Scope ring_scope.

Section Claim.
Variables (V O E : Type) (R : realDomainType).
Local Notation driver := (driver V O E).
Local Notation files := (bfiles V O R).
Local Notation stepper := (stepper V O E R).
Variables (adv adv' : stepper) (every total desc : nat) (d0 : driver).
Hypothesis d0_new : d_step d0 = 0%N.

(* any number of sessions, each killed at any time *)
Inductive bhistory : files -> Prop :=
| b_new : bhistory (Bf None None [::])
| b_session f k cut : bhistory f -> bhistory (bsession adv adv' every total desc d0 k cut f).

(* ---- best parameters ---- *)
(* a step of either loop from the parameters v: energy, variance and the parameters after it *)
Definition step_of (v : V) (obs : R * R) (v' : V) : Prop :=
  exists (tr : bool) n o e o' e', (if tr then adv else adv') n v o e = (obs, (v', o', e')).
Definition owned (f : files) : Prop := forall e va p, b_best f = Some (e, va, p) ->
  (exists v, step_of v (e, va) p) /\ exists t, List.In (t, (e, va)) (b_rows f).
Lemma advance_step tr d obs d' : advance (if tr then adv else adv') d = (obs, d') ->
  step_of (d_var d) obs (d_var d') /\ d_step d' = (d_step d).+1.
Proof.
rewrite /advance; case Ea: ((if tr then adv else adv') (d_step d) (d_var d) (d_opt d) (d_ema d)) => [ob [[v o] e]] [<- <-] /=.
by split=> //; exists tr, (d_step d), (d_opt d), (d_ema d), o, e.
Qed.
Lemma bbody_owned tr st step d f : owned f -> owned (bbody (if tr then adv else adv') st step d f).2.
Proof.
move=> Hf; rewrite /bbody; case Ea: (advance _ d) => [obs d'] e va p /=; rewrite /keep_best; case: ifP => _.
  case=> <- <- <-; split; first by exists (d_var d); case: obs Ea => a b /advance_step[].
  by exists step; apply/In_rcons; left; case: (obs).
by move=> /Hf[H1 [t Hi]]; split=> //; exists t; apply/In_rcons; right.
Qed.
Lemma bturns_owned l d f : owned f -> owned (bturns adv adv' l d f).2.
Proof.
elim: l d f => // -[[tr st] step] l IH d f Hf /=.
by have := @bbody_owned tr st step d f Hf; case: (bbody _ _ _ _ _) => d' f' /=; apply: IH.
Qed.
Lemma bhistory_owned f : bhistory f -> owned f.
Proof.
elim=> {f} // f k cut _ Hf; rewrite /bsession; set l := schedule _ _ _ _.
have := @bturns_owned (take k l) (brestore d0 (b_ckpt f)) f Hf; case: (bturns _ _ _ _ _) => d' f' /= H.
case: ifP => // _; case: (nth _ _ _) => [[tr st] step]; rewrite /blogged; case: (advance _ _) => obs d'' /=.
by move=> e va p /= /H[H1 [t Hi]]; split=> //; exists t; apply/In_rcons; right.
Qed.
(* the file holds the energy and variance of one step and the parameters after the update of that step *)
Theorem C106_best_partial f e va p : bhistory f -> b_best f = Some (e, va, p) ->
  (exists v, step_of v (e, va) p) /\ exists t, List.In (t, (e, va)) (b_rows f).
Proof. by move=> /bhistory_owned; apply. Qed.

(* no step of an uninterrupted session has both a smaller energy and a smaller variance *)
Definition undominated (f : files) : Prop := forall t obs, List.In (t, obs) (b_rows f) ->
  exists e va p, b_best f = Some (e, va, p) /\ ~~ ((obs.1 < e) && (obs.2 < va)).
Lemma bbody_undominated (a : stepper) st step d f : undominated f -> undominated (bbody a st step d f).2.
Proof.
move=> Hf; rewrite /bbody; case Ea: (advance a d) => [obs d'] t ob /= /In_rcons[[_ ->]|/Hf[e [va [p [Hb Hn]]]]].
  rewrite /keep_best; case Eb: (better obs (b_best f)).
    by exists obs.1, obs.2, (d_var d'); rewrite ltxx.
  by move: Eb; rewrite /better; case: (b_best f) => // -[[e va] p] /negbT Hb; exists e, va, p.
rewrite /keep_best Hb /=; case: ifP => [/andP[H1 H2]|_]; last by exists e, va, p.
exists obs.1, obs.2, (d_var d'); split=> //; apply: contra Hn => /andP[H3 H4].
by rewrite (lt_trans H3 H1) (lt_trans H4 H2).
Qed.
Lemma bturns_undominated l d f : undominated f -> undominated (bturns adv adv' l d f).2.
Proof.
elim: l d f => // -[[tr st] step] l IH d f Hf /=.
by have := @bbody_undominated (if tr then adv else adv') st step d f Hf; case: (bbody _ _ _ _ _) => d' f' /=; apply: IH.
Qed.
(* sessions killed between two steps *)
Inductive bhistory_nocut : files -> Prop :=
| bn_new : bhistory_nocut (Bf None None [::])
| bn_session f k : bhistory_nocut f -> bhistory_nocut (bsession adv adv' every total desc d0 k false f).
Theorem C106_undominated f t obs : bhistory_nocut f -> List.In (t, obs) (b_rows f) ->
  exists e va p, b_best f = Some (e, va, p) /\ ~ (obs.1 < e /\ obs.2 < va).
Proof.
move=> Hf Hi; suff H : undominated f.
  by have [e [va [p [Hb /negP Hn]]]] := H t obs Hi; exists e, va, p; split=> // -[H1 H2]; apply: Hn; rewrite H1.
elim: Hf => // {t obs Hi} f' k _ IH; rewrite /bsession /=.
have := @bturns_undominated (take k (schedule every total desc (d_step (brestore d0 (b_ckpt f'))).+1)) (brestore d0 (b_ckpt f')) f' IH.
by case: (bturns _ _ _ _ _).
Qed.

(* ---- restart, training loop only ---- *)
Definition bstored (f : files) : nat := if b_ckpt f is Some (_, _, n) then n else 0%N.
Definition bstraight (n : nat) : driver := iter n (fun d => (advance adv d).2) d0.
(* the driver without _ema *)
Definition visible (d : driver) := (d_var d, d_opt d, d_step d).
(* drivers without a running average: the energies, parameters and optimizer state do not depend on it *)
Definition no_ema (a : stepper) : Prop := forall n v o (e1 e2 : E), (a n v o e1).1 = (a n v o e2).1 /\ (a n v o e1).2.1 = (a n v o e2).2.1.
Lemma advance_visible (a : stepper) d1 d2 : no_ema a -> visible d1 = visible d2 ->
  (advance a d1).1 = (advance a d2).1 /\ visible (advance a d1).2 = visible (advance a d2).2.
Proof.
move=> Ha; case: d1 => v o e n; case: d2 => v2 o2 e2 n2 [-> -> ->]; rewrite /advance /=.
have := Ha n2 v2 o2 e e2; case: (a n2 v2 o2 e) => ob1 [[v1' o1'] e1']; case: (a n2 v2 o2 e2) => ob2 [[v2' o2'] e2'] /=.
by case=> -> [-> ->].
Qed.
Lemma bstraight_step n : d_step (bstraight n) = n.
Proof.
elim: n => // n IH; rewrite /bstraight iterS -/(bstraight n) /advance.
by case: (adv _ _ _ _) => obs [[v o] e] /=; rewrite IH.
Qed.
Definition bfine (f : files) : Prop :=
  [/\ visible (brestore d0 (b_ckpt f)) = visible (bstraight (bstored f)), (bstored f <= total)%N &
      forall t obs, List.In (t, obs) (b_rows f) -> (0 < t <= total)%N /\ obs = (advance adv (bstraight t.-1)).1].
Lemma bbody_fine st step d f : no_ema adv -> bfine f -> visible d = visible (bstraight step.-1) -> (0 < step <= total)%N ->
  let: (d', f') := bbody adv st step d f in
  [/\ bfine f', visible d' = visible (bstraight step) & bstored f' = if st then step else bstored f].
Proof.
move=> Ha [Hc Hl Hr] Hd /andP[H0 Hs]; rewrite /bbody.
have [Ho Hv] := advance_visible Ha Hd; case: (advance adv d) Ho Hv => obs d' /= Ho Hv.
have Es : (advance adv (bstraight step.-1)).2 = bstraight step.
  by rewrite -[in RHS](prednK H0) /bstraight iterS.
rewrite Es in Hv; have Estep : d_step d' = step by case: Hv => _ _ ->; apply: bstraight_step.
have Est : bstored (Bf (if st then Some (bsave d') else b_ckpt f) (keep_best obs d' (b_best f)) (rcons (b_rows f) (step, obs)))
  = if st then step else bstored f by case: (st) => //; rewrite /bstored /= Estep.
split=> //; split; rewrite ?Est.
- by case: (st) => //=; rewrite -Hv /visible /= Estep.
- by case: (st).
- by move=> t ob /= /In_rcons[[-> ->]|/Hr//]; rewrite H0 Hs.
Qed.
Lemma bturns_fine m step d f : no_ema adv -> bfine f -> visible d = visible (bstraight step.-1) -> (0 < step)%N -> (step + m <= total.+1)%N ->
  let: (d', f') := bturns adv adv' [seq (true, stores every total s, s) | s <- iota step m] d f in
  [/\ bfine f', visible d' = visible (bstraight (step + m).-1) & ((0 < m)%N -> (step + m = total.+1)%N -> bstored f' = total)].
Proof.
move=> Ha; elim: m step d f => [|m IH] step d f Hf Hd H0 Hm /=; first by rewrite addn0.
have Hst : (0 < step <= total)%N by lia.
have := bbody_fine (stores every total step) Ha Hf Hd Hst; case: (bbody _ _ _ _ _) => d' f' [Hf' Hd' Hs'].
have := IH step.+1 d' f' Hf' Hd' isT; rewrite addSnnS => /(_ Hm).
case H: (bturns _ _ _ _ _) => [d'' f''] [Hf'' Hd'' Hs'']; split=> // _ Et.
clear IH Hd''; case: m Hm Hs'' Et H => [|m] Hm Hs'' Et H; last by apply: Hs''.
by case: H => _ <-; rewrite Hs' /stores (_ : step == total) ?orbT //; lia.
Qed.

Lemma schedule_training init : desc = 0%N ->
  schedule every total desc init = if (init < total)%N then [seq (true, stores every total s, s) | s <- iota init (total.+1 - init)] else [::].
Proof. by move=> ->; rewrite /schedule /descent /= cats0 /training. Qed.
Lemma bsession_fine f k cut : no_ema adv -> desc = 0%N -> bfine f -> bfine (bsession adv adv' every total desc d0 k cut f) /\
  (((bstored f).+1 < total <= k)%N -> bstored (bsession adv adv' every total desc d0 k cut f) = total).
Proof.
move=> Ha Hz Hf; case: (Hf) => Hc Hl Hr; rewrite /bsession schedule_training //.
have En : d_step (brestore d0 (b_ckpt f)) = bstored f by case: Hc => _ _ ->; rewrite bstraight_step.
rewrite En; case: (ltnP (bstored f).+1 total) => Hn; last by rewrite /= andbF; split.
rewrite size_map size_iota -map_take take_iota.
set m := minn _ _.
have := @bturns_fine m (bstored f).+1 (brestore d0 (b_ckpt f)) f Ha Hf Hc isT.
have -> : ((bstored f).+1 + m <= total.+1)%N by rewrite /m; lia.
move=> /(_ isT); case: (bturns _ _ _ _ _) => d' f' [Hf' Hd' Hs'].
case: (boolP (cut && _)) => [/andP[_ Hk]|Hk]; last by split=> // Hkt; apply: Hs'; rewrite /m; lia.
rewrite (nth_map 0%N) ?size_iota // nth_iota //.
have Em : m = k by rewrite /m; lia.
rewrite Em in Hd'; split; last by lia.
have [Ho Hv] := advance_visible Ha Hd'; rewrite /blogged; case: (advance adv d') Ho Hv => obs d'' /= Ho Hv.
case: Hf' => Hc' Hl' Hr'; split=> // t ob /= /In_rcons[[-> ->]|/Hr'//]; split=> //; lia.
Qed.
Lemma bhistory_fine f : no_ema adv -> desc = 0%N -> bhistory f -> bfine f.
Proof.
move=> Ha Hz; elim=> {f} [|f k cut _ Hf]; last by case: (bsession_fine k cut Ha Hz Hf).
by split.
Qed.
(* training loop, drivers without a running average: check-points and rows are those of the uninterrupted run *)
Theorem C106_checkpoint_partial f c : no_ema adv -> desc = 0%N -> bhistory f -> b_ckpt f = Some c ->
  exists n, (n <= total)%N /\ c = (d_var (bstraight n), d_opt (bstraight n), n).
Proof.
move=> Ha Hz /(bhistory_fine Ha Hz)[Hc Hl _] Ec; exists (bstored f); split=> //.
move: Hc; rewrite /bstored Ec; case: c Ec => [[v o] n] Ec /= [-> -> _]; by [].
Qed.
Theorem C106_rows_partial f t obs : no_ema adv -> desc = 0%N -> bhistory f -> List.In (t, obs) (b_rows f) ->
  (0 < t <= total)%N /\ obs = (advance adv (bstraight t.-1)).1.
Proof. by move=> Ha Hz /(bhistory_fine Ha Hz)[_ _]; apply. Qed.
(* a session that is not killed completes the training unless exactly one step is missing *)
Theorem C106_complete_partial f k : no_ema adv -> desc = 0%N -> bhistory f ->
  ((if b_ckpt f is Some (_, _, n) then n else 0).+1 < total <= k)%N ->
  b_ckpt (bsession adv adv' every total desc d0 k false f) = Some (d_var (bstraight total), d_opt (bstraight total), total).
Proof.
move=> Ha Hz Hf Hk; have [_ Hs] := bsession_fine k false Ha Hz (bhistory_fine Ha Hz Hf).
have {Hs} := Hs Hk; set f' := bsession _ _ _ _ _ _ _ _ _ => Hs.
case Ec: (b_ckpt f') => [c|]; last by move: Hs Hk; rewrite /bstored Ec; lia.
have [n [_ E1]] := C106_checkpoint_partial Ha Hz (b_session k false Hf) Ec.
by move: Hs; rewrite E1 /bstored Ec E1 => ->.
Qed.
(* one missing step is never done *)
Theorem C106_last_step f k cut : desc = 0%N -> (total <= d_step (brestore d0 (b_ckpt f)) + 1)%N ->
  bsession adv adv' every total desc d0 k cut f = f.
Proof. by move=> Hz H; rewrite /bsession schedule_training // ltnNge -addn1 H /= andbF. Qed.

(* ---- descent finishing ---- *)
Lemma bturns_all tr step m d f : let: (d', f') := bturns adv adv' [seq (tr, true, s) | s <- iota step m] d f in
  d_step d' = (d_step d + m)%N /\ ((0 < m)%N -> bstored f' = (d_step d + m)%N) /\
  exists obs, size obs = m /\ b_rows f' = b_rows f ++ zip (iota step m) obs.
Proof.
elim: m step d f => [|m IH] step d f /=.
  by rewrite addn0; split=> //; split=> //; exists [::]; rewrite cats0.
rewrite /bbody; case Ea: (advance _ d) => [ob d1]; have [_ Es] := advance_step Ea.
set f1 := Bf _ _ _; have := IH step.+1 d1 f1; case Eb: (bturns _ _ _ _ _) => [d' f'] [H1 [H2 [obs [H3 H4]]]].
rewrite H1 Es addSnnS; split=> //; split; last first.
  by exists (ob :: obs); rewrite /= H3 H4 /f1 /= cat_rcons.
move=> _; case: m IH Eb H1 H2 H3 H4 => [|m] IH Eb H1 H2 H3 H4; last by rewrite H2 // Es addSnnS.
by case: Eb => _ <-; rewrite /bstored /= Es addn1.
Qed.
(* a session that starts within descent finishing from a check-point of n steps: its first label is n + 2 although step
   n + 1 is done, and the last step is left out *)
Theorem C106_descent f k : (total <= d_step (brestore d0 (b_ckpt f)))%N -> (d_step (brestore d0 (b_ckpt f)) + 1 < total + desc <= k)%N ->
  let n := d_step (brestore d0 (b_ckpt f)) in let f' := bsession adv adv' every total desc d0 k false f in
  bstored f' = (total + desc - 1)%N /\
  exists obs, size obs = (total + desc - n - 1)%N /\ b_rows f' = b_rows f ++ zip (iota (n + 2) (total + desc - n - 1)) obs.
Proof.
rewrite /bsession; set d := brestore _ _ => Ht Hn /=; rewrite /schedule /training ltnNge (leq_trans Ht) // /descent.
have -> : (desc != 0)%N && ((d_step d).+1 < total + desc)%N by lia.
rewrite /after ltnNge (leq_trans Ht) //=.
have Em : (total + desc - (d_step d).+1 = total + desc - d_step d - 1)%N by lia.
rewrite take_oversize; last by rewrite size_map size_iota; lia.
rewrite Em (_ : (d_step d).+2 = (d_step d + 2)%N); last by lia.
have := bturns_all false (d_step d + 2) (total + desc - d_step d - 1) d f.
case: (bturns _ _ _ _ _) => d' f' [_ [H2 H3]]; split; last exact: H3.
by rewrite H2; lia.
Qed.
End Claim.

Section Cat.
Variables (V O E : Type) (R : realDomainType) (adv adv' : stepper V O E R).
Lemma bturns_cat l1 l2 (d : driver V O E) f : bturns adv adv' (l1 ++ l2) d f =
  bturns adv adv' l2 (bturns adv adv' l1 d f).1 (bturns adv adv' l1 d f).2.
Proof. by elim: l1 d f => // -[[tr st] s] l1 IH d f /=; case: (bbody _ _ _ _ _) => d' f'. Qed.
Lemma bturns_step l (d : driver V O E) f : d_step (bturns adv adv' l d f).1 = (d_step d + size l)%N.
Proof.
elim: l d f => [|[[tr st] s] l IH] d f /=; first by rewrite addn0.
by rewrite /bbody; case Ea: (advance _ d) => [obs d1]; rewrite IH (advance_step Ea).2 addSnnS.
Qed.
End Cat.

(* interrupted before its last step and with a check-point there, a training never does the last step; with
   total_steps = 1 there is no training at all *)
Theorem C106_last_step_refuted (V O E : Type) (R : realDomainType) (adv adv' : stepper V O E R) (every total : nat) (d0 : driver V O E) :
  d_step d0 = 0%N -> (0 < total)%N -> (0 < every)%N -> (every %| total.-1)%N ->
  exists f, bhistory adv adv' every total 0 d0 f /\ d_step (brestore d0 (b_ckpt f)) = total.-1 /\
  forall k cut, bsession adv adv' every total 0 d0 k cut f = f.
Proof.
move=> H0 Ht He Hd; set f := bsession adv adv' every total 0 d0 total.-1 false (Bf None None [::]).
have Hst : d_step (brestore d0 (b_ckpt f)) = total.-1.
  rewrite /f /bsession /= H0 schedule_training //; case: (ltnP 1 total) => Ht1; last first.
    by rewrite /= H0; lia.
  rewrite -map_take take_iota (minn_idPl _) ?subn1 //=.
  have -> : iota 1 total.-1 = rcons (iota 1 total.-2) total.-1.
    by have -> : total.-1 = (total.-2 + 1)%N by [lia]; rewrite iotaD cats1 /= add1n addn1.
  rewrite map_rcons -cats1 bturns_cat /=.
  set d' := (bturns _ _ _ _ _).1; have Ed : d_step d' = total.-2 by rewrite bturns_step size_map size_iota H0.
  rewrite /bbody; case Ea: (advance adv d') => [obs d1] /=.
  have Hs : stores every total total.-1 by rewrite /stores -lt0n He Hd.
  have Es : d_step d1 = (d_step d').+1 by apply: (@advance_step _ _ _ _ adv adv' true _ _ _ Ea).2.
  by rewrite Hs /= Es Ed; lia.
  by lia.
exists f; split; first by apply: b_session; constructor.
by split=> // k cut; apply: C106_last_step => //; rewrite Hst; lia.
Qed.

(* the running average of VMC_SRRMSProp is lost: the resumed run is another one *)
Theorem C106_ema_refuted : exists (adv : stepper nat unit nat [realDomainType of int]) (d0 : driver nat unit nat) f c,
  bhistory adv adv 1 5 0 d0 f /\ d_step d0 = 0%N /\ b_ckpt f = Some c /\
  forall n, c <> (d_var (bstraight adv d0 n), d_opt (bstraight adv d0 n), n).
Proof.
pose adv : stepper nat unit nat [realDomainType of int] := fun _ v _ e => ((0, 0), ((v + e)%N, tt, e.+1)).
pose d0 := Dr 0%N tt 0%N 0%N; exists adv, d0.
exists (bsession adv adv 1 5 0 d0 1 false (bsession adv adv 1 5 0 d0 2 false (Bf None None [::]))), (1%N, tt, 3%N).
split; first by do 2!apply: b_session; constructor.
by split=> //; split=> // n [H1 _ H2]; rewrite -H2 in H1.
Qed.
(* best_params.mpack: the energy (a function of the parameters here) is not the one of the stored parameters, and a smaller
   energy with a larger variance is passed over *)
Theorem C106_best_refuted : exists (en va : nat -> int) (adv : stepper nat unit unit [realDomainType of int]) (d0 : driver nat unit unit) f e w p,
  (forall n v o x, (adv n v o x).1 = (en v, va v)) /\ bhistory adv adv 10 5 0 d0 f /\
  b_best f = Some (e, w, p) /\ e <> en p /\ exists t o, List.In (t, o) (b_rows f) /\ o.1 < e.
Proof.
pose en (v : nat) : int := nth 0 [:: 5; 4; 3; 2] v; pose va (v : nat) : int := nth 0 [:: 2; 1; 3; 4] v.
pose adv : stepper nat unit unit [realDomainType of int] := fun _ v _ _ => ((en v, va v), (v.+1, tt, tt)).
pose d0 := Dr 0%N tt tt 0%N; exists en, va, adv, d0.
exists (bsession adv adv 10 5 0 d0 3 false (Bf None None [::])), 4, 1, 2%N; split=> //.
split; first by apply: b_session; constructor.
by split=> //; split=> //; exists 3%N, (3, 3); split=> //; right; right; left.
Qed.
(* descent finishing: all steps without interruption, one less with one *)
Theorem C106_descent_refuted : exists (adv : stepper nat unit unit [realDomainType of int]) (d0 : driver nat unit unit),
  let new := Bf None None [::] in let whole := bsession adv adv 1 2 3 d0 10 false new in
  let twice := bsession adv adv 1 2 3 d0 10 false (bsession adv adv 1 2 3 d0 3 false new) in
  [/\ bstored whole = 5%N, bstored twice = 4%N, [seq r.1 | r <- b_rows whole] = [:: 1; 2; 3; 4; 5]%N & [seq r.1 | r <- b_rows twice] = [:: 1; 2; 3; 5]%N].
Proof. by exists (fun _ v _ _ => ((0, 0), (v.+1, tt, tt))), (Dr 0%N tt tt 0%N). Qed.

(* two sessions of plain training, the first killed during step 4 after the check-point of step 3 *)
Example C106_example :
  let en (v : nat) : int := nth 0 [:: 5; 4; 3; 2; 1; 0] v in
  let adv : stepper nat unit unit [realDomainType of int] := fun _ v _ _ => ((en v, en v), (v.+1, tt, tt)) in
  let d0 := Dr 0%N tt tt 0%N in
  let f := bsession adv adv 3 6 0 d0 6 false (bsession adv adv 3 6 0 d0 3 true (Bf None None [::])) in
  [/\ b_ckpt f = Some (6, tt, 6)%N, [seq r.1 | r <- b_rows f] = [:: 1; 2; 3; 4; 4; 5; 6]%N & b_best f = Some (0, 0, 6%N)].
Proof. by []. Qed.
