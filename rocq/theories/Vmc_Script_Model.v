(* The training scripts scripts/ARGPS/argps/vmc.py L35-181 and scripts/cpd-backflow/cpd_backflow/vmc.py L40-260 with their
   check-points.  One session is one execution of the script; a session can be killed at any time, the next one starts
   from the files.  One rank (the others hold the same driver).  The sampler state is not part of a check-point: the
   random numbers of step number n are those of advance n, whichever session does it. *)
From Verif Require Import Base.
Import Num.Theory Order.TTheory.
Local Open Scope ring_scope.

Section Script.
(* variables, optimizer state, running average of the squared gradients; energies and variances *)
Variables (V O E : Type) (R : realDomainType).
(* the driver: state.variables, _optimizer_state, _ema, _step_count *)
Record driver := Dr { d_var : V; d_opt : O; d_ema : E; d_step : nat }.
(* one step with the random numbers of step number n (NetKet: _forward_and_backward, _step_count += 1,
   update_parameters): mean and variance of the energy at the old parameters, then the new state *)
Definition stepper := nat -> V -> O -> E -> (R * R) * (V * O * E).
Definition advance (adv : stepper) (d : driver) : (R * R) * driver :=
  let: (obs, (v, o, e)) := adv (d_step d) (d_var d) (d_opt d) (d_ema d) in (obs, Dr v o e (d_step d).+1).

(* ---- ARGPS ---- *)
(* the latest check-point, metrics.csv: label and energy of every row *)
Record files := Fl { ckpt : option (V * O * E * nat); rows : seq (nat * (R * R)) }.
(* serialize_VMC L35-42 *)
Definition save (d : driver) := (d_var d, d_opt d, d_ema d, d_step d).
(* restore_checkpoint with deserialize_VMC L45-61: without a check-point the driver itself *)
Definition restore (d0 : driver) (c : option (V * O * E * nat)) : driver :=
  if c is Some (v, o, e, n) then Dr v o e n else d0.
(* L170-173; checkpoint_every = 0: none *)
Definition stores (every last step : nat) : bool := (every != 0)%N && (every %| step)%N || (step == last).
(* the body of the loop L137-179 up to the row of metrics.csv L151, then the check-point *)
Definition logged (adv : stepper) (step : nat) (d : driver) (f : files) : driver * files :=
  let: (obs, d') := advance adv d in (d', Fl (ckpt f) (rcons (rows f) (step, obs))).
Definition body (adv : stepper) (every last step : nat) (d : driver) (f : files) : driver * files :=
  let: (d', f') := logged adv step d f in
  (d', if stores every last step then Fl (Some (save d')) (rows f') else f').
(* while step <= config.max_steps, killed after k turns *)
Fixpoint turns (adv : stepper) (every last k step : nat) (d : driver) (f : files) : nat * driver * files :=
  if k is k'.+1 then
    if (step <= last)%N then let: (d', f') := body adv every last step d f in turns adv every last k' step.+1 d' f'
    else (step, d, f)
  else (step, d, f).
(* a session: restore L120-122, k turns, and possibly a turn killed before its check-point *)
Definition session (adv : stepper) (every last : nat) (d0 : driver) (k : nat) (cut : bool) (f : files) : files :=
  let d := restore d0 (ckpt f) in
  let: (step, d', f') := turns adv every last k (d_step d).+1 d f in
  if cut && (step <= last)%N then (logged adv step d' f').2 else f'.

(* ---- cpd-backflow ---- *)
(* the latest check-point (without _ema), best_params.mpack, metrics.csv *)
Record bfiles := Bf { b_ckpt : option (V * O * nat); b_best : option (R * R * V); b_rows : seq (nat * (R * R)) }.
(* serialize_VMC L40-46, registered for all three drivers L83-95 *)
Definition bsave (d : driver) := (d_var d, d_opt d, d_step d).
(* deserialize_VMC L49-62 *)
Definition brestore (d0 : driver) (c : option (V * O * nat)) : driver :=
  if c is Some (v, o, n) then Dr v o (d_ema d0) n else d0.
(* L179-182, L237-240: both strictly smaller than the values of the file, infinity without a file *)
Definition better (obs : R * R) (b : option (R * R * V)) : bool :=
  if b is Some (e, va, _) then (obs.1 < e) && (obs.2 < va) else true.
Definition keep_best (obs : R * R) (d' : driver) (b : option (R * R * V)) : option (R * R * V) :=
  if better obs b then Some (obs.1, obs.2, d_var d') else b.
(* up to the row L163-176, then best parameters L179-183, then check-point L200-202 (L258-260: every step) *)
Definition blogged (adv : stepper) (step : nat) (d : driver) (f : bfiles) : driver * bfiles :=
  let: (obs, d') := advance adv d in (d', Bf (b_ckpt f) (b_best f) (rcons (b_rows f) (step, obs))).
Definition bbody (adv : stepper) (st : bool) (step : nat) (d : driver) (f : bfiles) : driver * bfiles :=
  let: (obs, d') := advance adv d in
  (d', Bf (if st then Some (bsave d') else b_ckpt f) (keep_best obs d' (b_best f)) (rcons (b_rows f) (step, obs))).
(* the steps done by a session that starts at initial_step: L152, L161 (with the stored ones L200), then L205, L219;
   descent steps: 0 without descent finishing *)
Definition training (every total init : nat) : seq (bool * bool * nat) :=
  if (init < total)%N then [seq (true, stores every total s, s) | s <- iota init (total.+1 - init)] else [::].
(* the value of step after the loop *)
Definition after (total init : nat) : nat := if (init < total)%N then total else init.
Definition descent (total desc init : nat) : seq (bool * bool * nat) :=
  if (desc != 0)%N && (init < total + desc)%N then
    [seq (false, true, s) | s <- iota (after total init).+1 (total + desc - after total init)] else [::].
Definition schedule (every total desc init : nat) := training every total init ++ descent total desc init.
(* adv: the steps of the training loop, adv': with the learning rate of descent finishing *)
Fixpoint bturns (adv adv' : stepper) (l : seq (bool * bool * nat)) (d : driver) (f : bfiles) : driver * bfiles :=
  if l is (tr, st, step) :: l' then
    let: (d', f') := bbody (if tr then adv else adv') st step d f in bturns adv adv' l' d' f'
  else (d, f).
(* killed after k steps; cut: during the next one, after its row *)
Definition bsession (adv adv' : stepper) (every total desc : nat) (d0 : driver) (k : nat) (cut : bool) (f : bfiles) : bfiles :=
  let d := brestore d0 (b_ckpt f) in
  let l := schedule every total desc (d_step d).+1 in
  let: (d', f') := bturns adv adv' (take k l) d f in
  if cut && (k < size l)%N then
    let: (tr, st, step) := nth (true, true, 0%N) l k in (blogged (if tr then adv else adv') step d' f').2
  else f'.
End Script.
