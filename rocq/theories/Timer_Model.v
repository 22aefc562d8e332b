(* class Timer of scripts/cpd-backflow/cpd_backflow/utils.py L50-101 and scripts/ARGPS/argps/utils.py L48-99 (the same code).
   Clock readings and durations are numbers of a field (seconds); the rounding of timedelta to microseconds is not
   modelled. *)
From Coq Require Import ZArith.
From Verif Require Import Base.
Import Num.Theory Order.TTheory.
Local Open Scope ring_scope.

Section Timer.
Variable R : realFieldType.
(* _total_steps, _prev_step, _start, _prev; _elapsed_time, _runtime, _remaining_time *)
Record timer := Tm { t_total : nat; t_prev_step : nat; t_start : R; t_prev : R; t_out : option (R * R * R) }.
(* __init__ L55-62 at the clock reading now *)
Definition new_timer (total : nat) (now : R) : timer := Tm total 0 now now None.
(* update L64-71; None: division by zero *)
Definition update (tm : timer) (now : R) (step : nat) : option timer :=
  if step == t_prev_step tm then None else
  let elapsed := now - t_start tm in
  let runtime := (now - t_prev tm) / (step%:R - (t_prev_step tm)%:R) in
  let remaining := runtime * ((t_total tm)%:R - step%:R) in
  Some (Tm (t_total tm) step (t_start tm) now (Some (elapsed, runtime, remaining))).
(* update(step) in a loop, the clock readings and steps in order *)
Fixpoint updates (tm : timer) (l : seq (R * nat)) : option (seq timer) :=
  if l is (now, step) :: l' then
    if update tm now step is Some tm' then omap (cons tm') (updates tm' l') else None
  else Some [::].
End Timer.

(* _strftimedelta L91-101: the printed days (if any), hours, minutes and seconds; the argument is the duration in whole
   seconds (its microseconds are not printed).  timedelta keeps 0 <= seconds < 86400, days may be negative *)
Definition strftimedelta (secs : Z) : option Z * (Z * Z * Z) :=
  let days := Z.div secs 86400 in
  let seconds := Z.modulo secs 86400 in
  (if Z.ltb 0 days then Some days else None,
   (Z.div seconds 3600, Z.div (Z.modulo seconds 3600) 60, Z.modulo seconds 60)).
