(* One chain of MetropolisFastExchange (sampler/metropolis_fast.py L107-118) as a Markov chain: the
   loop of MetropolisFastSampler (L33-101, see Chain_Model) with the proposals of
   ExchangeRuleWithUpdate (sampler/rules/exchange_with_update.py L15-33). *)
From Verif Require Import Base Choice_Model Rule_Model Metropolis_Inst Markov.
Import Num.Theory Order.TTheory.
Local Open Scope ring_scope.

(* metropolis_fast.py L33-78, loop_body: probability to go from x to y; the cluster is drawn uniformly
   (exchange_with_update.py L18-20), the proposal taken when uniform < w x' / w x *)
Definition exch_step_prob (F : realFieldType) (T : eqType) (d : T) (clusters : seq (nat * nat)) (w : seq T -> F)
  (x y : seq T) : F :=
  \sum_(c < size clusters)
    let x' := (exchange_update d clusters x c).1.1 in
    let acc : F := accept_prob (w x' / w x) in
    (size clusters)%:R^-1 * (acc * (x' == y)%:R + (1 - acc) * (x == y)%:R).

(* the rearrangements of a configuration x0 on L sites as a finite type *)
Definition arr (T : finType) (L : nat) (x0 : seq T) : Type := {t : L.-tuple T | perm_eq t x0}.
Canonical arr_eqType T L x0 := Eval hnf in [eqType of @arr T L x0].
Canonical arr_choiceType T L x0 := Eval hnf in [choiceType of @arr T L x0].
Canonical arr_countType T L x0 := Eval hnf in [countType of @arr T L x0].
Canonical arr_finType T L x0 := Eval hnf in [finType of @arr T L x0].
Definition vals (T : finType) (L : nat) (x0 : seq T) (x : arr L x0) : seq T := val (val x).

Definition exch_step (F : realFieldType) (T : finType) d clusters (w : seq T -> F) L x0 (x y : arr L x0) : F :=
  exch_step_prob d clusters w (vals x) (vals y).
(* metropolis_fast.py L84-101: sweep_size steps per returned sample *)
Definition exch_sweep (F : realFieldType) (T : finType) d clusters (w : seq T -> F) L x0 (sweep_size : nat)
  : arr L x0 -> arr L x0 -> F := pw (exch_step d clusters w (L := L) (x0 := x0)) sweep_size.
