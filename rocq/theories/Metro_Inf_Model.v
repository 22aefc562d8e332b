(* sampler/metropolis_fast.py L18-101 again (see Metropolis_Model), now with the values -inf, inf and nan of
   floating point logarithms: the log-amplitude of a configuration of zero amplitude is -inf. *)
From Coq Require Import Reals.
From Verif Require Import Base Rstruct Calc Metropolis_Model QGPS_Model.
Import Num.Theory Order.TTheory.
Local Open Scope ring_scope.

(* a floating point number, rounding not modelled *)
Inductive lv := Fin of RR | NInf | PInf | NaN.
Definition lneg (a : lv) : lv := match a with Fin a => Fin (- a) | NInf => PInf | PInf => NInf | NaN => NaN end.
Definition ladd (a b : lv) : lv :=
  match a, b with
  | NaN, _ | _, NaN | NInf, PInf | PInf, NInf => NaN
  | NInf, _ | _, NInf => NInf
  | PInf, _ | _, PInf => PInf
  | Fin a, Fin b => Fin (a + b)
  end.
Definition lsub (a b : lv) : lv := ladd a (lneg b).
Definition lmul (p : RR) (a : lv) : lv :=
  match a with
  | Fin a => Fin (p * a)
  | NInf => if 0 < p then NInf else if p == 0 then NaN else PInf
  | PInf => if 0 < p then PInf else if p == 0 then NaN else NInf
  | NaN => NaN
  end.
Definition rexp (a : RR) : RR := exp a.
Definition lexp (a : lv) : lv := match a with Fin a => Fin (rexp a) | NInf => Fin 0 | PInf => PInf | NaN => NaN end.
(* u < a for a number u; comparisons with nan are false *)
Definition lless (u : RR) (a : lv) : bool := match a with Fin a => u < a | NInf => false | PInf => true | NaN => false end.

Section Sampler.
Variables (T : Type) (d : T) (Cache Key : Type).
Variables (split3 : Key -> Key * Key * Key) (split2 : Key -> Key * Key) (uniform : Key -> seq RR).
Variable transition : Key -> seq (seq T) -> seq (seq T) * option (seq RR) * seq (seq nat).
Variable full : seq T -> lv * Cache.
Variable fast : Cache -> seq T -> seq nat -> lv * Cache.
Variables (machine_pow : RR) (sweep_size n_chains : nat).

Record xstate := XState
  { xs_key : Key; xs_conf : seq (seq T); xs_cache : seq Cache; xs_logp : seq lv; xs_acc : nat }.

(* L55-60 *)
Definition xaccept (us : seq RR) (prop cur : seq lv) (corr : option (seq RR)) : seq bool :=
  match corr with
  | Some cs => [seq lless p.1 (lexp (ladd (lsub p.2.1.1 p.2.1.2) (Fin p.2.2))) | p <- zip us (zip (zip prop cur) cs)]
  | None => [seq lless p.1 (lexp (lsub p.2.1 p.2.2)) | p <- zip us (zip prop cur)]
  end.

(* L33-78 *)
Definition xloop_body (s : xstate) : xstate :=
  let: (k, k1, k2) := split3 (xs_key s) in
  let: (confp, corr, sites) := transition k1 (xs_conf s) in
  let updated : seq (seq T) := [seq [seq nth d p.1 i | i <- p.2] | p <- zip confp sites] in
  let out : seq (lv * Cache) := [seq fast p.1 p.2.1 p.2.2 | p <- zip (xs_cache s) (zip updated sites)] in
  let prop : seq lv := [seq lmul machine_pow o.1 | o <- out] in
  let acc : seq bool := xaccept (uniform k2) prop (xs_logp s) corr in
  XState k (where_ acc confp (xs_conf s)) (where_ acc (map snd out) (xs_cache s))
    (where_ acc prop (xs_logp s)) (xs_acc s + count id acc).

(* L80-101 *)
Definition xinit_loop (st : sstate T Key) : xstate :=
  let out : seq (lv * Cache) := map full (st_conf st) in
  XState (split2 (st_rng st)).2 (st_conf st) (map snd out) [seq lmul machine_pow o.1 | o <- out] (st_acc st).
Definition xsample_next (st : sstate T Key) : sstate T Key :=
  let s := iter sweep_size xloop_body (xinit_loop st) in
  SState (split2 (st_rng st)).1 (xs_conf s) (xs_acc s) (st_steps st + sweep_size * n_chains).
End Sampler.

(* models/qGPS.py with its default output, the log-amplitude sum_m prod_i eps: the cached update divides the
   site products by the old factors (L170-171).  If one of these is zero, so is the product, and 0/0 is nan *)
Section QGPS.
Variables (eps : nat -> nat -> nat -> RR) (M : nat).
Definition xqgps_full (x : seq nat) : lv * cache RR :=
  let c := qgps_full eps M (SymSet None false) x in (Fin (default_out (ca_prod c)), c).
Definition xqgps_fast (c : cache RR) (occs sites : seq nat) : lv * cache RR :=
  let old := [seq nth 0%N (ca_samples c) i | i <- sites] in
  let c' := qgps_fast eps M (SymSet None false) c occs sites in
  (if has (fun m => upd_prod eps old sites m == 0) (iota 0 M) then NaN else Fin (default_out (ca_prod c')), c').
End QGPS.
