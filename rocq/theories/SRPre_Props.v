(* C132: the SRRMSProp preconditioner validates its shift, and a call that raises leaves it unchanged. *)
From Verif Require Import Base QGT_Model UQGT_Model SRPre_Model.
Import Num.Theory Order.TTheory.
Local Open Scope ring_scope.

Section C132.
Variables (R : realFieldType) (n : nat) (decay eps : R) (sqrt : R -> R).
Variable solver : 'M[R]_(n + n) -> 'cV[R]_(n + n) -> 'cV[R]_(n + n).
Let call := sr_call decay eps sqrt solver.
Let run := sr_run decay eps sqrt solver.

Lemma call_shift p O g step : p_shift (call p O g step).1 = p_shift p.
Proof. by rewrite /call /sr_call; case: (bias_corrected _ _ _) => //= h; case: (lhs_shift _ _). Qed.
Lemma call_ema p O g step : p_ema (call p O g step).1 = update_ema decay true (p_ema p) g.
Proof. by rewrite /call /sr_call; case: (bias_corrected _ _ _) => //= h; case: (lhs_shift _ _). Qed.
Lemma run_shift p l : p_shift (run p l) = p_shift p.
Proof. by rewrite /run /sr_run; elim: l p => //= a l IH p; rewrite IH call_shift. Qed.
Lemma run_ema p l : p_ema (run p l) = foldl (update_ema decay true) (p_ema p) [seq a.1.2 | a <- l].
Proof. by rewrite /run /sr_run; elim: l p => //= a l IH p; rewrite IH call_ema. Qed.
Lemma init_inv (d : shift_t R) (i0 : R) (p : precond R n) : sr_init n d i0 = inr p -> p = Precond d (initial_ema i0) None.
Proof. by rewrite /sr_init; case: d => [s|f]; [case: ifP => // _|]; case. Qed.

Lemma call_inv p O g step x : (call p O g step).2 = inr x ->
  exists t s, [/\ step = Some t, lhs_shift (p_shift p) step = inr s &
    x = solver (dense_to_dense id sqrt O s eps (to_real (fun i => let m := update_ema decay true (p_ema p) g i in
                    (m.1 / (1 - decay ^+ t.+1), m.2 / (1 - decay ^+ t.+1))))) (to_real g)].
Proof.
rewrite /call /sr_call; case: step => [t|] //=; case E: (lhs_shift _ _) => [e|s] //= [<-].
by exists t, s.
Qed.

(* which shifts a constructed preconditioner uses, after any history of successful and failing calls:
   every result comes from a system with a shift between 0 and 1, which is the given number or the value of
   the schedule at the step of the call *)
Theorem C132_shift (d : shift_t R) (i0 : R) (p : precond R n) l O g step x :
  sr_init n d i0 = inr p -> (call (run p l) O g step).2 = inr x ->
  exists t s hat, [/\ step = Some t, 0 <= s <= 1,
    s = (match d with Scalar s0 => s0 | Schedule f => f t end),
    hat = (fun i => let m := p_ema (call (run p l) O g step).1 i in
                    (m.1 / (1 - decay ^+ t.+1), m.2 / (1 - decay ^+ t.+1))) &
    x = solver (dense_to_dense id sqrt O s eps (to_real hat)) (to_real g)].
Proof.
move=> Hi /call_inv[t [s [-> Hs ->]]]; exists t, s; rewrite call_ema; eexists; split=> //=.
  move: Hs Hi; rewrite run_shift => + Hi; rewrite (init_inv Hi) /= => Hs; move: Hs Hi.
  by case: d => [s0|f] /=; rewrite /sr_init /in_range; [case=> ->|]; case: ifP => // H [<-].
by move: Hs; rewrite run_shift (init_inv Hi) /=; case: d Hi => [s0|f] Hi /=; [case|case: ifP => // _ [<-]].
Qed.

(* the constructor raises exactly for numbers outside [0, 1]; a call raises exactly without a step or for
   a value of the schedule outside [0, 1] *)
Theorem C132_raises (d : shift_t R) (i0 : R) :
  (sr_init n d i0 = inl AssertionErr <-> exists2 s, d = Scalar s & ~~ (0 <= s <= 1)) /\
  (forall p l O g step, sr_init n d i0 = inr p ->
     ((exists e, (call (run p l) O g step).2 = inl e) <->
      (step = None \/ exists f t, [/\ d = Schedule f, step = Some t & ~~ (0 <= f t <= 1)]))).
Proof.
split.
  rewrite /sr_init /in_range; case: d => [s|f]; last by split=> // -[].
  case: ifP => H; split=> //; first by case=> s' [<-]; rewrite H.
  by move=> _; exists s; rewrite ?H.
move=> p l O g step Hi; have Hp := init_inv Hi; rewrite /call /sr_call /=.
case: step => [t|] /=; last by split=> _; [left|exists TypeErr].
have -> : p_shift (run p l) = d by rewrite run_shift Hp.
clear; case: d => [s|f] /=; first by split=> [[]//|[//|[f [t' []]]]].
rewrite /in_range; case: ifP => H; split.
- by case.
- by case=> // -[f' [t' [[<-] [<-]]]]; rewrite H.
- by move=> _; right; exists f, t; rewrite H.
- by exists AssertionErr.
Qed.

(* the state after any history, with exceptions: the moving average contains the gradients of the failed
   calls as well, the last solution is untouched by them *)
Theorem C132_failed_state (d : shift_t R) (i0 : R) (p : precond R n) l :
  sr_init n d i0 = inr p ->
  p_ema (run p l) = ema_run decay true i0 [seq a.1.2 | a <- l] /\
  (forall O g step e, (call (run p l) O g step).2 = inl e ->
     p_x0 (call (run p l) O g step).1 = p_x0 (run p l)).
Proof.
move=> /init_inv Hp; split; first by rewrite run_ema Hp.
by move=> O g step e; rewrite /call /sr_call; case: (bias_corrected _ _ _) => //= h; case: (lhs_shift _ _).
Qed.

(* a failed first call that is repeated successfully: the corrected second moment is 1 + decay times the
   square of the only gradient *)
Theorem C132_retry (d : shift_t R) (p : precond R n) O g x :
  0 < decay < 1 -> sr_init n d 0 = inr p ->
  (call (run p [:: (O, g, None)]) O g (Some 0%N)).2 = inr x ->
  exists2 s, 0 <= s <= 1 &
    x = solver (dense_to_dense id sqrt O s eps
          (to_real (fun i => ((1 + decay) * (g i).1 ^+ 2, (1 + decay) * (g i).2 ^+ 2)))) (to_real g).
Proof.
move=> /andP[d0 d1] Hi Hx; have [t [s [hat [[Ht] Hs _ Hh ->]]]] := C132_shift Hi Hx; exists s => //.
rewrite -Ht call_ema run_ema (init_inv Hi) /= expr1 in Hh.
have nz : 1 - decay != 0 by rewrite subr_eq0 eq_sym lt_eqF.
have E y : (decay * (decay * 0 + (1 - decay) * y) + (1 - decay) * y) / (1 - decay) = (1 + decay) * y.
  by rewrite mulr0 add0r mulrCA -mulrDr mulrAC divff // mul1r mulrDl mul1r addrC.
suff -> : to_real hat = to_real (fun i => ((1 + decay) * (g i).1 ^+ 2, (1 + decay) * (g i).2 ^+ 2)) by [].
by rewrite Hh /to_real; congr col_mx; apply/matrixP => i j; rewrite !mxE /= E.
Qed.
End C132.

(* a call that raises changes the preconditioner: a schedule that leaves [0, 1] in its first step *)
Theorem C132_failed_unchanged_refuted (R : realFieldType) (n : nat) (decay eps : R) (sqrt : R -> R) solver :
  (0 < n)%N -> 0 < decay < 1 ->
  exists (d : shift_t R) p (g : leaf R n) O,
    [/\ sr_init n d 0 = inr p,
        (sr_call decay eps sqrt solver p O g (Some 0%N)).2 = inl AssertionErr,
        (exists x, (sr_call decay eps sqrt solver p O g (Some 1%N)).2 = inr x) &
        p_ema (sr_call decay eps sqrt solver p O g (Some 0%N)).1 <> p_ema p].
Proof.
case: n solver => // n solver _ /andP[d0 d1].
exists (Schedule (fun t => if t == 0%N then 2%:R else 1)), (Precond (Schedule (fun t => if t == 0%N then 2%:R else 1)) (initial_ema 0) None),
  (fun _ => (1, 0)), [::]; split=> //.
- by rewrite /sr_call /= /in_range /= (ler_nat _ 2 1) andbF.
- by rewrite /sr_call /= /in_range /= ler01 lexx /=; eexists.
- rewrite /sr_call /= /in_range /= (ler_nat _ 2 1) andbF /= => /(congr1 (fun f => (f ord0).1)).
  rewrite /update_ema /initial_ema /= mulr0 add0r expr1n mulr1 => /eqP; by rewrite subr_eq0 gt_eqF.
Qed.

(* one parameter with gradient 1, decay 1/2: the first call without a step raises, the repeated call solves
   with the second moment 3/2 *)
Example C132_example :
  exists p, sr_init 1 (Scalar (1 / 2%:Q)) 0 = inr p /\
  sr_init 1 (Scalar (2%:Q)) 0 = inl AssertionErr /\
  (p_ema (sr_run (1 / 2%:Q) 0 id (fun _ b => b) p [:: ([::], fun _ => (1, 0), None); ([::], fun _ => (1, 0), Some 0%N)]) 0).1
    / (1 - (1 / 2%:Q) ^+ 1) = 3%:Q / 2%:Q.
Proof. by exists (Precond (Scalar (1 / 2%:Q)) (initial_ema 0) None). Qed.

Print Assumptions C132_shift.
Print Assumptions C132_raises.
Print Assumptions C132_failed_state.
Print Assumptions C132_retry.
Print Assumptions C132_failed_unchanged_refuted.
