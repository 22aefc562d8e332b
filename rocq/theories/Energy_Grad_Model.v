(* vqs/mc/mc_state/state_unique_samples.py, grad_expect_hermitian_chunked, L184-253, with complex
   amplitudes and real or complex parameters.  Complex numbers are pairs of reals.  [ranks]: per MPI rank
   the samples and their relative counts; _sum and _mpi_sum_jax sum over the ranks.  nk.jax.vjp with
   conjugate=True (L223-239) applied to v is conj(sum_x v_x O_x), O_x the derivative of the log-amplitude;
   chunking changes nothing (contract of NetKet). *)
From mathcomp Require Import zify.
From Verif Require Import Base Rstruct Calc.
Import Num.Theory Order.TTheory.
Local Open Scope ring_scope.

Definition cx := (RR * RR)%type.
Definition xadd (a b : cx) : cx := (a.1 + b.1, a.2 + b.2).
Definition xsub (a b : cx) : cx := (a.1 - b.1, a.2 - b.2).
Definition xmul (a b : cx) : cx := (a.1 * b.1 - a.2 * b.2, a.1 * b.2 + a.2 * b.1).
Definition xconj (a : cx) : cx := (a.1, - a.2).
Definition xabs2 (a : cx) : RR := a.1 ^+ 2 + a.2 ^+ 2.
Definition xdiv (a b : cx) : cx := ((xmul a (xconj b)).1 / xabs2 b, (xmul a (xconj b)).2 / xabs2 b).
Definition xscale (c : RR) (a : cx) : cx := (c * a.1, c * a.2).
Definition xsum (I : Type) (r : seq I) (f : I -> cx) : cx := (\sum_(i <- r) (f i).1, \sum_(i <- r) (f i).2).

Section Expect.
Variables (T : Type) (loc_vals oks : T -> cx).
Implicit Type ranks : seq (seq T * seq RR).
Definition pairs_of ranks : seq (seq (T * RR)) := [seq zip r.1 r.2 | r <- ranks].
(* L214 *)
Definition en_mean ranks : cx := xsum (pairs_of ranks) (fun r => xsum r (fun p => xscale p.2 (loc_vals p.1))).
(* L216 *)
Definition en_variance ranks : RR :=
  \sum_(r <- pairs_of ranks) \sum_(p <- r) p.2 * xabs2 (xsub (loc_vals p.1) (en_mean ranks)).
(* L221 *)
Definition loc_vals_centered ranks (p : T * RR) : cx := xscale p.2 (xsub (loc_vals p.1) (en_mean ranks)).
(* L241: vjp_fun(conj(loc_vals_centered)) of one rank *)
Definition val_grad ranks (r : seq (T * RR)) : cx :=
  xconj (xsum r (fun p => xmul (xconj (loc_vals_centered ranks p)) (oks p.1))).
(* L243-249: a real parameter takes 2 * x.real; L251: the sum over the ranks *)
Definition grad_real ranks : RR := \sum_(r <- pairs_of ranks) 2%:R * (val_grad ranks r).1.
(* a complex parameter *)
Definition grad_complex ranks : cx := xsum (pairs_of ranks) (val_grad ranks).
End Expect.
