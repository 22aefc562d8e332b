(* Coq's real numbers as a mathcomp rcfType: the intermediate value theorem for polynomials *)
From Coq Require Import Reals Lra.
From Verif Require Import Base Rstruct Calc.
Import Num.Theory Order.TTheory.
Local Open Scope ring_scope.

Lemma horner_der (p : {poly RR}) (x : RR) : exists l, der (fun y => p.[y]) x l.
Proof.
elim/poly_ind: p => [|p c [l IH]].
  by exists 0; apply: der_ext (der_const 0 x) => y; rewrite horner0.
exists (l * x + p.[x] * 1 + 0); apply: der_ext (der_add (der_mul IH (der_id x)) (der_const c x)) => y.
by rewrite hornerMXaddC.
Qed.
Lemma horner_cont (p : {poly RR}) : continuity (fun x : R => p.[x]).
Proof.
move=> x; have [l H] := horner_der p x; apply: derivable_continuous_pt; exists l; exact: H.
Qed.
Lemma R_rcf_axiom : Num.real_closed_axiom R_realFieldType.
Proof.
move=> p a b /RleP Hab /andP[Ha Hb].
have [||z [H1 H2]] := IVT_cor (fun x : R => p.[x]) a b (@horner_cont p).
- exact: Hab.
- have : p.[a] * p.[b] <= 0 by apply: mulr_le0_ge0.
  by move/RleP.
exists z; first by apply/andP; split; apply/RleP; case: H1.
by rewrite rootE; apply/eqP.
Qed.
Canonical R_rcfType := RcfType R R_rcf_axiom.
