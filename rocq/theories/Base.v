(* Common imports, the ring tactic used on abstract commutative rings, and a few
   list facts.  Contains no model of the code. *)
From Coq Require Export Ring Setoid.
From mathcomp Require Export all_ssreflect all_algebra zify.
#[export] Set Implicit Arguments.
#[export] Unset Strict Implicit.
#[export] Unset Printing Implicit Defensive.
Export GRing.Theory.

(* Plain copies of the ring operations on a comRingType, so that the stdlib [ring]
   tactic sees one syntactic form for each operation.  Usage, inside a section with
   [R : comRingType]: [Add Ring RR : (r_theory R).] and then [mring R]. *)
Section RingOps.
Variable R : comRingType.
Local Open Scope ring_scope.
Definition r0 : R := 0.
Definition r1 : R := 1.
Definition radd (x y : R) : R := x + y.
Definition rmul (x y : R) : R := x * y.
Definition ropp (x : R) : R := - x.
Definition rsub (x y : R) : R := x - y.
Lemma r_theory : ring_theory r0 r1 radd rmul rsub ropp (@eq R).
Proof.
split=> *; rewrite /r0 /r1 /radd /rmul /rsub /ropp.
- exact: add0r. - exact: addrC. - exact: addrA. - exact: mul1r.
- exact: mulrC. - exact: mulrA. - exact: mulrDl. - by [].
- exact: subrr.
Qed.
End RingOps.

Ltac mring_prep R :=
  match goal with
  | |- @eq ?T _ _ => change T with (GRing.ComRing.sort R)
  | _ => idtac
  end;
  repeat match goal with
  | |- context [@GRing.add ?Z ?x ?y] => change (@GRing.add Z x y) with (@radd R x y)
  | |- context [@GRing.mul ?Z ?x ?y] => change (@GRing.mul Z x y) with (@rmul R x y)
  | |- context [@GRing.opp ?Z ?x] => change (@GRing.opp Z x) with (@ropp R x)
  | |- context [GRing.zero ?Z] => change (GRing.zero Z) with (@r0 R)
  | |- context [GRing.one ?Z] => change (GRing.one Z) with (@r1 R)
  end.
(* generalise the atoms of a ring equation first, so that operations inside atoms are
   not rewritten *)
Ltac mfind t :=
  lazymatch t with
  | @GRing.add _ ?a ?b => match constr:(Set) with _ => mfind a | _ => mfind b end
  | @GRing.mul _ ?a ?b => match constr:(Set) with _ => mfind a | _ => mfind b end
  | @GRing.opp _ ?a => mfind a
  | GRing.zero _ => fail
  | GRing.one _ => fail
  | ?v => let _ := match goal with _ => tryif is_var v then fail else idtac end in constr:(v)
  end.
Ltac matoms :=
  repeat match goal with
  | |- @eq _ ?l ?r =>
    let v := match constr:(Set) with _ => mfind l | _ => mfind r end in
    let z := fresh "z" in set z := v; clearbody z
  end.
Ltac mring R := try matoms; mring_prep R; ring.
