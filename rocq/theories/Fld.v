(* The stdlib [field] tactic on abstract fields, in the same way as [mring] (Base.v).  Contains no
   model of the code.  Usage, in a section with [F : fieldType]: [Add Field FF : (f_theory F).],
   then [mfield F]; the side conditions are disequalities [_ <> 0]. *)
From Coq Require Export Field.
From Verif Require Import Base.
Section FieldOps.
Variable F : fieldType.
Local Open Scope ring_scope.
Definition f0 : F := 0.
Definition f1 : F := 1.
Definition fadd (x y : F) : F := x + y.
Definition fmul (x y : F) : F := x * y.
Definition fopp (x : F) : F := - x.
Definition fsub (x y : F) : F := x - y.
Definition finv (x : F) : F := x^-1.
Definition fdiv (x y : F) : F := x / y.
Lemma f_theory : field_theory f0 f1 fadd fmul fsub fopp fdiv finv (@eq F).
Proof.
split; first split=> *; rewrite /f0 /f1 /fadd /fmul /fsub /fopp /fdiv /finv //.
- exact: add0r. - exact: addrC. - exact: addrA. - exact: mul1r.
- exact: mulrC. - exact: mulrA. - exact: mulrDl. - exact: subrr.
- by move/eqP; rewrite (negbTE (oner_neq0 _)).
- by move=> x /eqP Hx; rewrite mulVf.
Qed.
End FieldOps.
Ltac ffind t :=
  lazymatch t with
  | @GRing.add _ ?a ?b => match constr:(Set) with _ => ffind a | _ => ffind b end
  | @GRing.mul _ ?a ?b => match constr:(Set) with _ => ffind a | _ => ffind b end
  | @GRing.opp _ ?a => ffind a
  | @GRing.inv _ ?a => ffind a
  | GRing.zero _ => fail
  | GRing.one _ => fail
  | ?v => let _ := match goal with _ => tryif is_var v then fail else idtac end in constr:(v)
  end.
Ltac fatoms :=
  repeat match goal with
  | |- @eq _ ?l ?r =>
    let v := match constr:(Set) with _ => ffind l | _ => ffind r end in
    let z := fresh "z" in set z := v in *; clearbody z
  end.
Ltac mfield_prep F :=
  match goal with
  | |- @eq ?T _ _ => change T with (GRing.Field.sort F)
  | _ => idtac
  end;
  repeat match goal with
  | |- context [@GRing.add ?Z ?x ?y] => change (@GRing.add Z x y) with (@fadd F x y)
  | |- context [@GRing.mul ?Z ?x ?y] => change (@GRing.mul Z x y) with (@fmul F x y)
  | |- context [@GRing.opp ?Z ?x] => change (@GRing.opp Z x) with (@fopp F x)
  | |- context [@GRing.inv ?Z ?x] => change (@GRing.inv Z x) with (@finv F x)
  | |- context [GRing.zero ?Z] => change (GRing.zero Z) with (@f0 F)
  | |- context [GRing.one ?Z] => change (GRing.one Z) with (@f1 F)
  end.
Ltac mfield F := try fatoms; mfield_prep F; field; rewrite /f0 /f1 /fadd /fmul /fopp /fsub /finv /fdiv.
Section Test.
Variable F : fieldType.
Local Open Scope ring_scope.
Add Field FT : (f_theory F).
Lemma mfield_test (a s : F) : a != 0 -> a + s != 0 -> - (a + s)^-1 + (a^-1 - a^-1 * ((a + s)^-1 * s)) = 0.
Proof. by move=> /eqP H /eqP H2; mfield F. Qed.
End Test.
