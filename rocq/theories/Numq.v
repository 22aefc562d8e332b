(* Closed rational arithmetic in a numFieldType, decided in [rat]. *)
From Verif Require Import Base.
Import Num.Theory Order.TTheory.
Local Open Scope ring_scope.

Inductive qe := QN of nat | QA of qe & qe | QM of qe & qe | QO of qe | QV of qe | QX of qe & nat.
Fixpoint qev (F : fieldType) (e : qe) : F :=
  match e with
  | QN n => n%:R | QA a b => qev F a + qev F b | QM a b => qev F a * qev F b
  | QO a => - qev F a | QV a => (qev F a)^-1 | QX a n => qev F a ^+ n
  end.
Lemma qev_ratr (F : numFieldType) e : qev F e = ratr (qev [fieldType of rat] e).
Proof.
elim: e => [n|a Ia b Ib|a Ia b Ib|a Ia|a Ia|a Ia n] /=; rewrite ?Ia ?Ib.
- by rewrite ratr_nat.
- by rewrite rmorphD.
- by rewrite rmorphM.
- by rewrite rmorphN.
- by rewrite fmorphV.
- by rewrite rmorphX.
Qed.
Lemma qev_eq (F : numFieldType) a b : qev [fieldType of rat] a == qev [fieldType of rat] b -> qev F a = qev F b.
Proof. by move=> /eqP E; rewrite (qev_ratr F a) (qev_ratr F b) E. Qed.
Lemma qev_lt (F : numFieldType) a b : qev [fieldType of rat] a < qev [fieldType of rat] b -> qev F a < qev F b.
Proof. by move=> E; rewrite (qev_ratr F a) (qev_ratr F b) ltr_rat. Qed.
Lemma qev_le (F : numFieldType) a b : qev [fieldType of rat] a <= qev [fieldType of rat] b -> qev F a <= qev F b.
Proof. by move=> E; rewrite (qev_ratr F a) (qev_ratr F b) ler_rat. Qed.
Lemma qev_neq (F : numFieldType) a b : qev [fieldType of rat] a != qev [fieldType of rat] b -> qev F a != qev F b.
Proof. by move=> E; rewrite (qev_ratr F a) (qev_ratr F b) fmorph_eq. Qed.

Ltac qreify e :=
  lazymatch e with
  | GRing.add ?a ?b => let x := qreify a in let y := qreify b in constr:(QA x y)
  | GRing.mul ?a ?b => let x := qreify a in let y := qreify b in constr:(QM x y)
  | GRing.opp ?a => let x := qreify a in constr:(QO x)
  | GRing.inv ?a => let x := qreify a in constr:(QV x)
  | GRing.exp ?a ?n => let x := qreify a in constr:(QX x n)
  | GRing.natmul _ ?n => constr:(QN n)
  | GRing.one _ => constr:(QN 1)
  | GRing.zero _ => constr:(QN 0)
  end.
Ltac numq F :=
  lazymatch goal with
  | |- ?l = ?r => let x := qreify l in let y := qreify r in refine (@qev_eq F x y _); vm_compute; reflexivity
  | |- is_true (?l < ?r) => let x := qreify l in let y := qreify r in refine (@qev_lt F x y _); vm_compute; reflexivity
  | |- is_true (?l <= ?r) => let x := qreify l in let y := qreify r in refine (@qev_le F x y _); vm_compute; reflexivity
  | |- is_true (?l != ?r) => let x := qreify l in let y := qreify r in refine (@qev_neq F x y _); vm_compute; reflexivity
  end.
Example numq_test (F : numFieldType) : 2%:R / 7%:R * 2%:R / (2%:R / 7%:R + 2%:R) = 2%:R * 8%:R^-1 :> F.
Proof. numq F. Qed.
Example numq_test2 (F : numFieldType) : 4%:R^-1 ^+ 2 - 1 < 0 :> F.
Proof. numq F. Qed.
