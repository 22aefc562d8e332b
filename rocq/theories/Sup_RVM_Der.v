(* Derivative of the evidence with respect to the noise precisions and to the prior precisions. *)
From Coq Require Import Reals Lra.
From Verif Require Import Base Fld Rstruct Calc Sup_Model Sup_Fit_Model Sup_Ev_Alg Sup_RVM_Model Sup_RVM_Core Sup_RVM_Ev Sup_RVM_Marg Sup_RVM_Step.
Import Num.Theory Order.TTheory.
Local Open Scope ring_scope.

Section Field.
Variable F : fieldType.
Add Field FD : (f_theory F).
Lemma nd1 (p g d : F) : p != 0 -> p ^+ 2 * g * (d / p ^+ 2) = g * d.
Proof. by rewrite !expr2 => /eqP H; mfield F. Qed.
Lemma nd2 (p d r : F) : p != 0 -> - (p * r * (- d / p ^+ 2 * (p * r))) = d * r ^+ 2.
Proof. by rewrite !expr2 => /eqP H; mfield F. Qed.
Lemma nd3 (p d : F) : p != 0 -> p * (d / p ^+ 2) = d / p.
Proof. by rewrite !expr2 => /eqP H; mfield F. Qed.
End Field.

Lemma derm_sum0 m n (A : 'M[RR]_(m, n)) (M : RR -> 'M[RR]_(m, n)) x D : derm M x D -> derm (fun a => M a + A) x D.
Proof. by move=> H; apply: derm_eq (derm_add H (derm_const A x)) _; rewrite addr0. Qed.

Section NoiseDer.
Variables (N n : nat) (Phi : 'M[RR]_(N, n)) (t : 'cV[RR]_N) (act : pred 'I_n) (al : 'I_n -> RR).
Hypothesis al_gt0 : forall j, act j -> 0 < al j.
Variables (p : RR -> 'I_N -> RR) (p' : 'I_N -> RR) (x lo hi : RR).
Hypotheses (Hlo : lo < x) (Hhi : x < hi) (p_gt0 : forall a i, lo < a -> a < hi -> 0 < p a i).
Hypothesis p_der : forall i, der (fun a => p a i) x (p' i).
Notation C a := (Cov (p a) Phi act al).
Notation G := (GA (p x) Phi act al).
Notation m := #|act|.
Definition PA_of : 'M[RR]_(N, m) := \matrix_(i, k) Phi i (enum_val k).
Notation PA := PA_of.
Definition w_of : 'cV[RR]_m := invmx G *m zA (p x) Phi act t.
Definition resid (i : 'I_N) : RR := t i 0 - (PA *m w_of) i 0.

Let px i : 0 < p x i. Proof. exact: p_gt0. Qed.
Let Ci := invmx (C x).
Lemma Cov_der : derm (fun a => C a) x (diag_mx (\row_i (- p' i / p x i ^+ 2))).
Proof.
apply: derm_sum0 => i j; rewrite !mxE.
have H : der (fun a => (p a i)^-1) x (- p' i / p x i ^+ 2) by apply: der_inv (p_der i); rewrite gt_eqF.
case: (eqVneq i j) => [<-|ij].
  by rewrite mulr1n; apply: der_ext H => a; rewrite !mxE eqxx mulr1n.
rewrite mulr0n; apply: der_ext (der_const 0 x) => a; by rewrite !mxE (negbTE ij) mulr0n.
Qed.
Lemma Ci_t i : (Ci *m t) i 0 = p x i * resid i.
Proof.
have -> : Ci *m t = diag_mx (\row_i p x i) *m (t - PA *m w_of).
  by rewrite /Ci (woodbury Phi px al_gt0) mulmxBl mulmxBr /w_of zAE !mulmxA.
by rewrite mul_diag_mx mxE [(\row__ _) _ _]mxE; congr (_ * _); rewrite /resid addE oppE.
Qed.
Lemma Ci_d i : Ci i i = p x i - p x i ^+ 2 * (PA *m invmx G *m PA^T) i i.
Proof.
rewrite /Ci (woodbury Phi px al_gt0).
have -> : diag_mx (\row_i p x i) *m PA *m invmx G *m PA^T *m diag_mx (\row_i p x i) =
  diag_mx (\row_i p x i) *m (PA *m invmx G *m PA^T) *m diag_mx (\row_i p x i) by rewrite !mulmxA.
by rewrite mul_diag_mx mul_mx_diag !mxE eqxx mulr1n expr2 mulrAC.
Qed.
(* twice the derivative of the evidence *)
Theorem ev_noise_der : der (fun a => gauss_ln (C a) t) x
  (((\sum_i p' i / p x i) - \tr (invmx G *m (PA^T *m diag_mx (\row_i p' i) *m PA)) - \sum_i p' i * resid i ^+ 2) / 2%:R).
Proof.
have dC := det_Cov Phi px al_gt0.
have H1 := der_lndet Cov_der dC.
have U a : lo < a -> a < hi -> C a \in unitmx by move=> A1 A2; apply: Cov_unit => // i; apply: p_gt0.
have H2 := derm_mul (derm_mul (derm_const t^T x) (derm_inv Hlo Hhi U Cov_der)) (derm_const t x).
have H3 := der_add (der_add (der_const (N%:R * rln (2%:R * (PI : RR))) x) H1) (H2 0 0).
apply: der_ext (der_eq (der_opp (der_scale 2%:R^-1 H3)) _) => [a|]; first by rewrite /gauss_ln [_ / _]mulrC.
rewrite mulrC -mulNr; congr (_ / _); rewrite mul0mx add0r mulmx0 addr0 add0r -/Ci.
have -> : \tr (Ci *m diag_mx (\row_i (- p' i / p x i ^+ 2))) =
  - ((\sum_i p' i / p x i) - \tr (invmx G *m (PA^T *m diag_mx (\row_i p' i) *m PA))).
  rewrite !mulmxA [\tr (_ *m PA)]mxtrace_mulC !mulmxA /mxtrace -sumrB -sumrN; apply: eq_bigr => i _.
  rewrite !mul_mx_diag [LHS]mxE [X in - (_ - X)]mxE [(\row__ _) _ _]mxE [(\row__ _) _ _]mxE Ci_d.
  have pn : p x i != 0 by rewrite gt_eqF.
  by rewrite mulNr mulrN mulrBl nd1 // nd3.
have -> : (t^T *m (- (Ci *m diag_mx (\row_i (- p' i / p x i ^+ 2)) *m Ci)) *m t) 0 0 = \sum_i p' i * resid i ^+ 2.
  rewrite mulmxN mulNmx [LHS]mxE -!mulmxA mulmxA.
  have -> : t^T *m Ci = (Ci *m t)^T by rewrite trmx_mul (Cov_inv_sym (p x) Phi).
  rewrite mul_diag_mx mxE -sumrN; apply: eq_bigr => i _; rewrite [(Ci *m t)^T _ _]mxE [X in _ * X]mxE Ci_t [(\row__ _) _ _]mxE.
  by apply: nd2; rewrite gt_eqF.
by rewrite [- (- _ + _)]opprD [- - _]opprK.
Qed.
End NoiseDer.
