(* C80: leave-one-out quantities.  C81: the steps of the relevance vector machine increase the evidence. *)
From Coq Require Import Reals Lra.
From Verif Require Import Base Fld Rstruct Sup_Model Sup_Fit_Model Sup_Ev_Alg Sup_RVM_Model Sup_RVM_Core Sup_RVM_Ev Sup_RVM_Marg Sup_RVM_Step.
Import Num.Theory Order.TTheory.
Local Open Scope ring_scope.

Section Props.
Variables (chol : forall m, 'M[RR]_m -> option 'M[RR]_m) (pinvh : forall m, 'M[RR]_m -> 'M[RR]_m).
Hypotheses (Hchol : chol_ok chol) (Hpinvh : pinvh_ok pinvh).
Variables (n : nat) (acut kcut beta : RR).
Hypothesis b_gt0 : 0 < beta.

Section RealData.
Variable ranks : seq (seq (frow RR n)).
Notation dat := (flatten ranks).
Notation KtK := (KtK_of idm ranks).
Notation y := (y_of idm ranks).
Hypothesis Hs : all (fun r => 0 < fs r) dat.
Lemma rp_gt0 (i : 'I_(size dat)) : 0 < prec beta i.
Proof. by rewrite mulr_gt0 //; apply: (all_row Hs). Qed.
Lemma rHG : (cfac RR false * beta) *: KtK = gram (@prec _ beta dat) (design dat).
Proof. by rewrite mul1r; apply: design_gram. Qed.
Lemma rHy : (cfac RR false * beta) *: y = gvec (@prec _ beta dat) (design dat) (targets dat).
Proof. by rewrite mul1r; apply: design_gvec. Qed.

(* covariance of the data without feature i *)
Definition cov_without (act : pred 'I_n) (alpha : 'I_n -> RR) (i : 'I_n) :=
  Cov (@prec _ beta dat) (design dat) (fun j => act j && (j != i)) alpha.
Lemma cov_withoutE act alpha i : cov_without act alpha i = Cov (@prec _ beta dat) (design dat) (predD1 act i) alpha.
Proof. by apply: eq_Cov => // j /=; rewrite andbC. Qed.

Theorem C80 alpha i : (forall j, act_of acut kcut KtK alpha j -> 0 < alpha j) ->
  let phi := col i (design dat) in
  let C := cov_without (act_of acut kcut KtK alpha) alpha i in
  s_of chol pinvh false acut kcut beta KtK alpha i = (phi^T *m invmx C *m phi) 0 0 /\
  q_of chol pinvh false acut kcut beta KtK y alpha i = (phi^T *m invmx C *m targets dat) 0 0.
Proof.
move=> Ha phi C; rewrite /C cov_withoutE; split.
  by rewrite -[LHS]mul1r; apply: (s_loo Hchol Hpinvh rp_gt0 rHG b_gt0 Ha).
by rewrite -[LHS]mul1r; apply: (q_loo Hchol Hpinvh rp_gt0 rHG rHy b_gt0 Ha).
Qed.

(* --- C81: evidence of the data as a function of alpha; precisions not below alpha_cutoff take the
   feature out *)
Definition evidence_of (alpha : 'I_n -> RR) : RR := model_evidence beta dat (fun j => alpha j < acut) alpha.
Notation step := (update_precisions rln chol pinvh false acut kcut beta KtK y).
Hypotheses (k_ge0 : 0 <= kcut) (valid : forall i, kcut < `|KtK i i|).
Notation th := (theta chol pinvh false acut kcut beta KtK y).
Notation s := (s_of chol pinvh false acut kcut beta KtK).
Lemma evidence_ofE alpha : evidence_of alpha = evidence (@prec _ beta dat) (design dat) (targets dat) acut kcut KtK alpha.
Proof.
by rewrite /evidence_of /model_evidence /evidence; congr gauss_ln; apply: eq_Cov => // j; rewrite (actE acut valid).
Qed.
(* positive precisions of the features in use; the new precision of the step stays below the cutoff *)
Definition pos_alpha (alpha : 'I_n -> RR) := forall i, alpha i < acut -> 0 < alpha i.
Definition stays_below (alpha : 'I_n -> RR) := forall i, 0 < th alpha i -> s alpha i ^+ 2 / th alpha i < acut.
Lemma pos_good alpha : pos_alpha alpha -> good acut kcut KtK alpha.
Proof. by move=> H i; rewrite (actE acut valid); apply: H. Qed.

Theorem C81 i0 alpha : pos_alpha alpha -> stays_below alpha ->
  let alpha' := step i0 alpha in
  (forall j a, 0 < a -> evidence_of (upd alpha j a) <= evidence_of alpha') \/
  (alpha' = alpha /\ exists i, [/\ alpha i < acut, (forall j, alpha j < acut -> j = i) &
     forall j a, 0 < a -> evidence_of (upd alpha j a) <= evidence_of (upd alpha i acut)]).
Proof.
move=> /pos_good G Hc alpha'.
have [H|[H [i [Hi Hj H2]]]] := step_best Hchol Hpinvh rp_gt0 rHG rHy b_gt0 k_ge0 valid i0 G Hc.
  by left=> j a a0; rewrite !evidence_ofE; apply: H.
right; split=> //; exists i; split.
- by rewrite -(actE acut valid).
- by move=> j; rewrite -(actE acut valid) => /Hj.
- by move=> j a a0; rewrite !evidence_ofE; apply: H2.
Qed.
Theorem C81_monotone i0 alpha k : pos_alpha alpha ->
  (forall j, (j < k)%N -> stays_below (iter j (step i0) alpha)) ->
  evidence_of alpha <= evidence_of (iter k (step i0) alpha).
Proof.
move=> /pos_good G Hc; rewrite !evidence_ofE.
by have [] := iter_mono Hchol Hpinvh rp_gt0 rHG rHy b_gt0 k_ge0 valid G Hc.
Qed.
End RealData.

Section ComplexData.
Variable ranks : seq (seq (crow RR n)).
Notation dat := (flatten ranks).
Hypothesis Hs : all (fun r => 0 < cs r) dat.
Lemma cp_gt0 (i : 'I_(size dat + size dat)) : 0 < cprec beta i.
Proof.
by rewrite /cprec; apply: mulr_gt0; [apply: mulr_gt0 => //; rewrite ltr0n | apply: (all_row Hs)].
Qed.
Lemma cHG : (cfac RR true * beta) *: cKtK ranks = gram (@cprec _ beta dat) (cdesign dat).
Proof. exact: cgram. Qed.
Lemma cHy : (cfac RR true * beta) *: cy ranks = gvec (@cprec _ beta dat) (cdesign dat) (ctargets dat).
Proof. exact: cgvec. Qed.
Theorem C80_expand alpha i : (forall j, act_of acut kcut (cKtK ranks) alpha j -> 0 < alpha j) ->
  let phi := col i (cdesign dat) in
  let C := Cov (@cprec _ beta dat) (cdesign dat) (fun j => act_of acut kcut (cKtK ranks) alpha j && (j != i)) alpha in
  s_of chol pinvh true acut kcut beta (cKtK ranks) alpha i = (phi^T *m invmx C *m phi) 0 0 / 2%:R /\
  q_of chol pinvh true acut kcut beta (cKtK ranks) (cy ranks) alpha i = (phi^T *m invmx C *m ctargets dat) 0 0 / 2%:R.
Proof.
move=> Ha phi C.
have -> : C = Cov (@cprec _ beta dat) (cdesign dat) (predD1 (act_of acut kcut (cKtK ranks) alpha) i) alpha.
  by apply: eq_Cov => // j /=; rewrite andbC.
have t0 : (2%:R : RR) != 0 by rewrite pnatr_eq0.
split; apply: (canRL (mulfK t0)); rewrite mulrC.
  exact: (s_loo Hchol Hpinvh cp_gt0 cHG b_gt0 Ha).
exact: (q_loo Hchol Hpinvh cp_gt0 cHG cHy b_gt0 Ha).
Qed.
End ComplexData.
End Props.
