(* C53 with complex_expand. *)
From Verif Require Import Base Sup_Model Sup_Fit_Model Sup_Fit_Proofs Sup_Fit_Props.
Import Num.Theory Order.TTheory.
Local Open Scope ring_scope.

Section Expand.
Variables (C : numClosedFieldType) (n : nat).
Notation cj := [rmorphism of @conjC C].

Definition exp_row (r : frow C n) : seq (frow C (n + n)) :=
  [:: FRow (row_mx (map_mx (@Re C) (fk r)) (- map_mx (@Im C) (fk r))) (fs r) ('Re (fy r));
      FRow (row_mx (map_mx (@Im C) (fk r)) (map_mx (@Re C) (fk r))) (fs r) ('Im (fy r))].
Definition exp_ranks (ranks : seq (seq (frow C n))) := [seq flatten [seq exp_row r | r <- rk] | rk <- ranks].

Lemma cj_K : involutive cj. Proof. exact: conjCK. Qed.
Lemma cj_norm (x : C) : 0 <= x * cj x. Proof. exact: mul_conjC_ge0. Qed.
Lemma cj_ge0 (x : C) : 0 <= x -> cj x = x. Proof. exact: geC0_conj. Qed.

Lemma sum_exp (ranks : seq (seq (frow C n))) (F : frow C (n + n) -> C) (G : frow C n -> C) :
  (forall r, 0 <= fs r -> \sum_(x <- exp_row r) F x = G r) ->
  all (all (fun r => 0 <= fs r)) ranks ->
  \sum_(rk <- exp_ranks ranks) \sum_(x <- rk) F x = \sum_(rk <- ranks) \sum_(r <- rk) G r.
Proof.
move=> H; rewrite /exp_ranks big_map; elim: ranks => [|rk rr IH] /=; first by rewrite !big_nil.
case/andP=> H1 H2; rewrite !big_cons {}IH //; congr (_ + _).
elim: rk H1 => [|r rk IH] /=; first by rewrite !big_nil.
by case/andP=> Hr Hrk; rewrite [RHS]big_cons -IH // -(H r Hr) -[_ :: _ :: _]/(exp_row r ++ _) big_cat.
Qed.

Lemma exp_ge0 ranks : all (all (fun r => 0 <= fs r)) ranks -> all (all (fun r : frow C (n + n) => 0 <= fs r)) (exp_ranks ranks).
Proof.
rewrite /exp_ranks all_map; apply: sub_all => rk /=.
by elim: rk => //= r rk IH /andP[H1 /IH ->]; rewrite H1.
Qed.

Lemma conjRe (x : C) : ('Re x)^* = 'Re x. Proof. exact/CrealP/Creal_Re. Qed.
Lemma conjIm (x : C) : ('Im x)^* = 'Im x. Proof. exact/CrealP/Creal_Im. Qed.

Lemma Re_conjM (x y : C) : 'Re (x^* * y) = 'Re x * 'Re y + 'Im x * 'Im y.
Proof. by rewrite ReM Re_conj Im_conj mulNr opprK. Qed.
Lemma Im_conjM (x y : C) : 'Im (x^* * y) = 'Re x * 'Im y - 'Im x * 'Re y.
Proof. by rewrite ImM Re_conj Im_conj mulrN ['Im x * _]mulrC. Qed.
Lemma norm_ReIm (x : C) : x * x^* = 'Re x * 'Re x + 'Im x * 'Im x.
Proof. by rewrite -normCK normC2_Re_Im !expr2. Qed.

Lemma Re_sum (ranks : seq (seq (frow C n))) (F : frow C n -> C) :
  'Re (\sum_(rk <- ranks) \sum_(r <- rk) F r) = \sum_(rk <- ranks) \sum_(r <- rk) 'Re (F r).
Proof. by rewrite raddf_sum; apply: eq_bigr => rk _; rewrite raddf_sum. Qed.
Lemma Im_sum (ranks : seq (seq (frow C n))) (F : frow C n -> C) :
  'Im (\sum_(rk <- ranks) \sum_(r <- rk) F r) = \sum_(rk <- ranks) \sum_(r <- rk) 'Im (F r).
Proof. by rewrite raddf_sum; apply: eq_bigr => rk _; rewrite raddf_sum. Qed.

Lemma ReMs (s a b : C) : 0 <= s -> 'Re (a^* * (s * b)) = s * ('Re a * 'Re b + 'Im a * 'Im b).
Proof. by move=> Hs; rewrite mulrCA ReMl ?ger0_real // Re_conjM. Qed.
Lemma ImMs (s a b : C) : 0 <= s -> 'Im (a^* * (s * b)) = s * ('Re a * 'Im b - 'Im a * 'Re b).
Proof. by move=> Hs; rewrite mulrCA ImMl ?ger0_real // Im_conjM. Qed.

Variable ranks : seq (seq (frow C n)).
Hypothesis s_ge0 : all (all (fun r => 0 <= fs r)) ranks.

Lemma KtK_exp : KtK_of cj (exp_ranks ranks) = expand_mat (KtK_of cj ranks).
Proof.
apply/matrixP => i j; rewrite [LHS]mxE.
case: (split_ordP i) => a ->; case: (split_ordP j) => c ->;
  rewrite ?block_mxEul ?block_mxEur ?block_mxEdl ?block_mxEdr !mxE ?Re_sum ?Im_sum -?sumrN.
- apply: sum_exp s_ge0 => r Hr; rewrite !big_cons big_nil /= !row_mxEl !mxE conjRe conjIm (ReMs _ _ Hr).
  by rewrite addr0 mulrDr ![fs r * (_ * _)]mulrCA.
- under [RHS]eq_bigr => rk _ do rewrite -sumrN.
  apply: sum_exp s_ge0 => r Hr; rewrite !big_cons big_nil /= !row_mxEl !row_mxEr !mxE conjRe conjIm (ImMs _ _ Hr).
  by rewrite addr0 -[RHS]mulrN opprB mulrBr ![fs r * (_ * _)]mulrCA !mulrN addrC.
- apply: sum_exp s_ge0 => r Hr; rewrite !big_cons big_nil /= !row_mxEl !row_mxEr !mxE rmorphN conjRe conjIm (ImMs _ _ Hr).
  by rewrite addr0 mulNr mulrBr ![fs r * (_ * _)]mulrCA addrC.
apply: sum_exp s_ge0 => r Hr; rewrite !big_cons big_nil /= !row_mxEr !mxE rmorphN conjRe conjIm (ReMs _ _ Hr).
by rewrite addr0 !mulrN mulNr opprK mulrDr ![fs r * (_ * _)]mulrCA addrC.
Qed.

Lemma y_exp : y_of cj (exp_ranks ranks) = expand_vec (y_of cj ranks).
Proof.
apply/matrixP => i j; rewrite [LHS]mxE [j]ord1.
case: (split_ordP i) => a ->; rewrite ?col_mxEu ?col_mxEd !mxE ?Re_sum ?Im_sum.
- apply: sum_exp s_ge0 => r Hr; rewrite !big_cons big_nil /= !row_mxEl !mxE conjRe conjIm (ReMs _ _ Hr).
  by rewrite addr0 mulrDr ![fs r * (_ * _)]mulrCA.
apply: sum_exp s_ge0 => r Hr; rewrite !big_cons big_nil /= !row_mxEr !mxE rmorphN conjRe conjIm (ImMs _ _ Hr).
by rewrite addr0 mulNr mulrBr ![fs r * (_ * _)]mulrCA addrC.
Qed.

Lemma Re_mulmx (k : 'rV[C]_n) (z : 'cV[C]_n) :
  (row_mx (map_mx (@Re C) k) (- map_mx (@Im C) k) *m expand_vec z) 0 0 = 'Re ((k *m z) 0 0).
Proof.
rewrite mul_row_col mxE [X in X + _]mxE [X in _ + X]mxE -big_split /= mxE raddf_sum; apply: eq_bigr => i _.
by rewrite !mxE /= ReM mulNr.
Qed.
Lemma Im_mulmx (k : 'rV[C]_n) (z : 'cV[C]_n) :
  (row_mx (map_mx (@Im C) k) (map_mx (@Re C) k) *m expand_vec z) 0 0 = 'Im ((k *m z) 0 0).
Proof.
rewrite mul_row_col mxE [X in X + _]mxE [X in _ + X]mxE -big_split /= mxE raddf_sum; apply: eq_bigr => i _.
by rewrite !mxE /= ImM addrC ['Im _ * _]mulrC.
Qed.

Lemma loss_exp (beta : C) (al : 'I_(n + n) -> C) (z : 'cV[C]_n) :
  loss cj beta al (exp_ranks ranks) (expand_vec z) =
  beta * (\sum_(rk <- ranks) \sum_(r <- rk) fs r * ((fy r - (fk r *m z) 0 0) * (fy r - (fk r *m z) 0 0)^*))
  + \sum_(i < n) (al (lshift n i) * ('Re (z i 0) * 'Re (z i 0)) + al (rshift n i) * ('Im (z i 0) * 'Im (z i 0))).
Proof.
rewrite /loss; congr (_ * _ + _).
  apply: sum_exp s_ge0 => r Hr; rewrite !big_cons big_nil /= Re_mulmx Im_mulmx -!raddfB /= conjRe conjIm.
  by rewrite addr0 -mulrDr -norm_ReIm.
rewrite big_split_ord /= -big_split /=; apply: eq_bigr => i _.
by rewrite !mxE !(unsplitK (inl _)) !(unsplitK (inr _)) !mxE conjRe conjIm.
Qed.
End Expand.

(* a solver that also keeps real systems real (all arrays are float with complex_expand) *)
Definition real_solver (C : numClosedFieldType) (solve : forall m, 'M[C]_m -> 'cV[C]_m -> 'cV[C]_m) : Prop :=
  forall m (A : 'M[C]_m) (v : 'cV[C]_m), (forall i j, A i j \is Num.real) -> (forall i, v i 0 \is Num.real) ->
    forall i, solve m A v i 0 \is Num.real.

Lemma real_solver_exists (C : numClosedFieldType) : exists solve, @exact_solver C solve /\ real_solver solve.
Proof.
have [s Hs] := exact_solver_exists C.
pose rl m (A : 'M[C]_m) (v : 'cV[C]_m) := [forall i, forall j, A i j \is Num.real] && [forall i, v i 0 \is Num.real].
exists (fun m A v => if rl m A v then map_mx (@Re C) (s m A v) else s m A v); split=> m A v.
  move=> Hx; have H := Hs m A v Hx; case: ifP => // /andP[/forallP HA /forallP Hv].
  apply/matrixP => i j; rewrite -[in RHS]H !mxE [j]ord1.
  have : (A *m s m A v) i 0 \is Num.real by rewrite H; exact: Hv.
  rewrite mxE => /Creal_ReP <-; rewrite raddf_sum; apply: eq_bigr => k _; rewrite mxE /= ReMl //.
  exact: (forallP (HA i)).
move=> HA Hv i; rewrite ifT ?mxE ?Creal_Re //.
by apply/andP; split; apply/forallP => k; [apply/forallP => h|].
Qed.

Section C53x.
Variables (C : numClosedFieldType) (D M l : nat) (b : bool).
Notation cj := [rmorphism of @conjC C].
Notation N := (M * D)%N.
Notation epsilons := {ffun 'I_D * 'I_M * 'I_l.+1 -> C}.
Notation refs := {ffun 'I_M -> 'I_l.+1}.
Notation feats := {ffun 'I_M * 'I_D -> C}.
Notation sq x := (x * x).

(* the loss with complex_expand: half of each alpha for the real and the imaginary part *)
Definition eps_lossx (beta : C) (alR alI : 'I_M -> 'I_D -> C) (alBR alBI : C) (pm : 'I_M -> 'I_D -> C)
    (data : seq (seq (feats * C * C))) (r : refs) (e : epsilons) (bias : C) : C :=
  let res (x : feats * C * C) :=
    x.2 - (\sum_w \sum_d x.1.1 (w, d) * e (d, w, r w) + (if b then bias else 0)) in
  beta * (\sum_(rk <- data) \sum_(x <- rk) x.1.2 * (res x * (res x)^*))
  + \sum_w \sum_d (alR w d / 2%:R * sq ('Re (e (d, w, r w) - pm w d))
                   + alI w d / 2%:R * sq ('Im (e (d, w, r w) - pm w d)))
  + (if b then alBR / 2%:R * sq ('Re bias) + alBI / 2%:R * sq ('Im bias) else 0).

Variable solve : forall m, 'M[C]_m -> 'cV[C]_m -> 'cV[C]_m.
Hypothesis solveP : exact_solver solve.
Hypothesis solve_real : real_solver solve.
Variables (acut kcut beta : C) (alR alI : 'I_M -> 'I_D -> C) (alBR alBI : C) (pm : 'I_M -> 'I_D -> C).
Variables (data : seq (seq (feats * C * C))) (e : epsilons) (r : refs) (bias : C).
Hypothesis beta_gt0 : 0 < beta.
Hypothesis alR_ge0 : forall w d, 0 <= alR w d.
Hypothesis alI_ge0 : forall w d, 0 <= alI w d.
Hypothesis alBR_ge0 : 0 <= alBR.
Hypothesis alBI_ge0 : 0 <= alBI.
Hypothesis weightings_ge0 : all (all (fun x : feats * C * C => 0 <= x.1.2)) data.

(* alpha in the order of the weights: real parts, bias, imaginary parts, bias *)
Definition alpha_vecx : 'I_((N + b) + (N + b)) -> C :=
  fun i => match split i with inl k => alpha_vec alR alBR k | inr k => alpha_vec alI alBI k end.
Definition epsx' := fitx_epsilon solve acut kcut beta alpha_vecx (pm_vec pm) data e r bias.
Definition biasx' := fitx_bias solve acut kcut beta alpha_vecx (pm_vec pm) data bias.

Let rows := fit_rows b (pm_vec pm) data.
Let half i := alpha_vecx i / 2%:R.
Let KtK := fitx_KtK b (pm_vec pm) data.
Let W := fitx_weights solve acut kcut beta alpha_vecx (pm_vec pm) data.
Let act := fitx_active acut kcut alpha_vecx (pm_vec pm) data.

Let rows_s : all (all (fun x => 0 <= fs x)) rows. Proof. exact: rows_ge0. Qed.
Lemma half_ge0 i : 0 <= half i.
Proof.
rewrite /half /alpha_vecx; case: (split i) => k; rewrite divr_ge0 ?ler0n //; exact: alpha_ge0.
Qed.

Lemma eps_lossxE e0 c : eps_lossx beta alR alI alBR alBI pm data r e0 c =
  loss cj beta half (exp_ranks rows) (expand_vec (vec_of b pm r e0 c)).
Proof.
rewrite loss_exp // /eps_lossx -addrA; congr (_ * _ + _).
  rewrite /rows /fit_rows big_map; apply: eq_bigr => rk _; rewrite big_map; apply: eq_bigr => x _.
  by rewrite row_residE; case: x => [[f s] t].
have sR k : half (lshift _ k) = alpha_vec alR alBR k / 2%:R by rewrite /half /alpha_vecx (unsplitK (inl _)).
have sI k : half (rshift _ k) = alpha_vec alI alBI k / 2%:R by rewrite /half /alpha_vecx (unsplitK (inr _)).
rewrite big_split_ord /= sum_mxvec; congr (_ + _).
  apply: eq_bigr => w _; apply: eq_bigr => d _; rewrite vec_ofE sR sI /alpha_vec !row_mxEl !mxvecE !mxE //.
under eq_bigr => k _ do rewrite vec_ofB sR sI /alpha_vec !row_mxEr !mxE.
by rewrite sum_b.
Qed.

Lemma KtK_real i j : KtK i j \is Num.real.
Proof.
rewrite /KtK /fitx_KtK /expand_mat.
case: (split_ordP i) => a ->; case: (split_ordP j) => c ->;
  by rewrite ?block_mxEul ?block_mxEur ?block_mxEdl ?block_mxEdr !mxE ?rpredN ?Creal_Re ?Creal_Im.
Qed.
Lemma W_real i : W i 0 \is Num.real.
Proof.
rewrite /W /fitx_weights /weights_of mxE; apply: rpred_sum => k _; apply: rpredM; first by rewrite ger0_real ?ltW.
apply: solve_real => [a c|a]; rewrite mxE; last first.
  by rewrite /expand_vec; case: (split_ordP (enum_val a)) => h ->; rewrite ?col_mxEu ?col_mxEd mxE ?Creal_Re ?Creal_Im.
rewrite mxE rpredD //; first by apply: rpredM; [rewrite ger0_real ?ltW | exact: KtK_real].
by case: ifP => _; rewrite ?rpred0 // ger0_real // half_ge0.
Qed.

Lemma norm_real w d : feature_norm cj data w d \is Num.real.
Proof.
rewrite ger0_real // /feature_norm.
apply: (sum_all_ge0 (P := all (fun x : feats * C * C => 0 <= x.1.2))) weightings_ge0 => rk Hrk.
apply: (sum_all_ge0 _ Hrk) => x Hx; exact: mulr_ge0 (mul_conjC_ge0 _).
Qed.
Lemma bnorm_real : bias_norm data \is Num.real.
Proof.
rewrite ger0_real // /bias_norm.
apply: (sum_all_ge0 (P := all (fun x : feats * C * C => 0 <= x.1.2))) weightings_ge0 => rk Hrk.
exact: (sum_all_ge0 _ Hrk).
Qed.

Notation idx w d := (lshift b (mxvec_index w d)).
Lemma KtKx_re w d : KtK (lshift _ (idx w d)) (lshift _ (idx w d)) = feature_norm cj data w d.
Proof. by rewrite /KtK /fitx_KtK /expand_mat block_mxEul mxE KtK_feature; apply/Creal_ReP/norm_real. Qed.
Lemma KtKx_im w d : KtK (rshift _ (idx w d)) (rshift _ (idx w d)) = feature_norm cj data w d.
Proof. by rewrite /KtK /fitx_KtK /expand_mat block_mxEdr mxE KtK_feature; apply/Creal_ReP/norm_real. Qed.
Lemma KtKx_bre (k : 'I_b) : KtK (lshift _ (rshift N k)) (lshift _ (rshift N k)) = bias_norm data.
Proof. by rewrite /KtK /fitx_KtK /expand_mat block_mxEul mxE KtK_bias; apply/Creal_ReP/bnorm_real. Qed.
Lemma KtKx_bim (k : 'I_b) : KtK (rshift _ (rshift N k)) (rshift _ (rshift N k)) = bias_norm data.
Proof. by rewrite /KtK /fitx_KtK /expand_mat block_mxEdr mxE KtK_bias; apply/Creal_ReP/bnorm_real. Qed.

Notation validx w d := (is_valid cj kcut data w d).
Definition wtR (w : 'I_M) (d : 'I_D) : C := W (lshift _ (idx w d)) 0.
Definition wtI (w : 'I_M) (d : 'I_D) : C := W (rshift _ (idx w d)) 0.

Lemma where_validE m (v : pred 'I_m) (x y : 'cV[C]_m) i : where_valid v x y i 0 = if v i then x i 0 else y i 0.
Proof. by rewrite mxE. Qed.
Lemma subUU (v : 'cV[C]_((N + b) + (N + b))) k : usubmx (usubmx v) k 0 = v (lshift _ (lshift b k)) 0.
Proof. by rewrite mxE mxE. Qed.
Lemma subDU (v : 'cV[C]_((N + b) + (N + b))) k : usubmx (dsubmx v) k 0 = v (rshift _ (lshift b k)) 0.
Proof. by rewrite mxE mxE. Qed.
Lemma subUD (v : 'cV[C]_((N + b) + (N + b))) k : dsubmx (usubmx v) k 0 = v (lshift _ (rshift N k)) 0.
Proof. by rewrite mxE mxE. Qed.
Lemma subDD (v : 'cV[C]_((N + b) + (N + b))) k : dsubmx (dsubmx v) k 0 = v (rshift _ (rshift N k)) 0.
Proof. by rewrite mxE mxE. Qed.
Lemma oldR w d : old_expand b e r (pm_vec pm) bias (lshift _ (idx w d)) 0 = 'Re (e (d, w, r w) - pm w d).
Proof. by rewrite /old_expand /expand_vec col_mxEu mxE col_mxEu mxE mxE /eps_refs /pm_vec mxvecE mxE [X in _ + X]mxE mxvecE mxE. Qed.
Lemma oldI w d : old_expand b e r (pm_vec pm) bias (rshift _ (idx w d)) 0 = 'Im (e (d, w, r w) - pm w d).
Proof. by rewrite /old_expand /expand_vec col_mxEd mxE col_mxEu mxE mxE /eps_refs /pm_vec mxvecE mxE [X in _ + X]mxE mxvecE mxE. Qed.

Lemma epsx'E d w j : epsx' (d, w, j) =
  if j == r w then (if validx w d then wtR w d + 'i * wtI w d + pm w d else e (d, w, j)) else e (d, w, j).
Proof.
rewrite /epsx' /fitx_epsilon /update_epsilon_expand /write_eps ffunE /=; case: eqP => // ->.
rewrite [LHS]mxE [LHS]mxE subUU subDU !where_validE /fitx_valid /valid_kern -/KtK KtKx_re KtKx_im -/(validx w d).
rewrite {1}/pm_vec mxvecE [X in _ + X + _]mxE -/W.
case: ifP => _; first by rewrite addrAC.
by rewrite oldR oldI addrAC -Crect subrK.
Qed.

Definition activeR w d := (alR w d < acut) && validx w d.
Definition activeI w d := (alI w d < acut) && validx w d.
Definition bactiveR := (alBR < acut) && (kcut < `|bias_norm data|).
Definition bactiveI := (alBI < acut) && (kcut < `|bias_norm data|).
Lemma act_re w d : act (lshift _ (idx w d)) = activeR w d.
Proof.
rewrite /act /fitx_active /active /valid_kern -/KtK KtKx_re /alpha_vecx (unsplitK (inl _)).
by rewrite /alpha_vec row_mxEl mxvecE mxE.
Qed.
Lemma act_im w d : act (rshift _ (idx w d)) = activeI w d.
Proof.
rewrite /act /fitx_active /active /valid_kern -/KtK KtKx_im /alpha_vecx (unsplitK (inr _)).
by rewrite /alpha_vec row_mxEl mxvecE mxE.
Qed.
Lemma act_bre (k : 'I_b) : act (lshift _ (rshift N k)) = bactiveR.
Proof.
rewrite /act /fitx_active /active /valid_kern -/KtK KtKx_bre /alpha_vecx (unsplitK (inl _)).
by rewrite /alpha_vec row_mxEr mxE.
Qed.
Lemma act_bim (k : 'I_b) : act (rshift _ (rshift N k)) = bactiveI.
Proof.
rewrite /act /fitx_active /active /valid_kern -/KtK KtKx_bim /alpha_vecx (unsplitK (inr _)).
by rewrite /alpha_vec row_mxEr mxE.
Qed.

Lemma Wx_out i : ~~ act i -> W i 0 = 0.
Proof.
move=> Hi; rewrite /W /fitx_weights mxE big1 // => k /eqP Hk; case/negP: Hi; rewrite -Hk.
by move: (enum_valP k).
Qed.

Lemma ReRI (a c : C) : a \is Num.real -> c \is Num.real -> 'Re (a + 'i * c) = a.
Proof. by move=> Ha Hc; rewrite Re_rect. Qed.
Lemma ImRI (a c : C) : a \is Num.real -> c \is Num.real -> 'Im (a + 'i * c) = c.
Proof. by move=> Ha Hc; rewrite Im_rect. Qed.

Theorem C53_rulex d w j :
  [/\ j != r w -> epsx' (d, w, j) = e (d, w, j),
      ~~ validx w d -> epsx' (d, w, j) = e (d, w, j),
      validx w d -> ~~ activeR w d -> 'Re (epsx' (d, w, r w)) = 'Re (pm w d) &
      validx w d -> ~~ activeI w d -> 'Im (epsx' (d, w, r w)) = 'Im (pm w d)].
Proof.
split.
- by move=> H; rewrite epsx'E (negPf H).
- by move=> H; rewrite epsx'E (negPf H); case: ifP.
- move=> H1 H2; rewrite epsx'E eqxx H1 raddfD /= ReRI ?W_real //.
  by rewrite /wtR Wx_out ?act_re // add0r.
move=> H1 H2; rewrite epsx'E eqxx H1 raddfD /= ImRI ?W_real //.
by rewrite /wtI Wx_out ?act_im // add0r.
Qed.

Lemma biasx'W (k : 'I_b) : biasx' = W (lshift _ (rshift N k)) 0 + 'i * W (rshift _ (rshift N k)) 0.
Proof.
rewrite /biasx' /fitx_bias /update_bias_expand -/W.
rewrite (sum_b1 (fun k : 'I_b => dsubmx (usubmx W) k 0 + 'i * dsubmx (dsubmx W) k 0) _ k).
by rewrite subUD subDD.
Qed.

Theorem C53_expand_partial (e2 : epsilons) (bias2 : C) :
  (forall w d, ~~ validx w d -> feature_norm cj data w d = 0) ->
  (forall w d, ~~ activeR w d -> 'Re (e2 (d, w, r w)) = 'Re (epsx' (d, w, r w))) ->
  (forall w d, ~~ activeI w d -> 'Im (e2 (d, w, r w)) = 'Im (epsx' (d, w, r w))) ->
  (~~ bactiveR -> 'Re bias2 = 'Re biasx') -> (~~ bactiveI -> 'Im bias2 = 'Im biasx') ->
  eps_lossx beta alR alI alBR alBI pm data r epsx' biasx' <=
  eps_lossx beta alR alI alBR alBI pm data r e2 bias2.
Proof.
move=> H0 HR HI HBR HBI; rewrite !eps_lossxE.
have VR e0 c w d : expand_vec (vec_of b pm r e0 c) (lshift _ (idx w d)) 0 = 'Re (e0 (d, w, r w) - pm w d).
  by rewrite /expand_vec col_mxEu mxE vec_ofE.
have VI e0 c w d : expand_vec (vec_of b pm r e0 c) (rshift _ (idx w d)) 0 = 'Im (e0 (d, w, r w) - pm w d).
  by rewrite /expand_vec col_mxEd mxE vec_ofE.
have VBR e0 c k : expand_vec (vec_of b pm r e0 c) (lshift _ (rshift N k)) 0 = 'Re c.
  by rewrite /expand_vec col_mxEu mxE vec_ofB.
have VBI e0 c k : expand_vec (vec_of b pm r e0 c) (rshift _ (rshift N k)) 0 = 'Im c.
  by rewrite /expand_vec col_mxEd mxE vec_ofB.
have EW : W = weights_of solve act beta (KtK_alpha_of beta half (KtK_of cj (exp_ranks rows))) (y_of cj (exp_ranks rows)).
  by rewrite KtK_exp // y_exp.
apply: (@agree_minimal _ cj _ (@cj_K C) (@cj_norm C) (@cj_ge0 C) beta half (exp_ranks rows) beta_gt0 half_ge0
         (exp_ge0 rows_s) act solve solveP).
- move=> i; rewrite -EW; case: (split_ordP i) => h ->; case: (split_ordP h) => k ->.
  + case/mxvec_indexP: k => w d; rewrite act_re => Ha; rewrite VR epsx'E eqxx; case/andP: (Ha) => _ ->.
    by rewrite addrK ReRI ?W_real.
  + by move=> Ha; rewrite VBR (biasx'W k) ReRI ?W_real.
  + case/mxvec_indexP: k => w d; rewrite act_im => Ha; rewrite VI epsx'E eqxx; case/andP: (Ha) => _ ->.
    by rewrite addrK ImRI ?W_real.
  by move=> Ha; rewrite VBI (biasx'W k) ImRI ?W_real.
- move=> i; rewrite KtK_exp // -/KtK; case: (split_ordP i) => h ->; case: (split_ordP h) => k ->.
  + case/mxvec_indexP: k => w d Ha; rewrite VR epsx'E eqxx.
    have [Hv|Hv] := boolP (validx w d); first by left; rewrite addrK ReRI ?W_real // /wtR Wx_out.
    by right; rewrite KtKx_re H0.
  + by move=> Ha; left; rewrite VBR (biasx'W k) ReRI ?W_real // Wx_out.
  + case/mxvec_indexP: k => w d Ha; rewrite VI epsx'E eqxx.
    have [Hv|Hv] := boolP (validx w d); first by left; rewrite addrK ImRI ?W_real // /wtI Wx_out.
    by right; rewrite KtKx_im H0.
  by move=> Ha; left; rewrite VBI (biasx'W k) ImRI ?W_real // Wx_out.
move=> i; case: (split_ordP i) => h ->; case: (split_ordP h) => k ->.
- by case/mxvec_indexP: k => w d; rewrite act_re => Ha; rewrite !VR !raddfB /= HR.
- by rewrite act_bre => Ha; rewrite !VBR HBR.
- by case/mxvec_indexP: k => w d; rewrite act_im => Ha; rewrite !VI !raddfB /= HI.
by rewrite act_bim => Ha; rewrite !VBI HBI.
Qed.
End C53x.
