(* C119: the preconditioned updates lower the energy.  The drivers hand the update dp to
   nk.optimizer.Sgd (scripts/ARGPS/argps/vmc.py L101, scripts/cpd-backflow/cpd_backflow/vmc.py L129,
   scripts/GPS_for_ab_initio/H2O.py L295), which changes the parameters to theta - learning_rate * dp
   (contract of NetKet/optax, [sgd_step]). *)
From Coq Require Import Reals Lra.
From Verif Require Import Base Fld Rstruct Calc Rrcf Energy_Grad_Model Energy_Grad_Props QGT_Model UQGT_Model UQGT_Props
  SRR_Model SRR_Props.
Import Num.Theory Order.TTheory.
Local Open Scope ring_scope.

Definition sgd_step P (learning_rate : RR) (theta dp : 'cV[RR]_P) : 'cV[RR]_P := theta - learning_rate *: dp.

Lemma der_neg_decreases (f : RR -> RR) l : der f 0 l -> l < 0 ->
  exists2 e : RR, 0 < e & forall h, 0 < h -> h < e -> f h < f 0.
Proof.
move=> Hd Hl; have Hp : Rlt R0 (Ropp l) by move/RltP: Hl => Hl; exact: Ropp_0_gt_lt_contravar.
have [[d Hd0] H] := Hd _ Hp; exists d; first by apply/RltP.
move=> h H0 Hhd; have Hn : h <> R0 by move=> E; move: H0; rewrite E ltxx.
have Ha : Rlt (Rabs h) d by rewrite RabsE ger0_norm ?(ltW H0) //; apply/RltP.
have := H h Hn Ha; have -> : Rplus 0%Ri h = h by exact: add0r.
move=> /Rabs_def2 [H1 _].
move/RltP: H1; rewrite RdivE ?gt_eqF // RminusE RoppE => H1.
have H2 : (f h - f 0) / h < 0 by rewrite -(ltr_add2r (- l)) add0r.
by rewrite -subr_lt0 -(@pmulr_llt0 _ h^-1) ?invr_gt0.
Qed.

Section Quad.
Variable P : nat.
Definition dot (u v : 'cV[RR]_P) : RR := \sum_a u a 0 * v a 0.
Lemma dot_scale c (u v : 'cV[RR]_P) : dot u (c *: v) = c * dot u v.
Proof. by rewrite /dot mulr_sumr; apply: eq_bigr => a _; rewrite mxE mulrCA. Qed.
Definition posdef (M : 'M[RR]_P) : Prop := forall x : 'cV[RR]_P, x != 0 -> 0 < (x^T *m M *m x) 0 0.
Lemma posdef_inv (M : 'M[RR]_P) : posdef M -> M \in unitmx.
Proof.
move=> H; rewrite -unitmx_tr -row_free_unit -kermx_eq0; apply/negPn/negP => Hk.
case/rowV0Pn: Hk => v /sub_kermxP Hv Hv0; have Hx : v^T != 0 by apply: contraNneq Hv0 => E; rewrite -(trmxK v) E trmx0.
have E : M *m v^T = 0 by rewrite -[M]trmxK -trmx_mul Hv trmx0.
by have := H _ Hx; rewrite -mulmxA E mulmx0 mxE ltxx.
Qed.
Lemma posdef_zero (M : 'M[RR]_P) (x : 'cV[RR]_P) : posdef M -> M *m x = 0 -> x = 0.
Proof. by move=> HM E; rewrite -[x](mulKmx (posdef_inv HM)) E mulmx0. Qed.
Lemma dot_pos (M : 'M[RR]_P) (d g : 'cV[RR]_P) : posdef M -> M *m d = g -> g != 0 -> 0 < dot d g.
Proof.
move=> HM <- Hg; have Hd : d != 0 by apply: contraNneq Hg => ->; rewrite mulmx0.
have := HM d Hd; rewrite -mulmxA mxE; congr (_ < _); apply: eq_bigr => a _; by rewrite !mxE.
Qed.
Lemma gram_posdef c (os : seq 'rV[RR]_P) (w : 'rV[RR]_P) : 0 <= c -> (forall a, 0 < w 0 a) ->
  posdef (c *: (\sum_(o <- os) o^T *m o) + diag_mx w).
Proof.
move=> Hc Hw x /eqP Hx; rewrite mulmxDr mulmxDl mxE -scalemxAr -scalemxAl mxE.
rewrite (@quad_gram R_rcfType P os x) (@quad_diag R_rcfType P w x).
apply: ltr_paddl; first by apply: mulr_ge0 => //; apply: sumr_ge0 => o _; apply: sqr_ge0.
have T a : 0 <= w 0 a * x a 0 ^+ 2 by rewrite mulr_ge0 ?sqr_ge0 // ltW.
rewrite lt_def; apply/andP; split; last by apply: sumr_ge0.
apply/eqP => H0; apply: Hx; apply/matrixP => a j; rewrite (ord1 j) !mxE.
move/eqP: H0; rewrite psumr_eq0; last by move=> b _; apply: T.
by move/allP/(_ a (mem_index_enum _)) => /=; rewrite mulf_eq0 (gt_eqF (Hw a)) /= sqrf_eq0 => /eqP.
Qed.
End Quad.

Section Energy.
Variables (T : finType) (H : T -> T -> cx).
Hypothesis Hh : hermitian H.

Section Direction.
Variable P : nat.
(* amplitudes depending on P real parameters, differentiable at theta with partial derivatives dpsi *)
Definition differentiable (psi : 'cV[RR]_P -> T -> cx) (theta : 'cV[RR]_P) (dpsi : 'I_P -> T -> cx) : Prop :=
  forall v : 'cV[RR]_P, dstate (fun s => psi (theta + s *: v)) 0 (fun x => xsum (enum 'I_P) (fun a => xscale (v a 0) (dpsi a x))).
(* the energy goes down along - dp for all sufficiently small learning rates *)
Definition descends (psi : 'cV[RR]_P -> T -> cx) (theta dp : 'cV[RR]_P) : Prop :=
  exists2 e : RR, 0 < e & forall eta, 0 < eta -> eta < e ->
    rayleigh H (psi (sgd_step eta theta dp)) < rayleigh H (psi theta).

Variables (psi : 'cV[RR]_P -> T -> cx) (theta : 'cV[RR]_P) (dpsi : 'I_P -> T -> cx) (ranks : seq (seq T * seq RR)).
Hypothesis Hd : differentiable psi theta dpsi.
Hypothesis Hz : forall x, psi theta x <> (0, 0).
Hypothesis Hn : norm2 (psi theta) != 0.
Hypothesis Hex : exact (psi theta) ranks.

(* the gradient of expect_and_grad (Energy_Grad_Model) *)
Definition energy_gradient : 'cV[RR]_P :=
  \col_a grad_real (loc_energy H (psi theta)) (log_der (dpsi a) (psi theta)) ranks.

Lemma log_der_lin (v : 'cV[RR]_P) (y : T -> cx) x :
  log_der (fun x => xsum (enum 'I_P) (fun a => xscale (v a 0) (dpsi a x))) y x
  = xsum (enum 'I_P) (fun a => xscale (v a 0) (log_der (dpsi a) y x)).
Proof.
rewrite /log_der; move: (y x) => [c d]; rewrite /xdiv /xsum /xmul /xconj /xscale /=.
congr pair; rewrite !mulr_suml.
  by rewrite -sumrN -big_split /= mulr_suml; apply: eq_bigr => a _; rewrite -!mulrA -mulrBr -mulrA.
by rewrite -big_split /= mulr_suml; apply: eq_bigr => a _; rewrite -!mulrA -mulrDr -mulrA.
Qed.
Lemma grad_lin (lv : T -> cx) (v : 'cV[RR]_P) (o : 'I_P -> T -> cx) rs :
  grad_real lv (fun x => xsum (enum 'I_P) (fun a => xscale (v a 0) (o a x))) rs = \sum_a v a 0 * grad_real lv (o a) rs.
Proof.
rewrite /grad_real; under [RHS]eq_bigr do rewrite mulr_sumr; rewrite [RHS]exchange_big; apply: eq_bigr => r _; cbv beta.
rewrite val_gradE; under [RHS]eq_bigr do rewrite mulrCA val_gradE; rewrite -mulr_sumr; congr (_ * _).
under [RHS]eq_bigr do rewrite mulr_sumr; rewrite [RHS]exchange_big; apply: eq_bigr => p _; cbv beta.
move: (xsub _ _) => e; rewrite /xsum /xscale /=; rewrite !mulr_sumr -big_split mulr_sumr /=.
rewrite (big_enumT (fun a : 'I_P => _)).
by apply: eq_bigr => a _; rewrite [RHS]mulrCA; congr (_ * _); rewrite mulrDr !(mulrCA (v a 0)).
Qed.

(* the derivative of the energy in the direction v *)
Theorem C119_direction (v : 'cV[RR]_P) :
  der (fun s => rayleigh H (psi (theta + s *: v))) 0 (dot v energy_gradient).
Proof.
have E0 : psi (theta + 0 *: v) = psi theta by rewrite scale0r addr0.
have Hd' := Hd v; have Hz' x : psi (theta + 0 *: v) x <> (0, 0) by rewrite E0.
have Hn' : norm2 (psi (theta + 0 *: v)) != 0 by rewrite E0.
have Hex' : exact (psi (theta + 0 *: v)) ranks by rewrite E0.
apply: der_eq (C111_derivative_partial Hh Hd' Hz' Hn' Hex') _; rewrite E0.
transitivity (grad_real (loc_energy H (psi theta)) (fun x => xsum (enum 'I_P) (fun a => xscale (v a 0) (log_der (dpsi a) (psi theta) x))) ranks).
  by rewrite /grad_real; apply: eq_bigr => r _; rewrite !val_gradE; congr (_ * _); apply: eq_bigr => p _; rewrite log_der_lin.
by rewrite grad_lin /dot; apply: eq_bigr => a _; rewrite mxE.
Qed.
Theorem C119_descends (dp : 'cV[RR]_P) : 0 < dot dp energy_gradient -> descends psi theta dp.
Proof.
move=> Hp; have Hl : dot (- dp) energy_gradient < 0.
  by rewrite /dot; under eq_bigr do rewrite mxE mulNr; rewrite sumrN oppr_lt0.
have [e He Hlt] := der_neg_decreases (C119_direction (- dp)) Hl; exists e => // eta H0 H1.
by have := Hlt eta H0 H1; rewrite scale0r addr0 scalerN.
Qed.
End Direction.

Section Preconditioners.
Variable P : nat.
Variables (psi : 'cV[RR]_P -> T -> cx) (theta : 'cV[RR]_P) (dpsi : 'I_P -> T -> cx) (ranks : seq (seq T * seq RR)).
Hypothesis Hd : differentiable psi theta dpsi.
Hypothesis Hz : forall x, psi theta x <> (0, 0).
Hypothesis Hn : norm2 (psi theta) != 0.
Hypothesis Hex : exact (psi theta) ranks.
Local Notation g := (energy_gradient psi theta dpsi ranks).

(* stochastic reconfiguration with the quantum geometric tensor of the unique samples and a positive
   diagonal shift, solved exactly through SRDense or through LinearOperator.solve: a non-zero gradient gives an
   update that lowers the energy, a zero gradient no update *)
Theorem C119_unique_samples (K : nat) (sqrt : RR -> RR) (O : T -> 'I_K -> 'rV[RR]_P) (args : qgt_args RR) (lam : RR)
    (s : 'M[RR]_P -> 'cV[RR]_P -> 'cV[RR]_P) :
  (forall A b, A \in unitmx -> A *m s A b = b) -> qa_shift args = Some lam -> 0 < lam ->
  exists Os m x,
    [/\ qgt_unique sqrt O (Some ranks) args = Operator Os (Some lam), qgt_dense id Os (Some lam) = Some m,
        sr_dense (fun A b => if A is DenseArray A then Some (Vec (s A b)) else None) (LinOp m) g = Some x
        /\ linop_solve (fun A b => if to_dense A is Some A then Some (VecInfo (s A b)) else None) (LinOp m) g = Some x,
        g = 0 -> x = 0 & g <> 0 -> descends psi theta x].
Proof.
move=> Hs Ha Hl; exists [seq centered_oks sqrt O ranks r | r <- ranks].
eexists; exists (s (\matrix_(a, b) (\sum_(rk <- [seq centered_oks sqrt O ranks r | r <- ranks]) \sum_(o <- rk) o 0 a * o 0 b + (if a == b then lam else 0))) g).
set m := \matrix_(a, b) _; have Hm : posdef m.
  have -> : m = 1 *: (\sum_(o <- flatten [seq centered_oks sqrt O ranks r | r <- ranks]) o^T *m o) + diag_mx (const_mx lam).
    apply/matrixP => a b; rewrite scale1r !mxE big_flatten summxE; congr (_ + _).
      by apply: eq_bigr => rk _; rewrite summxE; apply: eq_bigr => o _; rewrite mxE big_ord1 mxE.
    by case: eqP => [_|_]; rewrite ?mulr1n ?mulr0n.
  by apply: gram_posdef => [|a]; rewrite ?mxE // ler01.
have Hx : m *m s m g = g by apply/Hs/posdef_inv.
split=> //; first by rewrite /qgt_unique Ha.
  by move=> E; apply: (posdef_zero Hm); rewrite Hx.
by move=> /eqP E; apply: (C119_descends Hd Hz Hn Hex); apply: (dot_pos Hm).
Qed.
End Preconditioners.

(* the optimizer SRRMSProp with n complex parameters (first their real, then their imaginary parts) on which the
   amplitudes depend holomorphically, at any call after any history of gradients *)
Section SrrComplex.
Variable n : nat.
Add Ring RRd : (r_theory (GRing.Field.comRingType RR)).
Definition holomorphic (psi : 'cV[RR]_(n + n) -> T -> cx) (theta : 'cV[RR]_(n + n)) (dpsi : 'I_n -> T -> cx) : Prop :=
  differentiable psi theta (fun a x => match fintype.split a with inl i => dpsi i x | inr i => xmul (0, 1) (dpsi i x) end).
Lemma grad_imag (lv : T -> cx) (y dy : T -> cx) rs :
  grad_real lv (log_der (fun x => xmul (0, 1) (dy x)) y) rs = 2%:R * (grad_complex lv (log_der dy y) rs).2.
Proof.
rewrite /grad_real /grad_complex /xsum; cbn [snd]; rewrite mulr_sumr; apply: eq_bigr => r _; congr (_ * _).
rewrite val_gradE val_gradE2; move: (en_mean _ _) => m; apply: eq_bigr => p _; rewrite /log_der.
move: (lv _) (y p.1) (dy p.1) m => [a b] [u v] [c d] [m1 m2].
rewrite /xdiv /xmul /xconj /xscale /xsub /=; mring (GRing.Field.comRingType RR).
Qed.
Theorem C119_srrmsprop (psi : 'cV[RR]_(n + n) -> T -> cx) (theta : 'cV[RR]_(n + n)) (dpsi : 'I_n -> T -> cx) ranks
    (decay eps shift : RR) solver (O : seq (seq 'rV[RR]_(n + n))) (l : seq (leaf RR n)) :
  holomorphic psi theta dpsi -> (forall x, psi theta x <> (0, 0)) -> norm2 (psi theta) != 0 -> exact (psi theta) ranks ->
  0 < eps -> 0 < shift -> shift <= 1 -> (forall A b, A \in unitmx -> A *m solver A b = b) ->
  let g : leaf RR n := fun i => grad_complex (loc_energy H (psi theta)) (log_der (dpsi i) (psi theta)) ranks in
  exists nu x,
    [/\ srr_call decay (@Num.sqrt R_rcfType) eps solver (ema_run decay true 0 l) O shift g (Some (size l)) = Some (nu, x),
        (forall i, g i = (0, 0)) -> x = 0 & ~ (forall i, g i = (0, 0)) -> descends psi theta x].
Proof.
move=> Hd Hz Hn Hex He Hs0 Hs1 Hsol g.
have [hat [x [Hc _ Hx]]] := @C79_update R_rcfType n decay eps solver O shift l g He Hs0 Hs1 Hsol.
exists (ema_run decay true 0 (rcons l g)), x.
set w : 'rV[RR]_(n + n) := \row_a (@Num.sqrt R_rcfType (to_real hat a 0) + eps).
have HM : posdef ((1 - shift) *: (\sum_(o <- flatten O) o^T *m o) + diag_mx (shift *: w)).
  apply: gram_posdef => [|a]; first by rewrite subr_ge0.
  by rewrite !mxE mulr_gt0 // ltr_paddl // sqrtr_ge0.
have HMx : ((1 - shift) *: (\sum_(o <- flatten O) o^T *m o) + diag_mx (shift *: w)) *m x = to_real g.
  by rewrite big_flatten -[RHS]Hx; congr ((_ + _) *m _); apply/matrixP => a b; rewrite !mxE mulrnAr.
have Hg : energy_gradient psi theta (fun a x => match fintype.split a with inl i => dpsi i x | inr i => xmul (0, 1) (dpsi i x) end) ranks
    = 2%:R *: to_real g.
  apply/matrixP => a j; rewrite (ord1 j) mxE [RHS]mxE /to_real [in RHS]mxE; case: (fintype.split a) => i.
    by rewrite mxE /g /grad_complex /grad_real /xsum /= mulr_sumr.
  by rewrite mxE grad_imag.
split; first exact: Hc.
  move=> E; have E0 : to_real g = 0.
    by apply/matrixP => a j; rewrite !mxE; case: splitP => i _; rewrite !mxE E.
  by apply: (posdef_zero HM); rewrite HMx.
move=> E; apply: (C119_descends Hd Hz Hn Hex); rewrite Hg.
have E0 : to_real g != 0.
  apply/eqP => /matrixP E0; apply: E => i; have E1 := E0 (lshift n i) 0; have E2 := E0 (rshift n i) 0.
  move: E1 E2; rewrite /to_real !mxE (unsplitK (inl i)) (unsplitK (inr i)) !mxE.
  by case: (g i) => u v /= -> ->.
by have := dot_pos HM HMx E0; rewrite dot_scale => Hp; rewrite mulr_gt0 // ltr0n.
Qed.
End SrrComplex.

(* the driver VMC_SRRMSProp with complex amplitudes (mode "complex") and real parameters; xs: the samples of every
   rank, representative in the sense that every configuration occurs as often as the state prescribes *)
Section Driver.
Variable P : nat.
Definition representative (y : T -> cx) (xs : seq (seq T)) : Prop :=
  forall x, (count_mem x (flatten xs))%:R / (size (flatten xs))%:R = xabs2 (y x) / norm2 y.
Definition rank_of (y : T -> cx) (dpsi : 'I_P -> T -> cx) (r : seq T) : rank_data R_rcfType P :=
  RankData [seq (\row_a (log_der (dpsi a) y x).1 : 'rV[R_rcfType]_P) | x <- r]
           [seq (\row_a (log_der (dpsi a) y x).2 : 'rV[R_rcfType]_P) | x <- r]
           [seq (loc_energy H y x : R_rcfType * R_rcfType) | x <- r].
Definition sample_mean (xs : seq (seq T)) (f : T -> RR) : RR := (\sum_(x <- flatten xs) f x) / (size (flatten xs))%:R.
Definition input_of (y : T -> cx) (dpsi : 'I_P -> T -> cx) (xs : seq (seq T)) (shift : RR) : step_input R_rcfType P :=
  StepInput [seq rank_of y dpsi r | r <- xs]
            (sample_mean xs (fun x => (loc_energy H y x).1), sample_mean xs (fun x => (loc_energy H y x).2)) shift.

Lemma all_samples_of y dpsi xs : all_samples [seq rank_of y dpsi r | r <- xs]
  = [seq ((\row_a (log_der (dpsi a) y x).1 : 'rV[R_rcfType]_P, \row_a (log_der (dpsi a) y x).2 : 'rV[R_rcfType]_P),
          (loc_energy H y x : R_rcfType * R_rcfType)) | x <- flatten xs].
Proof.
rewrite /all_samples -map_comp; elim: xs => //= r xs IH; rewrite map_cat -IH; congr (_ ++ _).
by elim: r => //= x r ->.
Qed.
Lemma average_of y dpsi xs f : SRR_Props.average [seq rank_of y dpsi r | r <- xs] f
  = sample_mean xs (fun x => f ((\row_a (log_der (dpsi a) y x).1 : 'rV[R_rcfType]_P, \row_a (log_der (dpsi a) y x).2 : 'rV[R_rcfType]_P),
          (loc_energy H y x : R_rcfType * R_rcfType))).
Proof. by rewrite /SRR_Props.average all_samples_of size_map big_map. Qed.

Variables (psi : 'cV[RR]_P -> T -> cx) (theta : 'cV[RR]_P) (dpsi : 'I_P -> T -> cx) (xs : seq (seq T)) (n : nat).
Hypothesis Hd : differentiable psi theta dpsi.
Hypothesis Hz : forall x, psi theta x <> (0, 0).
Hypothesis Hn : norm2 (psi theta) != 0.
Hypothesis Hs : all (fun r : seq T => size r == n) xs.
Hypothesis Hr : representative (psi theta) xs.
Let w (x : T) : RR := xabs2 (psi theta x) / norm2 (psi theta).

Lemma sum_count (l : seq T) (f : T -> RR) : \sum_(x <- l) f x = \sum_x (count_mem x l)%:R * f x.
Proof.
elim: l => [|y l IH]; first by rewrite big_nil big1 // => x _; rewrite mul0r.
rewrite big_cons IH (bigD1 y) //= [RHS](bigD1 y) //= eqxx addrA natrD mulrDl mul1r; congr (_ + _).
by apply: eq_bigr => x Hx; rewrite eq_sym (negbTE Hx).
Qed.
Lemma sample_meanE f : sample_mean xs f = \sum_x w x * f x.
Proof.
by rewrite /sample_mean sum_count mulr_suml; apply: eq_bigr => x _; rewrite mulrAC Hr.
Qed.
Lemma w1 : \sum_x w x = 1.
Proof. by rewrite -mulr_suml divff. Qed.
Lemma pairs_mean ranks f : exact (psi theta) ranks -> \sum_(p <- all_pairs ranks) p.2 * f p.1 = \sum_x w x * f x.
Proof.
move=> Hex; rewrite (exact_sum f Hex); apply: eq_bigl => x; apply/eqP => /xabs2_eq0 [H1 H2].
by apply: (Hz (x := x)); case: (psi theta x) H1 H2 => a b /= -> ->.
Qed.
Lemma samples_pos : (size (flatten xs))%:R != 0 :> RR.
Proof.
apply: contraNneq Hn => E; rewrite -(mulr1 (norm2 _)) -w1 mulr_sumr big1 // => x _.
by rewrite /w -Hr E invr0 !mulr0.
Qed.
Lemma centred (o e : T -> RR) :
  \sum_x w x * ((o x - \sum_y w y * o y) * (e x - \sum_y w y * e y)) = \sum_x w x * ((e x - \sum_y w y * e y) * o x).
Proof.
set O := \sum_y w y * o y; set E := \sum_y w y * e y.
transitivity (\sum_x (w x * ((e x - E) * o x) - O * (w x * e x - w x * E))).
  apply: eq_bigr => x _; rewrite -[w x * e x - _]mulrBr (mulrCA O) -mulrBr mulrBl; congr (_ * (_ - _)); exact: mulrC.
by rewrite sumrB -mulr_sumr sumrB -mulr_suml w1 mul1r subrr mulr0 subr0.
Qed.
Lemma force_gradient ranks : exact (psi theta) ranks ->
  2%:R *: force (si_ranks (input_of (psi theta) dpsi xs 0)) (si_mean (input_of (psi theta) dpsi xs 0))
  = energy_gradient psi theta dpsi ranks.
Proof.
move=> Hex; apply/matrixP => a j; rewrite (ord1 j) [LHS]mxE [RHS]mxE [X in _ * X]mxE average_of.
set o := log_der (dpsi a) (psi theta); set e := loc_energy H (psi theta).
have Em : en_mean e ranks = (\sum_x w x * (e x).1, \sum_x w x * (e x).2).
  rewrite -!(pairs_mean _ Hex) -(sum_pairs ranks (fun p => p.2 * (e p.1).1)).
  by rewrite -(sum_pairs ranks (fun p => p.2 * (e p.1).2)).
rewrite /grad_real -mulr_sumr; congr (_ * _).
under [RHS]eq_bigr do rewrite val_gradE Em; rewrite (sum_pairs ranks (fun p => p.2 * _)).
rewrite (@pairs_mean _ (fun x => (xsub (e x) (\sum_x w x * (e x).1, \sum_x w x * (e x).2)).1 * (o x).1
   + (xsub (e x) (\sum_x w x * (e x).1, \sum_x w x * (e x).2)).2 * (o x).2) Hex).
rewrite sample_meanE /dev_re /dev_im /= !average_of !sample_meanE.
under eq_bigr do rewrite !mxE -/e mulrDr; rewrite big_split /=.
under [RHS]eq_bigr do rewrite mulrDr; rewrite big_split /=; congr (_ + _).
  under [X in \sum_x w x * ((_ - X) * _)]eq_bigr do rewrite mxE.
  by rewrite (centred (fun x => (o x).1) (fun x => (e x).1)).
under [X in \sum_x w x * ((_ - X) * _)]eq_bigr do rewrite mxE.
by rewrite (centred (fun x => (o x).2) (fun x => (e x).2)).
Qed.
Theorem C119_driver (decay eps shift : RR) (solver : 'M[R_rcfType]_P -> 'cV[R_rcfType]_P -> 'cV[R_rcfType]_P)
    (d : driver R_rcfType P) ranks :
  0 < shift -> 0 < eps -> (forall M b, M \in unitmx -> M *m solver M b = b) -> exact (psi theta) ranks ->
  let g := energy_gradient psi theta dpsi ranks in
  let dp := step_update true decay eps solver d (input_of (psi theta) dpsi xs shift) in
  (g = 0 -> dp = 0) /\ (g <> 0 -> descends psi theta dp).
Proof.
move=> Hs0 He Hsol Hex g dp; pose i := input_of (psi theta) dpsi xs shift.
have [_ Hp] := @C47_posdef R_rcfType P true decay eps d i Hs0 He.
have [Hx _] := @C47_solvable R_rcfType P true decay eps solver d i Hs0 He Hsol.
have Heq : equal_shapes (si_ranks i) n.
  by rewrite /equal_shapes all_map /=; apply: sub_all Hs => r /eqP Hr'; rewrite /= !size_map Hr' eqxx.
have Hg : step_matrix true decay eps d i *m dp = ((n * size (si_ranks i))%:R ^+ 2) *: g.
  rewrite Hx /step_gradient (gradient_complex _ Heq) scaleNr opprK mulrC -scalerA; congr (_ *: _).
  exact: force_gradient.
have HN : (n * size (si_ranks i))%:R != 0 :> RR.
  have -> : (n * size (si_ranks i))%N = size (flatten xs); last exact: samples_pos.
  by rewrite -(size_samples Heq) all_samples_of size_map.
split=> [E|/eqP E].
  by apply: (posdef_zero Hp); rewrite Hg E scaler0.
apply: (C119_descends Hd Hz Hn Hex); have E2 : (n * size (si_ranks i))%:R ^+ 2 *: g != 0.
  by rewrite scaler_eq0 negb_or sqrf_eq0 HN.
by have := dot_pos Hp Hg E2; rewrite dot_scale pmulr_rgt0 // exprn_even_gt0.
Qed.
End Driver.
End Energy.

(* two configurations with amplitudes theta and 1, the operator exchanging them, theta = 2: five representative
   samples of one rank; one step of VMC_SRRMSProp lowers the energy, whatever the moment and the step counter *)
Section Example.
Definition ex_state (theta : 'cV[RR]_1) : bool -> cx := ex_psi (theta 0 0).
Definition ex_theta : 'cV[RR]_1 := const_mx 2%:R.
Definition ex_ders (a : 'I_1) : bool -> cx := ex_dpsi.
Definition ex_ranks : seq (seq bool * seq RR) :=
  [:: ([:: true], [:: xabs2 (ex_state ex_theta true) / norm2 (ex_state ex_theta)]);
      ([:: false], [:: xabs2 (ex_state ex_theta false) / norm2 (ex_state ex_theta)])].
Add Ring RRx : (r_theory (GRing.Field.comRingType RR)).
Add Field RRy : (f_theory RR).
Lemma ex_hermitian : hermitian ex_H.
Proof. by move=> x y; rewrite /ex_H /xconj /= oppr0 eq_sym. Qed.
Lemma ex_nonzero x : ex_state ex_theta x <> (0, 0).
Proof. by case: x => /= -[]; rewrite ?mxE => /eqP; rewrite ?pnatr_eq0 ?oner_eq0. Qed.
Lemma ex_norm : norm2 (ex_state ex_theta) = 5%:R.
Proof. by rewrite /norm2 big_bool2 /xabs2 /= mxE expr1n expr0n /= !addr0 -natrX -(natrD _ 4 1). Qed.
Lemma ex_differentiable : differentiable ex_state ex_theta ex_ders.
Proof.
move=> v x; rewrite /xsum (_ : enum 'I_1 = [:: ord0]); last by rewrite enum_ordSl enum_ord0.
rewrite !big_cons !big_nil /= !addr0 mulr0; split; last exact: der_const.
case: x => /=; last by rewrite mulr0; exact: der_const.
apply: der_eq (der_ext (g := fun s => ex_theta 0 0 + s * v 0 0) _ (der_add (der_const _ _) (der_mul (der_id _) (der_const _ _)))) _.
  by move=> s; rewrite !mxE.
by rewrite mulr0 addr0 add0r mul1r mulr1.
Qed.
Lemma ex_exact : exact (ex_state ex_theta) ex_ranks.
Proof.
have N1 : xabs2 (ex_state ex_theta true) != 0 by rewrite /xabs2 /= mxE expr0n addr0 sqrf_eq0 pnatr_eq0.
have N2 : xabs2 (ex_state ex_theta false) != 0 by rewrite /xabs2 /= expr0n addr0 expr1n oner_neq0.
by rewrite /exact enum_bool2 /= N1 N2.
Qed.
Lemma ex_gradient : energy_gradient ex_H ex_state ex_theta ex_ders ex_ranks <> 0.
Proof.
move/matrixP/(_ 0 0); rewrite !mxE.
rewrite (grad_sum ex_hermitian ex_exact); last by rewrite ex_norm pnatr_eq0.
rewrite ex_norm /rayleigh ex_norm big_mkcond !big_bool2 /action /xsum /= !big_enumT !big_bool2 /=.
rewrite /xmul /xconj /xabs2 /xscale /= mxE.
rewrite !(mul0r, mulr0, mul1r, mulr1, subr0, oppr0, addr0, add0r, expr0n, expr1n, if_same) /= ?addr0 sqrf_eq0 pnatr_eq0 /=.
have E5 : 5%:R != 0 :> RR by rewrite pnatr_eq0.
move/eqP; rewrite mulf_eq0 mulf_eq0 invr_eq0 !pnatr_eq0 /= subr_eq0 eq_sym mulrAC.
rewrite -(inj_eq (mulIf E5)) divfK // mul1r -(natrD _ 2 2) -(natrM _ 4 2) eqr_nat //.
Qed.
Example C119_example (decay eps shift : RR) (d : driver R_rcfType 1) : 0 < shift -> 0 < eps ->
  descends ex_H ex_state ex_theta
    (step_update true decay eps (fun M b => invmx M *m b) d
       (input_of ex_H (ex_state ex_theta) ex_ders [:: [:: true; true; false; true; true]] shift)).
Proof.
move=> H1 H2.
have := C119_driver (xs := [:: [:: true; true; false; true; true]]) (n := 5) ex_hermitian ex_differentiable ex_nonzero _ _ _ decay (solver := fun M b => invmx M *m b) d H1 H2 _ ex_exact.
case=> //; first by rewrite ex_norm pnatr_eq0.
- by case; rewrite ex_norm /= /xabs2 /= ?mxE expr0n addr0 ?expr1n -?natrX.
- by move=> M b Hu; rewrite mulKVmx.
by move=> _; apply; exact: ex_gradient.
Qed.
End Example.
