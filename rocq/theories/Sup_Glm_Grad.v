(* GPSKet/supervised/supervised_qgps.py, QGPSGenLinMod.setup_fit_alpha_dep: get_loss (L1441-1457), get_grad
   (L1459-1469) and get_hessian (L1471-1486), over the real numbers of Coq's standard library with the true
   exponential.  Both variants: real data (numpy float), and complex data with complex_expand, where the
   weights are real and K = hstack((K, 1j K)) (L1357-1360).  Sums over the configurations of all ranks
   (_mpi_sum).  Complex numbers are pairs of reals.  C67. *)
From Coq Require Import Reals Lra Arith Lia.
Local Open Scope R_scope.

(* --- finite sums *)
Fixpoint rsum (n : nat) (f : nat -> R) : R := match n with O => 0 | S m => rsum m f + f m end.

(* --- complex numbers *)
Definition cplx := (R * R)%type.
Definition cadd (x y : cplx) : cplx := (fst x + fst y, snd x + snd y).
Definition csub (x y : cplx) : cplx := (fst x - fst y, snd x - snd y).
Definition cneg (x : cplx) : cplx := (- fst x, - snd x).
Definition cmul (x y : cplx) : cplx := (fst x * fst y - snd x * snd y, fst x * snd y + snd x * fst y).
Definition cconj (x : cplx) : cplx := (fst x, - snd x).
Definition cscale (a : R) (x : cplx) : cplx := (a * fst x, a * snd x).
Definition cnorm2 (x : cplx) : R := fst x * fst x + snd x * snd x.
Definition cexp (x : cplx) : cplx := (exp (fst x) * cos (snd x), exp (fst x) * sin (snd x)).
Definition ci : cplx := (0, 1).
Definition csum (n : nat) (f : nat -> cplx) : cplx := (rsum n (fun i => fst (f i)), rsum n (fun i => snd (f i))).

(* --- real data; m configurations, p weights *)
Section RealModel.
Variables (m p : nat) (K : nat -> nat -> R) (weightings fit_data alpha : nat -> R) (active : nat -> bool) (beta : R).
Definition rpred (w : nat -> R) (i : nat) : R := exp (rsum p (fun j => K i j * w j)).
Definition get_loss (w : nat -> R) : R :=
  (beta * rsum m (fun i => weightings i * (fit_data i - rpred w i) ^ 2)
   + rsum p (fun j => if active j then alpha j * (w j) ^ 2 else 0)) / 2.
Definition get_grad (w : nat -> R) (j : nat) : R :=
  beta * - rsum m (fun i => K i j * (weightings i * rpred w i * (fit_data i - rpred w i))) + alpha j * w j.
Definition get_hessian (w : nat -> R) (j k : nat) : R :=
  beta * (- rsum m (fun i => K i j * (weightings i * rpred w i * (fit_data i - rpred w i)) * K i k)
          + rsum m (fun i => K i j * (weightings i * rpred w i * rpred w i) * K i k))
  + (if Nat.eqb j k then alpha j else 0).
End RealModel.

(* --- complex data, complex_expand; p is twice the number of columns of self.K *)
Section ComplexModel.
Variables (m p : nat) (K : nat -> nat -> cplx) (weightings : nat -> R) (fit_data : nat -> cplx)
  (alpha : nat -> R) (active : nat -> bool) (beta : R).
Definition cpred (w : nat -> R) (i : nat) : cplx := cexp (csum p (fun j => cscale (w j) (K i j))).
Definition get_lossx (w : nat -> R) : R :=
  (beta * rsum m (fun i => weightings i * cnorm2 (csub (fit_data i) (cpred w i)))
   + rsum p (fun j => if active j then alpha j / 2 * (w j) ^ 2 else 0)) / 2.
Definition b1 (w : nat -> R) (i : nat) : cplx :=
  cmul (cscale (weightings i) (cpred w i)) (cconj (csub (fit_data i) (cpred w i))).
Definition b2 (w : nat -> R) (i : nat) : cplx := cmul (cscale (weightings i) (cpred w i)) (cconj (cpred w i)).
Definition get_gradx (w : nat -> R) (j : nat) : R :=
  fst (cscale beta (cneg (csum m (fun i => cmul (K i j) (b1 w i))))) + alpha j / 2 * w j.
Definition get_hessianx (w : nat -> R) (j k : nat) : R :=
  fst (cadd (cscale beta (cadd (cneg (csum m (fun i => cmul (cmul (K i j) (b1 w i)) (K i k))))
                               (csum m (fun i => cmul (cmul (K i j) (b2 w i)) (cconj (K i k))))))
            ((if Nat.eqb j k then alpha j / 2 else 0), 0)).
End ComplexModel.
(* np.hstack((self.K, 1.0j * self.K)), L1358 *)
Definition hstack_i (n : nat) (K : nat -> nat -> cplx) : nat -> nat -> cplx :=
  fun i j => if Nat.ltb j n then K i j else cmul ci (K i (j - n)%nat).

(* --- sums *)
Lemma rsum_ext n f g : (forall i, (i < n)%nat -> f i = g i) -> rsum n f = rsum n g.
Proof. induction n as [|n IH]; intros H; simpl; [reflexivity|]. rewrite IH, H by (intros; try apply H; lia); reflexivity. Qed.
Lemma rsum_add n f g : rsum n (fun i => f i + g i) = rsum n f + rsum n g.
Proof. induction n as [|n IH]; simpl; [ring|rewrite IH; ring]. Qed.
Lemma rsum_scale n a f : rsum n (fun i => a * f i) = a * rsum n f.
Proof. induction n as [|n IH]; simpl; [ring|rewrite IH; ring]. Qed.
Lemma rsum_opp n f : rsum n (fun i => - f i) = - rsum n f.
Proof. induction n as [|n IH]; simpl; [ring|rewrite IH; ring]. Qed.
Lemma rsum_0 n : rsum n (fun _ => 0) = 0.
Proof. induction n as [|n IH]; simpl; [reflexivity|rewrite IH; ring]. Qed.
Lemma rsum_swap m p f : rsum m (fun i => rsum p (fun j => f i j)) = rsum p (fun j => rsum m (fun i => f i j)).
Proof.
induction m as [|m IH]; simpl; [symmetry; apply rsum_0|].
rewrite IH, <- rsum_add. reflexivity.
Qed.
Lemma rsum_delta p j v a : (j < p)%nat -> rsum p (fun k => v k * (if Nat.eqb j k then a else 0)) = v j * a.
Proof.
induction p as [|p IH]; intros H; simpl; [lia|].
destruct (Nat.eqb_spec j p) as [->|Hn].
- rewrite (rsum_ext _ _ (fun _ => 0)); [rewrite rsum_0; ring|].
  intros k Hk; destruct (Nat.eqb_spec p k); [lia|ring].
- rewrite IH by lia; ring.
Qed.

(* --- derivatives at 0 *)
Definition D (f : R -> R) (l : R) := derivable_pt_lim f 0 l.
Lemma D_ext f g l : (forall t, f t = g t) -> D f l -> D g l.
Proof.
intros H Hf eps He; destruct (Hf eps He) as [d Hd]; exists d; intros h Hh1 Hh2.
rewrite <- !H; auto.
Qed.
Lemma D_eq f l l' : l = l' -> D f l -> D f l'.
Proof. intros ->; auto. Qed.
Lemma D_const a : D (fun _ => a) 0.
Proof. apply derivable_pt_lim_const. Qed.
Lemma D_id : D (fun t => t) 1.
Proof. apply derivable_pt_lim_id. Qed.
Lemma D_add f g a b : D f a -> D g b -> D (fun t => f t + g t) (a + b).
Proof. apply derivable_pt_lim_plus. Qed.
Lemma D_sub f g a b : D f a -> D g b -> D (fun t => f t - g t) (a - b).
Proof. apply derivable_pt_lim_minus. Qed.
Lemma D_opp f a : D f a -> D (fun t => - f t) (- a).
Proof. apply derivable_pt_lim_opp. Qed.
Lemma D_mul f g a b : D f a -> D g b -> D (fun t => f t * g t) (a * g 0 + f 0 * b).
Proof. apply derivable_pt_lim_mult. Qed.
Lemma D_scale c f a : D f a -> D (fun t => c * f t) (c * a).
Proof. apply derivable_pt_lim_scal. Qed.
Lemma D_exp f a : D f a -> D (fun t => exp (f t)) (exp (f 0) * a).
Proof. intros H; apply (derivable_pt_lim_comp f exp); [exact H|apply derivable_pt_lim_exp]. Qed.
Lemma D_cos f a : D f a -> D (fun t => cos (f t)) (- sin (f 0) * a).
Proof. intros H; apply (derivable_pt_lim_comp f cos); [exact H|apply derivable_pt_lim_cos]. Qed.
Lemma D_sin f a : D f a -> D (fun t => sin (f t)) (cos (f 0) * a).
Proof. intros H; apply (derivable_pt_lim_comp f sin); [exact H|apply derivable_pt_lim_sin]. Qed.
Lemma D_sum n f l : (forall i, (i < n)%nat -> D (f i) (l i)) -> D (fun t => rsum n (fun i => f i t)) (rsum n l).
Proof.
induction n as [|n IH]; intros H; simpl; [apply D_const|].
apply D_add; [apply IH; intros; apply H; lia|apply H; lia].
Qed.
Lemma D_sq f a : D f a -> D (fun t => f t ^ 2) (2 * f 0 * a).
Proof.
intros H; apply (D_ext (fun t => f t * f t)); [intros; ring|].
eapply D_eq; [|apply D_mul; exact H]; cbv beta; ring.
Qed.

(* the point w + t v *)
Definition along (w v : nat -> R) (t : R) : nat -> R := fun j => w j + t * v j.
Lemma D_along w v j : D (fun t => along w v t j) (v j).
Proof.
unfold along; eapply D_eq; [|apply D_add; [apply D_const|apply D_mul; [apply D_id|apply D_const]]]; cbv beta; ring.
Qed.
Lemma along0 w v j : along w v 0 j = w j.
Proof. unfold along; ring. Qed.

Section Real.
Variables (m p : nat) (K : nat -> nat -> R) (s y alpha : nat -> R) (active : nat -> bool) (beta : R).
Variables (w v : nat -> R).
Notation pred := (rpred p K).
Lemma pred0 i : pred (along w v 0) i = pred w i.
Proof. unfold rpred; f_equal; apply rsum_ext; intros j _; now rewrite along0. Qed.
Lemma D_pred i : D (fun t => pred (along w v t) i) (pred w i * rsum p (fun j => K i j * v j)).
Proof.
eapply D_eq; [|apply D_exp, D_sum; intros j _; apply D_scale, D_along].
cbv beta; rewrite <- pred0; reflexivity.
Qed.

(* get_grad is the gradient of get_loss, in all directions within the active weights *)
Theorem C67_gradient : (forall j, active j = false -> v j = 0) ->
  derivable_pt_lim (fun t => get_loss m p K s y alpha active beta (along w v t)) 0
    (rsum p (fun j => v j * get_grad m p K s y alpha beta w j)).
Proof.
intros Hv; fold (D (fun t => get_loss m p K s y alpha active beta (along w v t))
    (rsum p (fun j => v j * get_grad m p K s y alpha beta w j))).
unfold get_loss.
apply (D_ext (fun t => / 2 * (beta * rsum m (fun i => s i * (y i - pred (along w v t) i) ^ 2)
   + rsum p (fun j => if active j then alpha j * (along w v t j) ^ 2 else 0)))); [intros; field|].
eapply D_eq; [|apply D_scale, D_add; [apply D_scale, D_sum; intros i _; apply D_scale, D_sq, D_sub; [apply D_const|apply D_pred]
  |apply (D_sum p _ (fun j => if active j then alpha j * (2 * w j * v j) else 0)); intros j _]].
2:{ destruct (active j); [|apply D_const]. apply D_scale. eapply D_eq; [|apply D_sq, D_along]. cbv beta; now rewrite along0. }
rewrite (rsum_ext m _ (fun i => 2 * - (rsum p (fun j => v j * (K i j * (s i * pred w i * (y i - pred w i))))))).
2:{ intros i _; cbv beta; rewrite ?pred0.
    rewrite (rsum_ext p (fun j => v j * _) (fun j => (s i * pred w i * (y i - pred w i)) * (K i j * v j))) by (intros; ring).
    rewrite rsum_scale; ring. }
rewrite rsum_scale, rsum_opp, rsum_swap.
rewrite (rsum_ext p (fun j => if active j then _ else _) (fun j => 2 * (v j * (alpha j * w j)))).
2:{ intros j _; destruct (active j) eqn:E; [ring|rewrite (Hv j E); ring]. }
unfold get_grad.
rewrite (rsum_ext p (fun j => v j * (beta * _ + _)) (fun j => - beta * rsum m (fun i => v j * (K i j * (s i * pred w i * (y i - pred w i)))) + v j * (alpha j * w j))).
2:{ intros j _; rewrite rsum_scale; ring. }
rewrite rsum_add, !rsum_scale; field.
Qed.

(* get_hessian is the Jacobian of get_grad *)
Theorem C67_hessian j : (j < p)%nat ->
  derivable_pt_lim (fun t => get_grad m p K s y alpha beta (along w v t) j) 0
    (rsum p (fun k => v k * get_hessian m p K s y alpha beta w j k)).
Proof.
intros Hj; fold (D (fun t => get_grad m p K s y alpha beta (along w v t) j)
    (rsum p (fun k => v k * get_hessian m p K s y alpha beta w j k))).
unfold get_grad.
eapply D_eq; [|apply D_add; [apply D_scale, D_opp, D_sum; intros i _; apply D_scale, D_mul; [apply D_scale, D_pred|apply D_sub; [apply D_const|apply D_pred]]|apply D_scale, D_along]].
unfold get_hessian.
set (q := fun i => K i j * (- (s i * pred w i * (y i - pred w i)) + s i * pred w i * pred w i)).
rewrite (rsum_ext m _ (fun i => rsum p (fun k => - (v k * (q i * K i k))))).
2:{ intros i _; cbv beta; rewrite ?pred0.
    rewrite (rsum_ext p (fun k => - _) (fun k => - q i * (K i k * v k))) by (intros; ring).
    rewrite rsum_scale; unfold q; ring. }
rewrite rsum_swap.
rewrite (rsum_ext p (fun k => v k * (beta * _ + _)) (fun k => - beta * rsum m (fun i => - (v k * (q i * K i k))) + v k * (if Nat.eqb j k then alpha j else 0))).
2:{ intros k _; rewrite rsum_opp, rsum_scale.
    rewrite <- rsum_opp, <- rsum_add.
    rewrite (rsum_ext m (fun i => - _ + _) (fun i => q i * K i k)) by (intros; unfold q; ring). ring. }
rewrite rsum_add, rsum_scale, rsum_delta by exact Hj; ring.
Qed.

Theorem C67_symmetric j k : get_hessian m p K s y alpha beta w j k = get_hessian m p K s y alpha beta w k j.
Proof.
unfold get_hessian; f_equal.
- f_equal; f_equal; [f_equal|]; apply rsum_ext; intros; ring.
- rewrite Nat.eqb_sym; destruct (Nat.eqb_spec k j) as [->|]; reflexivity.
Qed.
End Real.

Section Complex.
Variables (m p : nat) (K : nat -> nat -> cplx) (s : nat -> R) (y : nat -> cplx) (alpha : nat -> R)
  (active : nat -> bool) (beta : R).
Variables (w v : nat -> R).
Notation pred := (cpred p K).
Definition dz i := csum p (fun j => cscale (v j) (K i j)).
Lemma cpred0 i : pred (along w v 0) i = pred w i.
Proof.
unfold cpred; f_equal; unfold csum; f_equal; apply rsum_ext; intros j _; simpl; now rewrite along0.
Qed.
Lemma D_z (f : cplx -> R) i : D (fun t => rsum p (fun j => along w v t j * f (K i j))) (rsum p (fun j => v j * f (K i j))).
Proof.
apply D_sum; intros j _; apply (D_ext (fun t => f (K i j) * along w v t j)); [intros; ring|].
eapply D_eq; [|apply D_scale, D_along]; ring.
Qed.
Lemma D_pr i : D (fun t => fst (pred (along w v t) i)) (fst (cmul (pred w i) (dz i))).
Proof.
rewrite <- cpred0; eapply D_eq; [|apply D_mul; [apply D_exp, (D_z fst)|apply D_cos, (D_z snd)]].
simpl; ring.
Qed.
Lemma D_pi i : D (fun t => snd (pred (along w v t) i)) (snd (cmul (pred w i) (dz i))).
Proof.
rewrite <- cpred0; eapply D_eq; [|apply D_mul; [apply D_exp, (D_z fst)|apply D_sin, (D_z snd)]].
simpl; ring.
Qed.

Lemma get_gradxE w' j : get_gradx m p K s y alpha beta w' j =
  beta * - rsum m (fun i => fst (cmul (K i j) (b1 p K s y w' i))) + alpha j / 2 * w' j.
Proof. reflexivity. Qed.
Lemma get_hessianxE j k : get_hessianx m p K s y alpha beta w j k =
  beta * (- rsum m (fun i => fst (cmul (cmul (K i j) (b1 p K s y w i)) (K i k)))
          + rsum m (fun i => fst (cmul (cmul (K i j) (b2 p K s w i)) (cconj (K i k)))))
  + (if Nat.eqb j k then alpha j / 2 else 0).
Proof. reflexivity. Qed.

Theorem C67_gradientx : (forall j, active j = false -> v j = 0) ->
  derivable_pt_lim (fun t => get_lossx m p K s y alpha active beta (along w v t)) 0
    (rsum p (fun j => v j * get_gradx m p K s y alpha beta w j)).
Proof.
intros Hv; fold (D (fun t => get_lossx m p K s y alpha active beta (along w v t))
    (rsum p (fun j => v j * get_gradx m p K s y alpha beta w j))).
unfold get_lossx, cnorm2, csub.
apply (D_ext (fun t => / 2 * (beta * rsum m (fun i => s i * ((fst (y i) - fst (pred (along w v t) i)) ^ 2 + (snd (y i) - snd (pred (along w v t) i)) ^ 2))
   + rsum p (fun j => if active j then alpha j / 2 * (along w v t j) ^ 2 else 0)))).
{ intros t. rewrite (rsum_ext m (fun i => s i * (fst (_, _) * _ + _)) (fun i => s i * ((fst (y i) - fst (pred (along w v t) i)) ^ 2 + (snd (y i) - snd (pred (along w v t) i)) ^ 2))) by (intros; simpl; ring). field. }
eapply D_eq; [|apply D_scale, D_add; [apply D_scale, D_sum; intros i _; apply D_scale, D_add; apply D_sq, D_sub; [apply D_const|apply D_pr|apply D_const|apply D_pi]
  |apply (D_sum p _ (fun j => if active j then alpha j / 2 * (2 * w j * v j) else 0)); intros j _]].
2:{ destruct (active j); [|apply D_const]. apply D_scale. eapply D_eq; [|apply D_sq, D_along]. cbv beta; now rewrite along0. }
rewrite (rsum_ext m _ (fun i => 2 * - (rsum p (fun j => v j * fst (cmul (K i j) (b1 p K s y w i)))))).
2:{ intros i _; cbv beta; rewrite cpred0.
    rewrite (rsum_ext p (fun j => v j * fst _) (fun j => fst (b1 p K s y w i) * (v j * fst (K i j)) + - snd (b1 p K s y w i) * (v j * snd (K i j)))) by (intros; simpl; ring).
    rewrite rsum_add, !rsum_scale; unfold dz, b1; simpl; ring. }
rewrite rsum_scale, rsum_opp, rsum_swap.
rewrite (rsum_ext p (fun j => if active j then _ else _) (fun j => 2 * (v j * (alpha j / 2 * w j)))).
2:{ intros j _; destruct (active j) eqn:E; [field|rewrite (Hv j E); field]. }
unfold get_gradx.
rewrite (rsum_ext p (fun j => v j * (_ + _)) (fun j => - beta * rsum m (fun i => v j * fst (cmul (K i j) (b1 p K s y w i))) + v j * (alpha j / 2 * w j))).
2:{ intros j _; rewrite rsum_scale; unfold cscale, cneg, csum, fst at 1; simpl fst; ring. }
rewrite rsum_add, !rsum_scale; field.
Qed.

Theorem C67_hessianx j : (j < p)%nat ->
  derivable_pt_lim (fun t => get_gradx m p K s y alpha beta (along w v t) j) 0
    (rsum p (fun k => v k * get_hessianx m p K s y alpha beta w j k)).
Proof.
intros Hj; fold (D (fun t => get_gradx m p K s y alpha beta (along w v t) j)
    (rsum p (fun k => v k * get_hessianx m p K s y alpha beta w j k))).
set (pr := fun t i => fst (pred (along w v t) i)). set (pi := fun t i => snd (pred (along w v t) i)).
apply (D_ext (fun t => beta * - rsum m (fun i => fst (K i j) * (s i * (pr t i * (fst (y i) - pr t i) + pi t i * (snd (y i) - pi t i)))
    - snd (K i j) * (s i * (pi t i * (fst (y i) - pr t i) - pr t i * (snd (y i) - pi t i)))) + alpha j / 2 * along w v t j)).
{ intros t; rewrite get_gradxE; f_equal; f_equal; f_equal; apply rsum_ext; intros i _.
  unfold pr, pi, b1; simpl; ring. }
assert (Hr : forall i, D (fun t => pr t i) (fst (cmul (pred w i) (dz i)))) by (intros; apply D_pr).
assert (Hi : forall i, D (fun t => pi t i) (snd (cmul (pred w i) (dz i)))) by (intros; apply D_pi).
assert (Hyr : forall i, D (fun t => fst (y i) - pr t i) (0 - fst (cmul (pred w i) (dz i)))) by (intros; apply D_sub; [apply D_const|apply Hr]).
assert (Hyi : forall i, D (fun t => snd (y i) - pi t i) (0 - snd (cmul (pred w i) (dz i)))) by (intros; apply D_sub; [apply D_const|apply Hi]).
eapply D_eq; [|apply D_add; [apply D_scale, D_opp, D_sum; intros i _; apply D_sub; apply D_scale, D_scale;
  [apply D_add; [exact (D_mul _ _ _ _ (Hr i) (Hyr i))|exact (D_mul _ _ _ _ (Hi i) (Hyi i))]
  |apply D_sub; [exact (D_mul _ _ _ _ (Hi i) (Hyr i))|exact (D_mul _ _ _ _ (Hr i) (Hyi i))]]|apply D_scale, D_along]].
set (h := fun i k => fst (cadd (cneg (cmul (cmul (K i j) (b1 p K s y w i)) (K i k))) (cmul (cmul (K i j) (b2 p K s w i)) (cconj (K i k))))).
rewrite (rsum_ext m _ (fun i => rsum p (fun k => - (v k * h i k)))).
2:{ intros i _; cbv beta; unfold pr, pi; rewrite cpred0.
    rewrite (rsum_ext p (fun k => - _) (fun k =>
      (fst (cmul (K i j) (b1 p K s y w i)) - fst (cmul (K i j) (b2 p K s w i))) * (v k * fst (K i k))
      + (- snd (cmul (K i j) (b1 p K s y w i)) - snd (cmul (K i j) (b2 p K s w i))) * (v k * snd (K i k)))).
    2:{ intros k _; unfold h; simpl; ring. }
    rewrite rsum_add, !rsum_scale; unfold dz, b1, b2; simpl; ring. }
rewrite rsum_swap.
rewrite (rsum_ext p (fun k => v k * get_hessianx m p K s y alpha beta w j k) (fun k => - beta * rsum m (fun i => - (v k * h i k)) + v k * (if Nat.eqb j k then alpha j / 2 else 0))).
2:{ intros k _; rewrite rsum_opp, rsum_scale.
    rewrite get_hessianxE, <- rsum_opp, <- rsum_add.
    rewrite (rsum_ext m (fun i => - fst _ + fst _) (fun i => h i k)) by (intros; reflexivity). ring. }
rewrite rsum_add, rsum_scale, rsum_delta by exact Hj; ring.
Qed.

Theorem C67_symmetricx j k : get_hessianx m p K s y alpha beta w j k = get_hessianx m p K s y alpha beta w k j.
Proof.
rewrite !get_hessianxE; f_equal.
- f_equal; f_equal; [f_equal|]; apply rsum_ext; intros; unfold b2; simpl; ring.
- rewrite Nat.eqb_sym; destruct (Nat.eqb_spec k j) as [->|]; reflexivity.
Qed.
End Complex.

(* The expanded K reproduces the complex model: hstack((K, 1j K)) applied to the real and imaginary parts
   of complex weights is K applied to the weights *)
Lemma rsum_split n q f : rsum (n + q) f = rsum n f + rsum q (fun j => f (n + j)%nat).
Proof. induction q as [|q IH]; simpl; [rewrite Nat.add_0_r; ring|]. rewrite Nat.add_succ_r; simpl; rewrite IH; ring. Qed.
Theorem C67_expand n K w i :
  csum (n + n) (fun j => cscale (w j) (hstack_i n K i j)) = csum n (fun j => cmul (K i j) (w j, w (n + j)%nat)).
Proof.
unfold csum; rewrite !rsum_split; f_equal; rewrite <- rsum_add; apply rsum_ext; intros j Hj; unfold hstack_i;
  rewrite (proj2 (Nat.ltb_lt j n)) by exact Hj; rewrite (proj2 (Nat.ltb_ge (n + j) n)) by lia;
  rewrite (Nat.add_comm n j) at 2; rewrite Nat.add_sub; simpl; ring.
Qed.

(* one configuration with amplitude 3, one feature 1, alpha 2, weight 0: loss (3 - e^w)^2/2 + w^2 *)
Example C67_example :
  let K := fun _ _ : nat => 1 in let s := fun _ : nat => 1 in let y := fun _ : nat => 3 in let al := fun _ : nat => 2 in
  get_loss 1 1 K s y al (fun _ => true) 1 (fun _ => 0) = 2 /\
  get_grad 1 1 K s y al 1 (fun _ => 0) 0 = - 2 /\ get_hessian 1 1 K s y al 1 (fun _ => 0) 0 0 = 1.
Proof.
unfold get_loss, get_grad, get_hessian, rpred; simpl.
replace (0 + 1 * 0) with 0 by ring; rewrite exp_0; repeat split; lra.
Qed.
