(* C111: with exact weights the gradient of expect_and_grad is the derivative of the energy *)
From mathcomp Require Import zify.
From Verif Require Import Base Fld Rstruct Calc Energy_Grad_Model.
Import Num.Theory Order.TTheory.
Local Open Scope ring_scope.

Section Energy.
Variable T : finType.
(* an operator by its matrix elements, a state by its amplitudes *)
Implicit Types (H : T -> T -> cx) (psi : T -> cx).
Definition hermitian H : Prop := forall x y, H x y = xconj (H y x).
Definition norm2 psi : RR := \sum_x xabs2 (psi x).
(* (H psi)(x) *)
Definition action H psi (x : T) : cx := xsum (enum T) (fun y => xmul (H x y) (psi y)).
(* <psi|H|psi> / <psi|psi> *)
Definition rayleigh H psi : RR := (\sum_x (xmul (xconj (psi x)) (action H psi x)).1) / norm2 psi.
(* local energy and logarithmic derivative *)
Definition loc_energy H psi (x : T) : cx := xdiv (action H psi x) (psi x).
Definition log_der (dpsi psi : T -> cx) (x : T) : cx := xdiv (dpsi x) (psi x).
(* the samples of all ranks are the configurations of non-zero amplitude, each once, with its probability *)
Definition all_pairs (ranks : seq (seq T * seq RR)) : seq (T * RR) := flatten [seq zip r.1 r.2 | r <- ranks].
Definition exact psi ranks : Prop :=
  perm_eq (all_pairs ranks) [seq (x, xabs2 (psi x) / norm2 psi) | x <- enum T & xabs2 (psi x) != 0].
(* dpsi is the derivative of the amplitudes at t *)
Definition dstate (psi : RR -> T -> cx) (t : RR) (dpsi : T -> cx) : Prop :=
  forall x, der (fun s => (psi s x).1) t (dpsi x).1 /\ der (fun s => (psi s x).2) t (dpsi x).2.

Lemma sum_pairs ranks (f : T * RR -> RR) :
  \sum_(r <- pairs_of ranks) \sum_(p <- r) f p = \sum_(p <- all_pairs ranks) f p.
Proof. by rewrite /all_pairs /pairs_of big_flatten. Qed.

Lemma exact_sum psi ranks (g : T -> RR) : exact psi ranks ->
  \sum_(p <- all_pairs ranks) p.2 * g p.1 = \sum_(x | xabs2 (psi x) != 0) xabs2 (psi x) / norm2 psi * g x.
Proof.
move=> He; rewrite (perm_big _ He) /= big_map big_filter.
by rewrite enumT [index_enum _]unlock.
Qed.
Lemma big_enumT (f : T -> RR) : \sum_(x <- enum T) f x = \sum_x f x.
Proof. by rewrite enumT [index_enum _]unlock. Qed.

Lemma xabs2_eq0 (a : cx) : xabs2 a = 0 -> a.1 = 0 /\ a.2 = 0.
Proof.
by rewrite /xabs2 => /eqP; rewrite paddr_eq0 ?sqr_ge0 // !sqrf_eq0 => /andP[/eqP -> /eqP ->].
Qed.

Section Herm.
Variable H : T -> T -> cx.
Hypothesis Hh : hermitian H.
Definition q (x y : T) (a b : T -> cx) : RR := (xmul (xconj (a x)) (xmul (H x y) (b y))).1.
Definition qi (x y : T) (a b : T -> cx) : RR := (xmul (xconj (a x)) (xmul (H x y) (b y))).2.
Add Ring RRr : (r_theory (GRing.Field.comRingType RR)).
Add Field RRf : (f_theory RR).
Lemma q_sym x y a b : q x y a b = q y x b a.
Proof.
rewrite /q Hh; case: (H y x) (a x) (b y) => [h1 h2] [a1 a2] [b1 b2]; rewrite /xmul /xconj /=.
mring (GRing.Field.comRingType RR).
Qed.
Lemma qi_asym x y a b : qi x y a b = - qi y x b a.
Proof.
rewrite /qi Hh; case: (H y x) (a x) (b y) => [h1 h2] [a1 a2] [b1 b2]; rewrite /xmul /xconj /=.
mring (GRing.Field.comRingType RR).
Qed.
Lemma qE (a b : T -> cx) x : (xmul (xconj (a x)) (action H b x)).1 = \sum_y q x y a b.
Proof.
rewrite /action /xsum /xmul /xconj /= !big_enumT !mulr_sumr -sumrB; apply: eq_bigr => y _.
by rewrite /q /xmul /xconj /=.
Qed.
Lemma qiE (a b : T -> cx) x : (xmul (xconj (a x)) (action H b x)).2 = \sum_y qi x y a b.
Proof.
rewrite /action /xsum /xmul /xconj /= !big_enumT !mulr_sumr -big_split; apply: eq_bigr => y _.
by rewrite /qi /xmul /xconj /=.
Qed.
(* the expectation value is real *)
Lemma expectation_real psi : \sum_x (xmul (xconj (psi x)) (action H psi x)).2 = 0.
Proof.
have E : \sum_x (xmul (xconj (psi x)) (action H psi x)).2 = \sum_x \sum_y qi x y psi psi.
  by apply: eq_bigr => x _; rewrite qiE.
have Z : \sum_x \sum_y qi x y psi psi + \sum_x \sum_y qi x y psi psi = 0.
  rewrite {1}exchange_big /= -big_split /= big1 // => x _; rewrite -big_split /= big1 // => y _.
  by rewrite qi_asym addNr.
by rewrite E; apply/eqP; move/eqP: Z; rewrite -mulr2n mulrn_eq0.
Qed.
Lemma der_expectation (psi : RR -> T -> cx) t (dpsi : T -> cx) : dstate psi t dpsi ->
  der (fun s => \sum_x (xmul (xconj (psi s x)) (action H (psi s) x)).1) t
      (2%:R * \sum_x (xmul (xconj (dpsi x)) (action H (psi t) x)).1).
Proof.
move=> Hd.
apply: (@der_ext _ (fun s => \sum_x \sum_y q x y (psi s) (psi s))) => [s|].
  by apply: eq_bigr => x _; rewrite qE.
apply: (@der_eq _ _ (\sum_x \sum_y (q x y dpsi (psi t) + q x y (psi t) dpsi))).
  apply: der_sum => x _; apply: der_sum => y _.
  have [D1 D2] := Hd x; have [D3 D4] := Hd y.
  rewrite /q /xmul /xconj /=.
  apply: der_eq (der_sub (der_mul D1 (der_sub (der_scale _ D3) (der_scale _ D4)))
    (der_mul (der_opp D2) (der_add (der_scale _ D4) (der_scale _ D3)))) _.
  mring (GRing.Field.comRingType RR).
have E1 : \sum_x (xmul (xconj (dpsi x)) (action H (psi t) x)).1 = \sum_x \sum_y q x y dpsi (psi t).
  by apply: eq_bigr => x _; rewrite qE.
have E2 : \sum_x \sum_y q x y (psi t) dpsi = \sum_x \sum_y q x y dpsi (psi t).
  by rewrite exchange_big; apply: eq_bigr => x _; apply: eq_bigr => y _; exact: q_sym.
by rewrite E1 mulr_natl mulr2n -{2}E2 -big_split; apply: eq_bigr => x _; rewrite big_split.
Qed.
Lemma der_norm (psi : RR -> T -> cx) t (dpsi : T -> cx) : dstate psi t dpsi ->
  der (fun s => norm2 (psi s)) t (2%:R * \sum_x (xmul (xconj (dpsi x)) (psi t x)).1).
Proof.
move=> Hd; rewrite mulr_sumr; apply: der_sum => x _; have [D1 D2] := Hd x.
apply: der_eq (der_add (der_sq D1) (der_sq D2)) _; rewrite /xmul /xconj /=; mring (GRing.Field.comRingType RR).
Qed.
(* the derivative of the energy *)
Lemma der_rayleigh (psi : RR -> T -> cx) t (dpsi : T -> cx) : dstate psi t dpsi -> norm2 (psi t) != 0 ->
  let E := rayleigh H (psi t) in
  der (fun s => rayleigh H (psi s)) t
      (2%:R / norm2 (psi t) * \sum_x (xmul (xconj (dpsi x)) (xsub (action H (psi t) x) (xscale E (psi t x)))).1).
Proof.
move=> Hd Hn E.
apply: der_eq (der_mul (der_expectation Hd) (der_inv Hn (der_norm Hd))) _.
set A := 2%:R * \sum_x (xmul (xconj (dpsi x)) (action H (psi t) x)).1.
set B := 2%:R * \sum_x (xmul (xconj (dpsi x)) (psi t x)).1.
have -> : \sum_x (xmul (xconj (dpsi x)) (xsub (action H (psi t) x) (xscale E (psi t x)))).1
  = \sum_x (xmul (xconj (dpsi x)) (action H (psi t) x)).1 - E * \sum_x (xmul (xconj (dpsi x)) (psi t x)).1.
  rewrite mulr_sumr -sumrB; apply: eq_bigr => x _; rewrite /xmul /xsub /xscale /xconj /=.
  mring (GRing.Field.comRingType RR).
rewrite /E /rayleigh; set S := \sum_x (xmul (xconj (psi t x)) _).1.
rewrite /A /B; set a := \sum_x _; set b := \sum_x _; set n := norm2 _ in Hn *.
rewrite mulr2n expr2; move/eqP: Hn => Hn.
mfield RR => //.
Qed.

Section Mean.
Variables (psi : T -> cx) (ranks : seq (seq T * seq RR)).
Hypotheses (Hex : exact psi ranks) (Hn : norm2 psi != 0).
Local Notation loc := (loc_energy H psi).
Lemma mean_part (f : cx -> RR) (g : T -> RR) :
  (forall x, xabs2 (psi x) != 0 -> f (loc x) = g x / xabs2 (psi x)) ->
  (forall x, psi x = (0, 0) -> g x = 0) ->
  \sum_(p <- all_pairs ranks) p.2 * f (loc p.1) = (\sum_x g x) / norm2 psi.
Proof.
move=> Hf Hg; rewrite (@exact_sum psi ranks (fun x => f (loc x)) Hex) mulr_suml big_mkcond /=.
apply: eq_bigr => x _; case: ifP => [Hx|/negbFE /eqP /xabs2_eq0 [H1 H2]].
  rewrite Hf //; move/eqP: Hx => Hx; move/eqP: Hn => Hn'; set u := xabs2 _ in Hx *; set v := norm2 _ in Hn' *; set w := g _.
  mfield RR => //.
by rewrite Hg ?mul0r //; case: (psi x) H1 H2 => a b /= -> ->.
Qed.
Lemma exact_mean : en_mean loc ranks = (rayleigh H psi, 0).
Proof.
rewrite /en_mean /xsum /= (sum_pairs ranks (fun p => p.2 * (loc p.1).1)) (sum_pairs ranks (fun p => p.2 * (loc p.1).2)).
rewrite (@mean_part fst (fun x => (xmul (xconj (psi x)) (action H psi x)).1)); first last.
- by move=> x ->; rewrite /xmul /xconj /= !mul0r oppr0 mul0r subrr.
- move=> x Hx; rewrite /loc /loc_energy /xdiv /xmul /xconj /=; congr (_ / _); mring (GRing.Field.comRingType RR).
rewrite (@mean_part snd (fun x => (xmul (xconj (psi x)) (action H psi x)).2)); first last.
- by move=> x ->; rewrite /xmul /xconj /= !mul0r oppr0 mul0r addr0.
- move=> x Hx; rewrite /loc /loc_energy /xdiv /xmul /xconj /=; congr (_ / _); mring (GRing.Field.comRingType RR).
by rewrite expectation_real mul0r.
Qed.
Lemma en_mean_ext (f g : T -> cx) rs : f =1 g -> en_mean f rs = en_mean g rs.
Proof. by move=> E; rewrite /en_mean /xsum /=; congr pair; apply: eq_bigr => r _; apply: eq_bigr => p _; rewrite E. Qed.
Lemma val_gradE (lv oks : T -> cx) rs (r : seq (T * RR)) :
  (val_grad lv oks rs r).1 = \sum_(p <- r) p.2 * ((xsub (lv p.1) (en_mean lv rs)).1 * (oks p.1).1 + (xsub (lv p.1) (en_mean lv rs)).2 * (oks p.1).2).
Proof.
rewrite /val_grad /loc_vals_centered; move: (en_mean lv rs) => m; rewrite /xconj /xsum [LHS]/=; apply: eq_bigr => p _.
case: (lv p.1) => a b; case: (oks p.1) => c d; case: m => m1 m2; case: p => x w; rewrite /xmul /xscale /xsub /=.
mring (GRing.Field.comRingType RR).
Qed.
Lemma val_gradE2 (lv oks : T -> cx) rs (r : seq (T * RR)) :
  (val_grad lv oks rs r).2 = \sum_(p <- r) p.2 * ((xsub (lv p.1) (en_mean lv rs)).2 * (oks p.1).1 - (xsub (lv p.1) (en_mean lv rs)).1 * (oks p.1).2).
Proof.
rewrite /val_grad /loc_vals_centered; move: (en_mean lv rs) => m; rewrite /xconj /xsum [LHS]/= -sumrN; apply: eq_bigr => p _.
case: (lv p.1) => a b; case: (oks p.1) => c d; case: m => m1 m2; case: p => x w; rewrite /xmul /xscale /xsub /=.
mring (GRing.Field.comRingType RR).
Qed.
(* the gradient as a sum over the configurations of the support *)
Lemma grad_sum (dpsi : T -> cx) :
  grad_real loc (log_der dpsi psi) ranks
  = 2%:R / norm2 psi * \sum_(x | xabs2 (psi x) != 0)
      (xmul (xconj (dpsi x)) (xsub (action H psi x) (xscale (rayleigh H psi) (psi x)))).1.
Proof.
pose g x := (xsub (loc x) (rayleigh H psi, 0)).1 * (log_der dpsi psi x).1 + (xsub (loc x) (rayleigh H psi, 0)).2 * (log_der dpsi psi x).2.
transitivity (2%:R * \sum_(p <- all_pairs ranks) p.2 * g p.1).
  rewrite -(sum_pairs ranks (fun p => p.2 * g p.1)) mulr_sumr /grad_real; apply: eq_bigr => r _.
  by rewrite val_gradE exact_mean.
rewrite (exact_sum _ Hex) -mulrA; congr (_ * _); rewrite mulr_sumr; apply: eq_bigr => x Hx.
rewrite /g /loc_energy /log_der; move: Hx (Hn); move: (rayleigh H psi) (norm2 psi) (action H psi x) => E n.
case: (psi x) => a b [h k]; case: (dpsi x) => c d; rewrite /xdiv /xsub /xscale /xmul /xconj /xabs2 /= !expr2.
by move=> /eqP Hx /eqP Hn'; mfield RR.
Qed.
End Mean.

(* the derivative of the energy is the gradient plus the terms of the configurations of zero amplitude,
   which are never sampled *)
Theorem C111_exact (psi : RR -> T -> cx) t (dpsi : T -> cx) ranks :
  dstate psi t dpsi -> norm2 (psi t) != 0 -> exact (psi t) ranks ->
  der (fun s => rayleigh H (psi s)) t
      (grad_real (loc_energy H (psi t)) (log_der dpsi (psi t)) ranks
       + 2%:R / norm2 (psi t) * \sum_(x | xabs2 (psi t x) == 0) (xmul (xconj (dpsi x)) (action H (psi t) x)).1).
Proof.
move=> Hd Hn Hex; apply: der_eq (der_rayleigh Hd Hn) _.
rewrite (grad_sum Hex Hn) -mulrDr; congr (_ * _).
rewrite (bigID (fun x => xabs2 (psi t x) != 0)) /=; congr (_ + _).
rewrite (eq_bigl (fun x => xabs2 (psi t x) == 0)); last by move=> x; rewrite negbK.
apply: eq_bigr => x /eqP /xabs2_eq0 [H1 H2].
by rewrite /xsub /xscale /xmul /= H1 H2 !mulr0 !subr0.
Qed.
Theorem C111_derivative_partial (psi : RR -> T -> cx) t (dpsi : T -> cx) ranks :
  dstate psi t dpsi -> (forall x, psi t x <> (0, 0)) -> norm2 (psi t) != 0 -> exact (psi t) ranks ->
  der (fun s => rayleigh H (psi s)) t (grad_real (loc_energy H (psi t)) (log_der dpsi (psi t)) ranks).
Proof.
move=> Hd Hz Hn Hex; apply: der_eq (C111_exact Hd Hn Hex) _.
rewrite big_pred0 ?mulr0 ?addr0 // => x; apply/negP => /eqP /xabs2_eq0 [H1 H2].
by apply: (Hz x); case: (psi t x) H1 H2 => a b /= -> ->.
Qed.
(* a complex parameter on which the amplitudes depend holomorphically: the derivatives with respect to its
   real and imaginary part are twice the parts of the gradient *)
Theorem C111_complex_partial (psi psi' : RR -> T -> cx) t (dpsi : T -> cx) ranks :
  dstate psi t dpsi -> dstate psi' t (fun x => xmul (0, 1) (dpsi x)) -> psi t =1 psi' t ->
  (forall x, psi t x <> (0, 0)) -> norm2 (psi t) != 0 -> exact (psi t) ranks ->
  let g := grad_complex (loc_energy H (psi t)) (log_der dpsi (psi t)) ranks in
  der (fun s => rayleigh H (psi s)) t (2%:R * g.1) /\ der (fun s => rayleigh H (psi' s)) t (2%:R * g.2).
Proof.
move=> Hd Hd' E Hz Hn Hex g; split.
  apply: der_eq (C111_derivative_partial Hd Hz Hn Hex) _.
  by rewrite /grad_real /g /grad_complex /xsum /= mulr_sumr.
have En : norm2 (psi' t) = norm2 (psi t) by apply: eq_bigr => x _; rewrite E.
have Ea x : action H (psi' t) x = action H (psi t) x.
  by rewrite /action /xsum; congr pair; apply: eq_bigr => y _; rewrite E.
have El x : loc_energy H (psi' t) x = loc_energy H (psi t) x by rewrite /loc_energy Ea E.
have Hex' : exact (psi' t) ranks.
  rewrite /exact (eq_filter (a2 := fun x => xabs2 (psi t x) != 0)); last by move=> x; rewrite E.
  by rewrite (eq_map (f2 := fun x => (x, xabs2 (psi t x) / norm2 (psi t)))) // => x; rewrite E En.
have Hz' x : psi' t x <> (0, 0) by rewrite -E.
rewrite -En in Hn; apply: der_eq (C111_derivative_partial Hd' Hz' Hn Hex') _.
have Em : en_mean (loc_energy H (psi' t)) ranks = en_mean (loc_energy H (psi t)) ranks.
  exact: en_mean_ext.
rewrite /grad_real /g /grad_complex /xsum; cbn [snd]; rewrite mulr_sumr; apply: eq_bigr => r _; congr (_ * _).
rewrite val_gradE val_gradE2 Em; move: (en_mean _ _) => m; apply: eq_bigr => p _; rewrite El /log_der E.
move: (loc_energy _ _ _) (psi' t p.1) (dpsi p.1) m => [a b] [u v] [c d] [m1 m2].
rewrite /xdiv /xmul /xconj /xscale /xsub /=; mring (GRing.Field.comRingType RR).
Qed.
(* eigenstates: whatever the samples of non-zero amplitude and their weights, no variance and no gradient *)
Theorem C111_eigenstate (psi : T -> cx) (e : RR) (oks : T -> cx) ranks :
  (forall x, action H psi x = xscale e (psi x)) ->
  (forall p, p \in all_pairs ranks -> psi p.1 <> (0, 0)) -> \sum_(p <- all_pairs ranks) p.2 = 1 ->
  [/\ en_mean (loc_energy H psi) ranks = (e, 0), en_variance (loc_energy H psi) ranks = 0,
      grad_real (loc_energy H psi) oks ranks = 0 & grad_complex (loc_energy H psi) oks ranks = (0, 0)].
Proof.
move=> He Hz Hw.
have L p : p \in all_pairs ranks -> loc_energy H psi p.1 = (e, 0).
  move=> /Hz Hp; have Hx : xabs2 (psi p.1) != 0.
    by apply/negP => /eqP /xabs2_eq0 [H1 H2]; apply: Hp; case: (psi p.1) H1 H2 => a b /= -> ->.
  rewrite /loc_energy He; move: Hx; case: (psi p.1) => a b; rewrite /xdiv /xscale /xmul /xconj /xabs2 /= !expr2 => /eqP Hx.
  by congr pair; mfield RR.
move: (loc_energy H psi) L => lv L.
have Em : en_mean (lv) ranks = (e, 0).
  rewrite /en_mean /xsum /= (sum_pairs ranks (fun p => p.2 * (lv p.1).1)) (sum_pairs ranks (fun p => p.2 * (lv p.1).2)).
  congr pair; last by rewrite big_seq big1 // => p Hp; rewrite L // mulr0.
  by rewrite -[RHS]mul1r -Hw mulr_suml; apply: eq_big_seq => p Hp; rewrite L.
have Lr r p : r \in pairs_of ranks -> p \in r -> p \in all_pairs ranks.
  by move=> Hr Hp; apply/flattenP; exists r.
have V r : r \in pairs_of ranks -> val_grad (lv) oks ranks r = (0, 0).
  move=> Hr; rewrite [val_grad _ _ _ _]surjective_pairing val_gradE val_gradE2 Em; congr pair; rewrite big_seq big1 // => p Hp;
  by rewrite L ?(Lr r) // /xsub /= !subrr !mul0r ?subrr ?addr0 mulr0.
split=> //.
- rewrite /en_variance (sum_pairs ranks (fun p => p.2 * xabs2 (xsub (lv p.1) (en_mean (lv) ranks)))).
  by rewrite big_seq big1 // => p Hp; rewrite Em L // /xsub /xabs2 /= !subrr expr0n addr0 mulr0.
- by rewrite /grad_real big_seq big1 // => r Hr; rewrite V // mulr0.
- by rewrite /grad_complex /xsum; congr pair; rewrite big_seq big1 // => r Hr; rewrite V.
Qed.
End Herm.
End Energy.

(* two configurations, psi = (1, t) at t = 0, H exchanges them: only the first is sampled and the gradient is
   0, the derivative of the energy 2 t / (1 + t^2) is 2 *)
Definition ex_H (x y : bool) : cx := ((x != y)%:R, 0).
Definition ex_psi (t : RR) (x : bool) : cx := (if x then t else 1, 0).
Definition ex_dpsi (x : bool) : cx := (x%:R, 0).
Lemma ex_dstate t : dstate ex_psi t ex_dpsi.
Proof.
case; split=> /=; first exact: der_id; exact: der_const.
Qed.
Lemma enum_bool2 : enum bool_finType = [:: true; false].
Proof. by rewrite enumT unlock. Qed.
Lemma big_bool2 (f : bool -> RR) : \sum_x f x = f true + f false.
Proof. by rewrite big_bool. Qed.
Theorem C111_refuted : exists (H : bool -> bool -> cx) (psi : RR -> bool -> cx) (dpsi : bool -> cx) ranks,
  [/\ hermitian H, dstate psi 0 dpsi, norm2 (psi 0) != 0, exact (psi 0) ranks &
      grad_real (loc_energy H (psi 0)) (log_der dpsi (psi 0)) ranks = 0
      /\ der (fun s => rayleigh H (psi s)) 0 2%:R].
Proof.
have Hh : hermitian ex_H by move=> x y; rewrite /ex_H /xconj /= oppr0 eq_sym.
have Hn : norm2 (ex_psi 0) = 1 by rewrite /norm2 big_bool2 /xabs2 /= expr1n !expr0n !addr0 add0r.
exists ex_H, ex_psi, ex_dpsi, [:: ([:: false], [:: 1])].
have Hex : exact (ex_psi 0) [:: ([:: false], [:: 1])].
  rewrite /exact enum_bool2 /= Hn /all_pairs /= /xabs2 /= expr1n !expr0n !addr0 eqxx oner_eq0 /=.
  by rewrite divr1 expr1n addr0.
have Hg : grad_real (loc_energy ex_H (ex_psi 0)) (log_der ex_dpsi (ex_psi 0)) [:: ([:: false], [:: 1])] = 0.
  rewrite (grad_sum Hh Hex); last by rewrite Hn oner_neq0.
  rewrite big_mkcond big_bool2 {1}/xabs2 [ex_psi 0 true]/= /= expr0n addr0 eqxx /= add0r /xmul /= !mul0r oppr0 mul0r subrr.
  by case: ifP; rewrite mulr0.
split=> //; [exact: ex_dstate | by rewrite Hn oner_neq0 | split=> //].
apply: der_eq (C111_exact Hh (ex_dstate 0) _ Hex) _; first by rewrite Hn oner_neq0.
rewrite Hg add0r Hn divr1 big_mkcond big_bool2 /= /xabs2 /= expr1n !expr0n !addr0 eqxx oner_eq0 addr0.
by rewrite !big_enumT !big_bool2 /= ?oppr0 ?mul0r ?mulr0 ?mul1r ?subr0 ?add0r ?mulr1 ?subr0 ?mulr1.
Qed.

(* the same state away from zero: the gradient is the derivative *)
Example C111_example (t : RR) : t != 0 ->
  let p x := xabs2 (ex_psi t x) / norm2 (ex_psi t) in
  der (fun s => rayleigh ex_H (ex_psi s)) t
      (grad_real (loc_energy ex_H (ex_psi t)) (log_der ex_dpsi (ex_psi t)) [:: ([:: true], [:: p true]); ([:: false], [:: p false])]).
Proof.
move=> Ht p; have Hh : hermitian ex_H by move=> x y; rewrite /ex_H /xconj /= oppr0 eq_sym.
have N1 : xabs2 (ex_psi t true) != 0 by rewrite /xabs2 /= expr0n addr0 sqrf_eq0.
have N2 : xabs2 (ex_psi t false) != 0 by rewrite /xabs2 /= expr0n addr0 expr1n oner_neq0.
apply: (C111_derivative_partial Hh (ex_dstate t)).
- by case=> /= -[E]; [move: Ht; rewrite E eqxx | move/eqP: E; rewrite oner_eq0].
- by rewrite /norm2 big_bool2 /xabs2 /= expr1n expr0n /= !addr0 gt_eqF // ltr_paddl ?sqr_ge0 ?ltr01.
by rewrite /exact enum_bool2 /= N1 N2.
Qed.

