(* The Pfaffian, defined by expansion along the first row, and its algebra: linear in every
   entry of a list of vectors, alternating.  Independent of the algorithm in the code. *)
From Verif Require Import Base.
Local Open Scope ring_scope.

Section Expansion.
Variables (F : comRingType) (T : Type).
Variable om : T -> T -> F.

(* sum_j (-1)^j om(x, r_j) g(r without r_j) *)
Fixpoint ex (g : seq T -> F) (x : T) (r : seq T) : F :=
  if r is z :: r' then om x z * g r' - ex (fun s => g (z :: s)) x r' else 0.

(* Pfaffian of the 2n x 2n matrix om(l_i, l_j) *)
Fixpoint pf (n : nat) (l : seq T) : F :=
  match n, l with
  | 0, _ => 1
  | n'.+1, x :: r => ex (pf n') x r
  | _.+1, [::] => 0
  end.

(* the textbook form of the expansion *)
Lemma ex_sum g x r z0 :
  ex g x r = \sum_(j < size r) (-1) ^+ j * om x (nth z0 r j) * g (take j r ++ drop j.+1 r).
Proof.
elim: r g => [|z r IH] g /=; first by rewrite big_ord0.
rewrite big_ord_recl /= expr0 mul1r drop0; congr (_ + _).
rewrite IH -sumrN; apply: eq_bigr => j _.
by rewrite /= /bump leq0n add1n exprS -!mulrA mulN1r.
Qed.

Lemma eq_ex g h x r : (forall s, (size s).+1 = size r -> g s = h s) -> ex g x r = ex h x r.
Proof.
elim: r g h => [|z r IH] g h E //=.
rewrite E //; congr (_ - _); apply: IH => s Es; by rewrite E //= Es.
Qed.

Lemma exD g h x r : ex (fun s => g s + h s) x r = ex g x r + ex h x r.
Proof.
elim: r g h => [|z r IH] g h /=; first by rewrite addr0.
by rewrite IH mulrDr opprD addrACA.
Qed.
Lemma exZ c g x r : ex (fun s => c * g s) x r = c * ex g x r.
Proof.
elim: r g => [|z r IH] g /=; first by rewrite mulr0.
by rewrite IH mulrBr !mulrA [c * om x z]mulrC.
Qed.
Lemma exN g x r : ex (fun s => - g s) x r = - ex g x r.
Proof. by rewrite -mulN1r -exZ; apply: eq_ex => s _; rewrite mulN1r. Qed.

Lemma ex_double g x y z r :
  ex (fun s => ex g y s) x (z :: r) =
  om x z * ex g y r - om y z * ex g x r + ex (fun s => ex (fun u => g (z :: u)) y s) x r.
Proof.
rewrite /= exD exN opprD opprK addrA; congr (_ - _ + _).
by rewrite -exZ.
Qed.

Lemma ex_double_anti g x y r : ex (fun s => ex g y s) x r = - ex (fun s => ex g x s) y r.
Proof.
elim: r g => [|z r IH] g; first by rewrite /= oppr0.
by rewrite !ex_double IH !opprD !opprK [- _ + _]addrC.
Qed.
Lemma ex_double_same g x r : ex (fun s => ex g x s) x r = 0.
Proof.
elim: r g => [|z r IH] g //.
by rewrite ex_double IH addr0 subrr.
Qed.

Hypothesis om_skew : forall x y, om x y = - om y x.
Hypothesis om_alt : forall x, om x x = 0.

Lemma ex_swap g z p x y q :
  (forall p' x' y' q', (size (p' ++ x' :: y' :: q')).+1 = size (p ++ x :: y :: q) ->
    g (p' ++ x' :: y' :: q') = - g (p' ++ y' :: x' :: q')) ->
  ex g z (p ++ x :: y :: q) = - ex g z (p ++ y :: x :: q).
Proof.
elim: p g => [|a p IH] g Hg /=.
  have -> : ex (fun s => g [:: x, y & s]) z q = - ex (fun s => g [:: y, x & s]) z q.
    rewrite -exN; apply: eq_ex => s Es; rewrite (Hg [::] x y s) //=; by rewrite Es.
  by rewrite !opprD !opprK addrCA.
rewrite Hg // (IH (fun s => g (a :: s))); last first.
  by move=> p' x' y' q' E; apply: (Hg (a :: p')); rewrite /= E.
by rewrite mulrN opprD.
Qed.

Lemma pf_swap n p x y q : size (p ++ x :: y :: q) = n.*2 ->
  pf n (p ++ x :: y :: q) = - pf n (p ++ y :: x :: q).
Proof.
elim: n p x y q => [|n IH] p x y q.
  by rewrite size_cat /= !addnS.
case: p => [|z p] /=.
  case: n IH => [|n] IH.
    by case: q => //= _; rewrite !mulr1 !subr0 om_skew.
  move=> _; rewrite om_skew mulNr opprD opprK; congr (_ + _).
  by rewrite (ex_double_anti (pf n)) opprK.
move=> [E]; apply: ex_swap => p' x' y' q' E'; apply: IH.
apply: succn_inj; by rewrite E' E.
Qed.

Lemma pf_front n p x q : size (p ++ x :: q) = n.*2 ->
  pf n (p ++ x :: q) = (-1) ^+ size p * pf n (x :: p ++ q).
Proof.
elim/last_ind: p q => [|p a IH] q; first by rewrite expr0 mul1r.
rewrite cat_rcons => E; rewrite pf_swap // IH; last by move: E; rewrite !size_cat.
by rewrite cat_rcons size_rcons exprS mulN1r mulNr.
Qed.

Lemma pf_dup_front n x r : size r = n.*2 -> pf n.+1 (x :: x :: r) = 0.
Proof.
move=> E; rewrite /= om_alt mul0r.
case: n E => [|n] E; first by case: r E => //=; rewrite subr0.
by rewrite (ex_double_same (pf n)) subr0.
Qed.

(* two equal entries anywhere *)
Lemma pf_dup n p x q r : size (p ++ x :: q ++ x :: r) = n.*2 -> pf n (p ++ x :: q ++ x :: r) = 0.
Proof.
move=> E; rewrite pf_front //.
have -> : x :: p ++ q ++ x :: r = (x :: p ++ q) ++ x :: r by rewrite /= catA.
rewrite pf_front; last by rewrite -E !(size_cat, size_rcons, cat_cons) /= !size_cat /=; lia.
rewrite cat_cons; case: n E => [|n] E.
  by move: E; rewrite !size_cat /= !addnS.
rewrite pf_dup_front ?mulr0 //.
move: E; rewrite !size_cat /= !size_cat /=; lia.
Qed.
End Expansion.

(* the value depends on the matrix only *)
Lemma ex_map (F : comRingType) (T U : Type) (om : U -> U -> F) (f : T -> U) g x r :
  ex om g (f x) (map f r) = ex (fun a b => om (f a) (f b)) (fun s => g (map f s)) x r.
Proof. elim: r g => [|z r IH] g //=; by rewrite IH. Qed.

Lemma pf_map (F : comRingType) (T U : Type) (om : U -> U -> F) (f : T -> U) n l :
  pf om n (map f l) = pf (fun a b => om (f a) (f b)) n l.
Proof.
elim: n l => [|n IH] [|x r] //=; rewrite ex_map; apply: eq_ex => s _; exact: IH.
Qed.

Lemma eq_ex_om (F : comRingType) (T : eqType) (om om' : T -> T -> F) g g' x (r : seq T) :
  (forall b, b \in r -> om x b = om' x b) ->
  (forall s, {subset s <= r} -> (size s).+1 = size r -> g s = g' s) ->
  ex om g x r = ex om' g' x r.
Proof.
elim: r g g' => [|z r IH] g g' Eo Eg //=.
rewrite Eo ?mem_head // Eg //; last by move=> y Hy; rewrite inE Hy orbT.
congr (_ - _); apply: IH => [b Hb|s Hs Es]; first by rewrite Eo // inE Hb orbT.
apply: Eg => [y|]; last by rewrite /= Es.
by rewrite !inE => /orP[->//|/Hs ->]; rewrite orbT.
Qed.

Lemma eq_pf (F : comRingType) (T : eqType) (om om' : T -> T -> F) n (l : seq T) :
  (forall a b, a \in l -> b \in l -> om a b = om' a b) -> pf om n l = pf om' n l.
Proof.
elim: n l => [|n IH] [|x r] //= E; apply: eq_ex_om => [b Hb|s Hs _].
  by rewrite E ?mem_head // inE Hb orbT.
by apply: IH => a b Ha Hb; apply: E; rewrite inE Hs ?orbT.
Qed.

Lemma pf_rmorph (F G : comRingType) (h : {rmorphism F -> G}) (T : Type) (om : T -> T -> F) n (l : seq T) :
  h (pf om n l) = pf (fun a b => h (om a b)) n l.
Proof.
elim: n l => [|n IH] [|x r] /=; rewrite ?rmorph1 ?rmorph0 //.
have E g : h (ex om g x r) = ex (fun a b => h (om a b)) (fun s => h (g s)) x r.
  elim: r g => [|z r IHr] g /=; first by rewrite rmorph0.
  by rewrite rmorphB rmorphM IHr.
rewrite E; apply: eq_ex => s _; exact: IH.
Qed.

(* lists of vectors with a bilinear form *)
Section Linear.
Variables (F : comRingType) (V : lmodType F).
Variable om : V -> V -> F.
Hypothesis om_skew : forall x y, om x y = - om y x.
Hypothesis om_alt : forall x, om x x = 0.
Hypothesis om_lin : forall a u v w, om (a *: u + v) w = a * om u w + om v w.
Local Notation pf := (pf om).
Local Notation ex := (ex om).

Lemma pf_lin_front n a u v r : pf n.+1 (a *: u + v :: r) = a * pf n.+1 (u :: r) + pf n.+1 (v :: r).
Proof.
rewrite /=; move: (pf n) => g; elim: r g => [|z r IH] g /=; first by rewrite mulr0 addr0.
by rewrite IH om_lin mulrDl mulrBr opprD addrACA mulrA.
Qed.

Lemma pf_lin n p a u v q : size (p ++ u :: q) = n.*2 ->
  pf n (p ++ (a *: u + v) :: q) = a * pf n (p ++ u :: q) + pf n (p ++ v :: q).
Proof.
move=> E; have E' w : size (p ++ w :: q) = n.*2 by move: E; rewrite !size_cat.
rewrite !pf_front //; case: n E E' => [|n] E E'; first by move: E; rewrite size_cat /= addnS.
by rewrite pf_lin_front mulrDr mulrCA.
Qed.

(* adding a multiple of the second vector to the later ones *)
Lemma pf_eliminate n x y (t : V -> F) r : size r = n.*2 ->
  pf n.+1 (x :: y :: [seq z - t z *: y | z <- r]) = pf n.+1 (x :: y :: r).
Proof.
move=> E.
suff: forall p q, size (p ++ q) = n.*2 ->
  pf n.+1 ([:: x, y & p] ++ [seq z - t z *: y | z <- q]) = pf n.+1 ([:: x, y & p] ++ q).
  by move=> H; apply: (H [::] r).
move=> p q; elim: q p => [|z q IH] p Epq //.
rewrite [map _ _]/= addrC -scaleNr pf_lin; last by rewrite /= size_cat /= size_map doubleS -Epq size_cat.
have -> : [:: x, y & p] ++ y :: [seq z - t z *: y | z <- q] = [:: x] ++ y :: p ++ y :: [seq z - t z *: y | z <- q] by [].
rewrite pf_dup //; last by rewrite /= size_cat /= size_map doubleS -Epq size_cat.
rewrite mulr0 add0r.
by have := IH (rcons p z); rewrite !cat_cons !cat_rcons; apply.
Qed.
End Linear.
