(* C93: initial parameters *)
From Coq Require Import Reals.
From Verif Require Import Base Numq Rstruct Init_Model.
From mathcomp Require Import ssrnum order.
Import Num.Theory Order.TTheory.
Local Open Scope ring_scope.
Local Notation RR := R_realFieldType.

Definition modulus2 (z : RR * RR) : RR := z.1 ^+ 2 + z.2 ^+ 2.

Lemma expi_modulus x : modulus2 (expi x) = 1.
Proof. by rewrite /modulus2 addrC !expr2; exact: (sin2_cos2 x). Qed.
Lemma expi0 : expi 0 = (1, 0).
Proof. by rewrite /expi; congr pair; [apply: cos_0|apply: sin_0]. Qed.
(* real parameters: 1 plus sigma times a standard normal number *)
Theorem C93_real sigma z : normal sigma Float Float z = (1 + sigma * z.1, 0).
Proof. by rewrite /normal /= mul0r mulrC. Qed.
(* complex parameters, if the dtype is given to the constructor: unit modulus and phase sigma times a normal number *)
Theorem C93_complex_partial sigma z : modulus2 (normal sigma Complex Complex z) = 1 /\
  normal sigma Complex Complex z = (cos (sigma * z.1), sin (sigma * z.1)).
Proof.
have -> : normal sigma Complex Complex z = expi (sigma * z.1) by rewrite /normal /astype mulrC.
split=> //; exact: expi_modulus.
Qed.
(* without it (the default), complex parameters do not have unit modulus ... *)
Theorem C93_complex_default z :
  normal_default Complex z = (1 + z.1 / 10%:R, z.2 / 10%:R).
Proof. by rewrite /normal_default /normal /= !div1r. Qed.
Theorem C93_complex_refuted : exists z, modulus2 (normal_default Complex z) <> 1.
Proof.
exists (1, 0); rewrite C93_complex_default /modulus2 /= mul0r expr0n /= addr0; apply/eqP.
suff : (1 + 1 / 10%:R) ^+ 2 - 1 != 0 :> RR by rewrite subr_eq0.
by numq RR.
Qed.
(* products of unit parameters: every term of a qGPS amplitude with initial complex parameters has unit modulus *)
Definition cmul (a b : RR * RR) : RR * RR := (a.1 * b.1 - a.2 * b.2, a.1 * b.2 + a.2 * b.1).
Theorem C93_term sigma (zs : seq (RR * RR)) :
  let term := foldr cmul (1, 0) [seq normal sigma Complex Complex z | z <- zs] in
  modulus2 term = 1 /\ term = expi (\sum_(z <- zs) sigma * z.1).
Proof.
move=> term; suff E : term = expi (\sum_(z <- zs) sigma * z.1).
  by rewrite E; split=> //; exact: expi_modulus.
rewrite /term; elim: zs {term} => [|z zs /= ->]; first by rewrite big_nil expi0.
rewrite big_cons [z.1 * sigma]mulrC /cmul /expi.
set a := sigma * z.1; set b := \sum_(_ <- _) _; congr pair; first by apply/esym; exact: cos_plus.
by rewrite [LHS]addrC; apply/esym; exact: sin_plus.
Qed.
Example C93_ex : normal 0 Complex Complex (3%:R, 1) = (1, 0) /\ normal 0 Float Float (3%:R, 1) = (1, 0).
Proof. by split; [exact: etrans (proj2 (C93_complex_partial _ _)) (etrans (congr1 expi (mul0r _)) expi0)|rewrite C93_real mul0r addr0]. Qed.

(* orthogonal: a matrix with orthogonal columns (rows, if there are more columns than rows) for each index,
   each from a key of its own *)
Theorem C93_orthogonal (K : eqType) m n (init : K -> 'M[RR]_(m, n)) (scale : RR) s0 (keys : seq K) :
  (forall k, if (n <= m)%N then (init k)^T *m init k = (scale ^+ 2)%:M else init k *m (init k)^T = (scale ^+ 2)%:M) ->
  size keys = s0 -> exists W, [/\ orthogonal init [:: s0; m; n] keys = Some W, size W = s0,
    forall i, (i < s0)%N -> if (n <= m)%N then (nth 0 W i)^T *m nth 0 W i = (scale ^+ 2)%:M
                            else nth 0 W i *m (nth 0 W i)^T = (scale ^+ 2)%:M &
    forall i k, (i < s0)%N -> nth 0 W i = init (nth k keys i)].
Proof.
move=> Hi Hk.
suff [S N] : let W := foldl (fun W iK => set_nth 0 W iK.1 (init iK.2)) (nseq s0 0) (zip (iota 0 s0) keys) in
  size W = s0 /\ forall i k, (i < s0)%N -> nth 0 W i = init (nth k keys i).
  eexists; split; [reflexivity|exact: S| |exact: N] => i Hs.
  have [k0 _] : exists k0, k0 \in keys by case: keys Hk {S N} => [|k0 ks] Hk; [move: Hs; rewrite -Hk|exists k0; exact: mem_head].
  rewrite (N i k0 Hs); exact: Hi.
have G m0 s (W : seq 'M[RR]_(m, n)) (ks : seq K) : size ks = s -> size W = (m0 + s)%N ->
  let W' := foldl (fun W iK => set_nth 0 W iK.1 (init iK.2)) W (zip (iota m0 s) ks) in
  size W' = (m0 + s)%N /\ forall i k, nth 0 W' i = if (m0 <= i < m0 + s)%N then init (nth k ks (i - m0)) else nth 0 W i.
  elim: s m0 W ks => [|s IH] m0 W [|k0 ks] //= Hs HW.
    by split=> // i k; case: ifP => //; lia.
  have [] := IH m0.+1 (set_nth 0 W m0 (init k0)) ks; first by case: Hs.
    by rewrite size_set_nth HW; lia.
  move=> S N; split; first by rewrite S; lia.
  move=> i k; rewrite (N i k); case: ifP => [H|H].
    have -> : (m0 <= i < m0 + s.+1)%N by lia.
    by have -> : (i - m0 = (i - m0.+1).+1)%N by lia.
  rewrite nth_set_nth /=; case: eqP => [->|Hn]; first by rewrite leqnn subnn /=; have -> : (m0 < m0 + s.+1)%N by lia.
  by have -> : (m0 <= i < m0 + s.+1)%N = false by lia.
have [||S N] := G 0%N s0 (nseq s0 0) keys => //; first by rewrite size_nseq.
by split=> // i k Hs; rewrite (N i k) /= Hs subn0.
Qed.
(* any other number of axes is rejected *)
Theorem C93_shape (K : Type) m n (init : K -> 'M[RR]_(m, n)) shape keys :
  orthogonal init shape keys = None <-> size shape <> 3%N.
Proof. by case: shape => [|? [|? [|? [|? ?]]]]; split. Qed.
Print Assumptions C93_shape.
