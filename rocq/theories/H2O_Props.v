(* C56: determinant strings of the H2O data set. *)
From Verif Require Import Base Fock_Spec Occ_Spec H2O_Model.

Lemma digits_nth f a k : a <= f -> nth false (digits_lsb f a) k = odd (a %/ 2 ^ k).
Proof.
elim: f a k => [|f IH] a k; first by rewrite leqn0 => /eqP->; rewrite nth_nil div0n.
move=> Ha /=; case: eqP => [->|/eqP H0]; first by rewrite nth_nil div0n.
case: k => [|k] /=; first by rewrite expn0 divn1.
by rewrite IH; [rewrite expnS divnMA divn2 | lia].
Qed.

Lemma digits_size f a n : a <= f -> a < 2 ^ n -> size (digits_lsb f a) <= n.
Proof.
elim: f a n => [//|f IH] a n Ha Hn /=; case: eqP => // H0.
case: n Hn => [|n] Hn; first by move: Hn; rewrite expn0; lia.
by rewrite ltnS IH //; [lia | rewrite expnS in Hn; lia].
Qed.

Lemma det_size a n : 0 < n -> a < 2 ^ n -> size (det_string a n) = n.
Proof.
move=> Hn Ha; rewrite size_rev size_cat size_nseq size_map /py_bin.
case: eqP => [_|_] /=; first by lia.
by rewrite size_rev; have := @digits_size a a n (leqnn a) Ha; lia.
Qed.

Lemma nth_rev_zeros m i : nth 0 (rev (nseq m 0)) i = 0.
Proof.
case: (ltnP i m) => Hi; last by rewrite nth_default // size_rev size_nseq.
by rewrite nth_rev ?size_nseq // nth_nseq if_same.
Qed.

Lemma det_nth a n k : 0 < n -> a < 2 ^ n -> nth 0 (det_string a n) k = odd (a %/ 2 ^ k).
Proof.
move=> Hn Ha; rewrite /det_string rev_cat -map_rev.
have Hd : nth 0 (map nat_of_bool (rev (py_bin a)) ++ rev (nseq (n - size (py_bin a)) 0)) k
   = nat_of_bool (nth false (rev (py_bin a)) k).
  rewrite nth_cat size_map; case: ltnP => Hk; first by rewrite (nth_map false).
  by rewrite [in RHS]nth_default // nth_rev_zeros.
rewrite Hd; congr nat_of_bool; rewrite /py_bin; case: eqP => [->|_]; last by rewrite revK digits_nth.
by rewrite div0n; case: k {Hd} => [|k] //; rewrite nth_default.
Qed.

(* C56: for every n >= 1 and strings below 2^n, to_config succeeds, has n sites, and site k
   carries an up (down) electron exactly when bit k of alpha (beta) is set. *)
Theorem C56_to_config n alpha beta : 0 < n -> alpha < 2 ^ n -> beta < 2 ^ n ->
  exists x, [/\ to_config alpha beta n = Some x, size x = n, valid x &
    forall k, k < n -> has_spin Up (nth 0 x k) = odd (alpha %/ 2 ^ k)
                    /\ has_spin Dn (nth 0 x k) = odd (beta %/ 2 ^ k)].
Proof.
move=> Hn Ha Hb; rewrite /to_config !det_size // eqxx.
set x := [seq _ | _ <- _]; have Hs : size x = n by rewrite size_map size_zip !det_size // minnn.
have Hx k : k < n -> nth 0 x k = odd (alpha %/ 2 ^ k) + 2 * odd (beta %/ 2 ^ k).
  move=> Hk; rewrite (nth_map (0, 0)) ?size_zip ?det_size ?minnn //.
  by rewrite nth_zip ?det_size //= !det_nth.
exists x; split=> //.
  by apply/(all_nthP 0) => k; rewrite Hs => Hk; rewrite Hx //; do 2 case: (odd _).
by move=> k Hk; rewrite Hx //; do 2 case: (odd _).
Qed.

Example C56_example : to_config 5 0 4 = Some [:: 1; 0; 1; 0] /\ to_config 3 10 4 = Some [:: 1; 3; 0; 2].
Proof. by []. Qed.

Print Assumptions C56_to_config.
