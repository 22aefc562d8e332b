(* C36: conversion of occupancies to electron positions. *)
From Verif Require Import Base Fock_Spec Occ_Model Occ_Spec AbInitioOtf_Model Elec_Model.

Lemma reshape_flatten (T : seq (seq nat)) n b : (forall r, r \in T -> size r = n) -> b < size T ->
  take n (drop (b * n) (flatten T)) = nth [::] T b.
Proof.
elim: T b => [//|r T IH] [|b] H Hb /=.
  by rewrite mul0n drop0 take_size_cat // H // mem_head.
rewrite mulSn addnC -drop_drop drop_size_cat; last by rewrite H // mem_head.
by apply: IH => // q Hq; apply: H; rewrite in_cons Hq orbT.
Qed.
Lemma size_flatten_const (T : seq (seq nat)) n : (forall r, r \in T -> size r = n) -> size (flatten T) = size T * n.
Proof.
elim: T => [//|r T IH] H /=; rewrite size_cat H ?mem_head // IH // => q Hq.
by apply: H; rewrite in_cons Hq orbT.
Qed.

Lemma size_iota_filter (mask : nat -> bool) (x : seq nat) :
  size [seq k <- iota 0 (size x) | mask (nth 0 x k)] = count mask x.
Proof. by rewrite size_filter -[in RHS](mkseq_nth 0 x) count_map; apply: eq_count. Qed.
Lemma nonzero_row (mask : nat -> bool) xs n b : (forall x, x \in xs -> count mask x = n) -> b < size xs ->
  reshape_row n b (nonzero_cols (size xs * n) mask xs)
  = [seq k <- iota 0 (size (nth [::] xs b)) | mask (nth 0 (nth [::] xs b) k)].
Proof.
move=> H Hb; have Hrow x : x \in xs -> size [seq k <- iota 0 (size x) | mask (nth 0 x k)] = n.
  by move=> Hx; rewrite -(H x Hx) size_iota_filter.
have HT r : r \in [seq [seq k <- iota 0 (size x) | mask (nth 0 x k)] | x <- xs] -> size r = n.
  by case/mapP => x Hx ->; apply: Hrow.
rewrite /reshape_row /nonzero_cols take_size_cat; last by rewrite (size_flatten_const HT) size_map.
by rewrite reshape_flatten ?size_map // (nth_map [::]).
Qed.

Section C36.
Variables (xs : seq (seq nat)) (nu nd b : nat).
Hypothesis Hsec : forall x, x \in xs -> valid x /\ n_spin Up x = nu /\ n_spin Dn x = nd.
Hypothesis Hb : b < size xs.
Let x := nth [::] xs b.
Let row := nth [::] (occupancies_to_electrons xs (nu, nd)) b.

Lemma row_lemma : row = [seq k <- iota 0 (size x) | has_spin Up (nth 0 x k)]
                     ++ [seq k <- iota 0 (size x) | has_spin Dn (nth 0 x k)].
Proof.
have Hx : x \in xs by apply: mem_nth.
rewrite /row /occupancies_to_electrons (nth_map 0) ?size_iota // nth_iota // add0n /=.
have Hh o s : o < 4 -> has o (spin_int s) = has_spin s o by case: s; case: o => [|[|[|[|]]]].
have Hc s y : y \in xs -> count (fun o => has o (spin_int s)) y = n_spin s y.
  by move=> Hy; have [Hv _] := Hsec Hy; apply: eq_in_count => o /(allP Hv); apply: Hh.
have Hn s : [seq k <- iota 0 (size x) | has (nth 0 x k) (spin_int s)] = [seq k <- iota 0 (size x) | has_spin s (nth 0 x k)].
  have [Hv _] := Hsec Hx; apply: eq_in_filter => k; rewrite mem_iota /= => Hk.
  by apply: Hh; apply: (allP Hv); apply: mem_nth.
rewrite (@nonzero_row (fun o => has o (spin_int Up)) xs nu b) //; last by move=> y Hy; rewrite Hc //; case: (Hsec Hy) => _ [].
rewrite (@nonzero_row (fun o => has o (spin_int Dn)) xs nd b) //; last by move=> y Hy; rewrite Hc //; case: (Hsec Hy) => _ [].
by rewrite !Hn.
Qed.

(* row b lists the up positions, then the down positions of configuration b only, each in
   strictly increasing order, and the configuration can be read off *)
Theorem C36_occupancies_to_electrons :
  [/\ size row = nu + nd,
      sorted ltn (take nu row) /\ (forall k, (k \in take nu row) = (k < size x) && has_spin Up (nth 0 x k)),
      sorted ltn (drop nu row) /\ (forall k, (k \in drop nu row) = (k < size x) && has_spin Dn (nth 0 x k)) &
      forall k, k < size x -> nth 0 x k = (k \in take nu row) + 2 * (k \in drop nu row)].
Proof.
have Hx : x \in xs by apply: mem_nth.
have [Hv [Hnu Hnd]] := Hsec Hx.
have Hsz s : size [seq k <- iota 0 (size x) | has_spin s (nth 0 x k)] = n_spin s x.
  exact: size_iota_filter.
have Ht : take nu row = [seq k <- iota 0 (size x) | has_spin Up (nth 0 x k)].
  by rewrite row_lemma take_size_cat // Hsz.
have Hd : drop nu row = [seq k <- iota 0 (size x) | has_spin Dn (nth 0 x k)].
  by rewrite row_lemma drop_size_cat // Hsz.
have Hs s : sorted ltn [seq k <- iota 0 (size x) | has_spin s (nth 0 x k)].
  by apply: sorted_filter; [exact: ltn_trans|exact: iota_ltn_sorted].
have Hm s k : (k \in [seq k <- iota 0 (size x) | has_spin s (nth 0 x k)]) = (k < size x) && has_spin s (nth 0 x k).
  by rewrite mem_filter mem_iota andbC.
split.
- by rewrite row_lemma size_cat !Hsz Hnu Hnd.
- by rewrite Ht; split.
- by rewrite Hd; split.
- move=> k Hk; rewrite Ht Hd !Hm Hk /=.
  by move: (allP Hv _ (mem_nth 0 Hk)); case: (nth 0 x k) => [|[|[|[|]]]].
Qed.
End C36.

Example C36_example : occupancies_to_electrons [:: [:: 3; 0; 1; 2]; [:: 1; 2; 2; 1]] (2, 2) = [:: [:: 0; 2; 0; 3]; [:: 0; 3; 1; 2]].
Proof. by []. Qed.
Print Assumptions C36_occupancies_to_electrons.
