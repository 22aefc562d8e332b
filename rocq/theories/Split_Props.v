(* C58: splitting a data set over the ranks, and the gradient of the state-fitting driver *)
From Verif Require Import Base Split_Model.
Local Open Scope ring_scope.

Section Split.
Local Open Scope nat_scope.
Lemma part_startS len n r : part_start len n r.+1 = part_start len n r + part_size len n r.
Proof. rewrite /part_start /part_size mulSn; move: (len %/ n) (len %% n) => q m; case: (ltnP r m); lia. Qed.

Lemma part_start_end len n : 0 < n -> part_start len n n = len.
Proof.
move=> Hn; rewrite /part_start (minn_idPr _); last by rewrite ltnW // ltn_pmod.
by rewrite mulnC -divn_eq.
Qed.

Lemma flatten_parts (A : Type) (l : seq A) n k :
  flatten [seq take (part_size (size l) n r) (drop (part_start (size l) n r) l) | r <- iota 0 k] = take (part_start (size l) n k) l.
Proof.
elim: k => [|k IH]; first by rewrite /part_start mul0n min0n take0.
by rewrite -addn1 iotaD map_cat flatten_cat IH /= cats0 add0n addn1 part_startS takeD.
Qed.

(* the parts are consecutive: nothing lost, duplicated or reordered *)
Theorem C58_partition_partial (A : Type) (l : seq A) n : 0 < n ->
  flatten (array_split l n) = l /\ size (array_split l n) = n.
Proof.
move=> Hn; split; last by rewrite size_map size_iota.
by rewrite /array_split flatten_parts part_start_end // take_size.
Qed.

(* their sizes differ by at most one *)
Lemma part_start_le len n r : 0 < n -> r <= n -> part_start len n r <= len.
Proof.
move=> Hn Hr; rewrite -{2}(part_start_end len Hn) /part_start.
by rewrite leq_add ?leq_mul2r ?Hr ?orbT // leq_min geq_minr (leq_trans (geq_minl _ _) Hr).
Qed.
Theorem C58_balanced_partial (A : Type) (l : seq A) n r : r < n ->
  size (nth [::] (array_split l n) r) = size l %/ n + (r < size l %% n).
Proof.
move=> Hr; have Hn : 0 < n by apply: leq_trans Hr.
rewrite (nth_map 0) ?size_iota // nth_iota // add0n size_takel // size_drop.
have := part_start_le (size l) Hn Hr; rewrite part_startS; lia.
Qed.

(* configurations stay paired with their amplitudes *)
Theorem C58_pairs_partial (A B : Type) (xs : seq A) (ys : seq B) n : 0 < n -> size xs = size ys ->
  flatten [seq zip s.1 s.2 | s <- fitting_shards xs ys n] = zip xs ys.
Proof.
move=> Hn E; have [H1 _] := C58_partition_partial (zip xs ys) Hn.
rewrite -[RHS]H1 /fitting_shards /array_split size_zip -E minnn; congr flatten.
elim: (iota 0 n) => //= r is' ->; congr cons.
move: (part_start _ _ _) (part_size _ _ _) => i k.
elim: i xs ys E {H1} => [|i IH] [|x xs] [|y ys] //= [E]; last exact: IH.
have -> : (x, y) :: zip xs ys = zip (x :: xs) (y :: ys) by [].
by elim: k (x :: xs) (y :: ys) => [|k IH] [|a s] [|b t] //=; rewrite IH.
Qed.

Example C58_example : array_split [:: 1; 2; 3; 4; 5; 6; 7] 3 = [:: [:: 1; 2; 3]; [:: 4; 5]; [:: 6; 7]].
Proof. by []. Qed.
End Split.

Section Grad.
Variables (F : fieldType) (D : Type).

(* mini-batches of equal size: the mean over the ranks is the mean over the union *)
Lemma loss_union (f : D -> F) (batches : seq (seq D)) B : all (fun b => size b == B) batches ->
  (\sum_(b <- batches) mean f b) / (size batches)%:R = mean f (flatten batches).
Proof.
move=> Hall; rewrite /mean.
have -> : size (flatten batches) = (size batches * B)%N.
  elim: batches Hall => //= b bs IH /andP[/eqP Hb Hall]; by rewrite size_cat IH // Hb mulSn.
have -> : \sum_(b <- batches) mean f b = (\sum_(d <- flatten batches) f d) / B%:R.
  elim: batches Hall => [_|b bs IH /= /andP[/eqP Hb Hall]]; first by rewrite !big_nil mul0r.
  by rewrite big_cons IH // big_cat mulrDl /mean Hb.
by rewrite natrM invfM mulrA mulrAC.
Qed.

(* the reported loss is the loss of the union of the mini-batches; the gradient is n_nodes times
   the gradient of that loss *)
Theorem C58_gradient_partial (err derr : D -> F) (batches : seq (seq D)) B :
  all (fun b => size b == B) batches -> (size batches)%:R != 0 :> F ->
  loss err batches = mean err (flatten batches) /\
  loss_grad derr batches = (size batches)%:R * mean derr (flatten batches).
Proof.
move=> Hall Hn; split; first exact: (loss_union err Hall).
by rewrite -(loss_union derr Hall) mulrC divfK.
Qed.

(* so with two ranks the gradient is not the gradient of the loss, unless that vanishes *)
Theorem C58_gradient_wrong (derr : D -> F) (b1 b2 : seq D) : size b1 = size b2 -> 2%:R != 0 :> F ->
  mean derr (b1 ++ b2) != 0 -> loss_grad derr [:: b1; b2] != mean derr (flatten [:: b1; b2]).
Proof.
move=> E H2 Hm.
have [_ ->] := C58_gradient_partial derr derr (batches := [:: b1; b2]) (B := size b1) (introT and3P (And3 (eqxx _) (introT eqP (esym E)) isT)) H2.
rewrite /= cats0 mulr_natl mulr2n -subr_eq0 addrK; exact: Hm.
Qed.
End Grad.

(* C58 is false for the gradient: two ranks, one data item each *)
Theorem C58_gradient_refuted : exists (derr : rat -> rat) (batches : seq (seq rat)),
  all (fun b => size b == 1%N) batches /\ loss_grad derr batches <> mean derr (flatten batches).
Proof.
exists (fun y => 2%:R * (3%:R - y)), [:: [:: 1]; [:: 2%:R]]; split=> //.
by apply/eqP; apply: C58_gradient_wrong => //; rewrite /mean unlock; vm_compute.
Qed.

(* one parameter, err = (a - y)^2 with amplitude a = 3, derivative 2 (a - y) *)
Example C58_gradient_example :
  let derr := fun y : rat => 2%:R * (3%:R - y) in
  loss_grad derr [:: [:: 1]; [:: 2%:R]] = 6%:R /\ mean derr [:: 1; 2%:R] = 3%:R.
Proof. by rewrite /loss_grad /mean unlock; split; vm_compute. Qed.
