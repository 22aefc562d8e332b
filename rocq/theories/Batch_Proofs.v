(* Loop over a batch of samples writing a fixed number of entries per sample and one section
   boundary per sample. *)
From Verif Require Import Base Occ_Model Occ_Spec Buffer_Proofs.

Section Batch.
Variables (X E : Type) (f : outbuf E * seq nat -> nat * X -> outbuf E * seq nat).
Variables (n : nat) (ok : X -> bool) (list : X -> seq E).
Hypothesis size_list : forall x, ok x -> size (list x) = n.
Hypothesis step : forall x b w m secs, ok x -> b < size secs ->
  f (written w (n + m), secs) (b, x) = (written (w ++ list x) m, set_nth 0 secs b (size (w ++ list x))).

Lemma batch_loop b xs w m secs : all ok xs -> b + size xs <= size secs ->
  foldl f (written w (size xs * n + m), secs) (zip (iota b (size xs)) xs)
  = (written (w ++ flatten (map list xs)) m,
     [seq if (b <= k < b + size xs) then size w + (k.+1 - b) * n else nth 0 secs k | k <- iota 0 (size secs)]).
Proof.
elim: xs b w secs => [|x xs IH] b w secs Hok Hb /=.
  rewrite cats0; congr pair.
  apply: (@eq_from_nth _ 0%N) => [|k Hk]; first by rewrite size_map size_iota.
  rewrite (nth_map 0%N) ?size_iota // nth_iota // add0n addn0.
  by case: (ltnP k b) => H; rewrite ?andbF //; case: leqP => //; lia.
move: Hok => /= /andP [Hx Hok].
rewrite mulSn -addnA step //; last by move: Hb => /=; lia.
set secs' := set_nth _ _ _ _.
have Hsz : size secs' = size secs by rewrite /secs' size_set_nth; move: Hb => /=; lia.
rewrite IH //; last by rewrite Hsz; move: Hb => /=; lia.
rewrite -catA Hsz; congr pair; apply/eq_in_map => k; rewrite mem_iota add0n /= => Hk.
rewrite /secs' nth_set_nth /= !size_cat !size_list //.
case: (ltngtP k b) => H; rewrite ?andbF //=.
- rewrite addSnnS; case: ifP => // _.
  by rewrite subSS (subSn (ltnW H)) mulSn addnA.
- rewrite H; have -> : b < b + (size xs).+1 by lia.
  by rewrite subSnn mul1n.
Qed.

Lemma batch_all xs secs : all ok xs -> size secs = size xs ->
  foldl f (ob_alloc E (size xs * n), secs) (zip (iota 0 (size xs)) xs)
  = (written (flatten (map list xs)) 0, [seq k.+1 * n | k <- iota 0 (size xs)]).
Proof.
move=> Hok Hs; rewrite ob_alloc_written -[size xs * n]addn0 batch_loop // ?Hs // cat0s.
by congr pair; apply/eq_in_map => k; rewrite mem_iota !add0n /= => ->; rewrite subn0.
Qed.

Lemma batch_slice xs b (secs := [seq k.+1 * n | k <- iota 0 (size xs)]) : all ok xs -> b < size xs ->
  forall x0, sec_slice (ob_buf (written (flatten (map list xs)) 0)) secs b = map Some (list (nth x0 xs b)).
Proof.
move=> Hok Hb x0; rewrite /written /= cats0 map_flatten -map_comp.
have take_sz k : k <= size xs -> size (flatten (take k (map (map Some \o list) xs))) = k * n.
  elim: xs {secs Hb} Hok k => [|x xs IH] /= Hok [|k] //= Hk.
  by move: Hok => /andP [Hx Hok]; rewrite size_cat size_map size_list // IH.
rewrite sec_slice_flatten ?size_map //; first by rewrite (nth_map x0).
by move=> k Hk; rewrite (nth_map 0) ?size_iota // nth_iota // add0n take_sz.
Qed.
End Batch.
