From Verif Require Import Base Occ_Model Occ_Spec.

Section Buf.
Variable E : Type.
Implicit Types (w : seq E) (st : outbuf E).

(* a buffer of which exactly the prefix w has been written *)
Definition written w k : outbuf E := OutBuf (size w) (map Some w ++ nseq k None) true.

Lemma ob_push_written w k e : ob_push (written w k.+1) e = written (rcons w e) k.
Proof.
rewrite /ob_push /written; cbv [ob_cur ob_buf ob_ok]; rewrite size_cat size_map size_nseq addnS ltnS leq_addr size_rcons.
congr OutBuf; by elim: w => [|a w IH] //=; rewrite IH.
Qed.

Lemma ob_pushs_written w k es : foldl (@ob_push E) (written w (size es + k)) es = written (w ++ es) k.
Proof.
elim: es w => [|e es IH] w /=; first by rewrite cats0.
by rewrite addSn ob_push_written IH cat_rcons.
Qed.

Lemma ob_alloc_written n : ob_alloc E n = written [::] n.
Proof. by []. Qed.

Lemma ob_grow_written w n : ob_grow n (written w 0) = written w n.
Proof. by rewrite /ob_grow /written /= cats0. Qed.

Lemma written_ok w : [/\ ob_ok (written w 0), ob_cur (written w 0) = size (ob_buf (written w 0)),
   ob_buf (written w 0) = map Some w & all isSome (ob_buf (written w 0))].
Proof. by rewrite /written /= cats0 size_map; split=> //; elim: w. Qed.
End Buf.

Lemma pmap_some (T : Type) (l : seq T) : pmap id (map Some l) = l.
Proof. by elim: l => //= a l ->. Qed.

(* slices of a flattened array *)
Lemma sec_slice_flatten (T : Type) (ll : seq (seq T)) (secs : seq nat) b :
  (forall b, b < size ll -> nth 0 secs b = size (flatten (take b.+1 ll))) ->
  b < size ll -> sec_slice (flatten ll) secs b = nth [::] ll b.
Proof.
move=> Hs Hb; rewrite /sec_slice Hs //.
have -> : sec_lo secs b = size (flatten (take b ll)).
  by case: b Hb => [|b] Hb /=; rewrite ?take0 // Hs //; lia.
rewrite (take_nth [::] Hb) flatten_rcons size_cat addKn.
have -> : flatten ll = flatten (take b ll) ++ flatten (drop b ll) by rewrite -flatten_cat cat_take_drop.
rewrite drop_size_cat // (drop_nth [::] Hb) /=.
by rewrite take_size_cat.
Qed.
