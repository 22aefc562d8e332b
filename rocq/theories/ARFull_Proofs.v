From Verif Require Import Base Update_Proto QGPS_Model QGPS_Proofs QGPS_Lemmas QGPS_Sym AR_Model ARFull_Model.
Local Open Scope ring_scope.

Section P.
Variables (F : fieldType) (M L : nat).
Implicit Types (P : params F).

(* the factor of the context product of site i that site j < i contributes *)
Definition factor P (i m o j : nat) : F :=
  match P with
  | Packed eps => eps o m (lower_index i + j)%N
  | PerSite _ eps => eps i o m j
  end.

Lemma lower_mono i : (i < L)%N -> (lower_index i <= n_packed L - L)%N.
Proof.
move=> Hi; rewrite /lower_index /n_packed.
have -> : ((L * (L + 1)) %/ 2 - L = (L.-1 * (L.-1 + 1)) %/ 2)%N.
  case: L Hi => // n _; rewrite /= !addn1.
  have -> : (n.+1 * n.+2 = n * n.+1 + n.+1 * 2)%N by nia.
  by rewrite divnMDl // addnC -addnBA // subnn addn0 || rewrite addnC divnMDl // addnC addnK.
by apply: leq_div2r; apply: leq_mul; lia.
Qed.

Lemma context_fullE P x i m : (i < L)%N -> (m < width M P i)%N ->
  nth 0 (context_full M L P x i) m = \prod_(j < L) (if (i <= j)%N then 1 else factor P i m (nth 0%N x j) j).
Proof.
case: P => [eps|Ms eps] Hi /= Hm.
  rewrite (nth_map 0%N) ?size_iota // nth_iota // /full_context; apply: eq_bigr => j _.
  by rewrite /slice_start; move/minn_idPl: (lower_mono Hi) => ->.
rewrite (nth_map 0%N) ?size_iota // nth_iota //.
rewrite -(big_mkord xpredT (fun j => if (i <= j)%N then 1 else eps i (nth 0%N x j) (0 + m)%N j)).
rewrite -(big_mkord xpredT (fun j => if (i <= j)%N then 1 else eps i (nth 0%N x j) m j)) add0n.
rewrite [RHS](big_cat_nat _ _ _ (leq0n i.+1)) //= [X in _ = _ * X]big_nat_cond [X in _ = _ * X]big1 ?mulr1 // => j.
by rewrite andbT => /andP[Hij _]; rewrite (ltnW Hij).
Qed.

Lemma update_ratioE P i m new old j : update_ratio P i m new old j = factor P i m new j / factor P i m old j.
Proof. by case: P => [eps|Ms eps] //=; rewrite addnC. Qed.

Lemma prod_zip_div (W : nat -> nat -> F) (sites news olds : seq nat) : size news = size sites -> size olds = size sites ->
  \prod_(q <- zip sites (zip news olds)) (W q.2.1 q.1 / W q.2.2 q.1)
  = (\prod_(q <- zip news sites) W q.1 q.2) / (\prod_(q <- zip olds sites) W q.1 q.2).
Proof.
elim: sites news olds => [|k sites IH] [|a news] [|b olds] //=; first by rewrite !big_nil divr1.
by move=> [Ha] [Hb]; rewrite !big_cons IH // -mulf_div.
Qed.

Lemma zip_mapl (A B C D' : Type) (f : A -> B) (g : C -> D') (s : seq A) (t : seq C) :
  zip (map f s) (map g t) = [seq (f q.1, g q.2) | q <- zip s t].
Proof. by elim: s t => [|a s IH] [|b t] //=; rewrite IH. Qed.

Lemma context_fastE P (f : nat -> nat) p x y sites occs i : (i < L)%N -> is_perm L p -> size x = L ->
  denotes x y sites occs ->
  (forall m j, (m < width M P i)%N -> (nth 0%N (inv_perm p) j < i)%N -> (j < L)%N ->
     factor P i m (f (nth 0%N x j)) (nth 0%N (inv_perm p) j) != 0) ->
  context_fast M P (context_full M L P [seq f o | o <- [seq nth 0%N x j | j <- p]] i)
    [seq f o | o <- [seq nth 0%N x j | j <- sites]] [seq f o | o <- occs]
    [seq nth 0%N (inv_perm p) k | k <- sites] i
  = context_full M L P [seq f o | o <- [seq nth 0%N y j | j <- p]] i.
Proof.
move=> Hi Hp Hx Hd Hne; have [Hy Ho _ _ _] := Hd; have HyL : size y = L by rewrite Hy.
have Hsz z : size (context_full M L P z i) = width M P i by case: P {Hne} => *; rewrite size_map size_iota.
apply: (@eq_from_nth _ 0); first by rewrite Hsz size_map size_iota.
move=> m; rewrite size_map size_iota => Hm.
rewrite (nth_map 0%N) ?size_iota // nth_iota // add0n !context_fullE //.
pose W o j := if (i <= nth 0%N (inv_perm p) j)%N then 1 else factor P i m (f o) (nth 0%N (inv_perm p) j).
have Hcopy z : size z = L ->
    \prod_(j < L) (if (i <= j)%N then 1 else factor P i m (nth 0%N [seq f o | o <- [seq nth 0%N z j0 | j0 <- p]] j) j)
    = \prod_(j < L) W (nth 0%N z j) j.
  move=> Hz; rewrite /W -(prod_perm (fun a k => if (i <= k)%N then 1 else factor P i m (f (nth 0%N z a)) k) Hp).
  by apply: eq_bigr => k _; rewrite (nth_map 0%N) ?size_map ?(perm_size Hp) // (nth_map 0%N) ?(perm_size Hp).
rewrite !Hcopy //.
have HW j : (j < size x)%N -> W (nth 0%N x j) j != 0.
  rewrite Hx /W => Hj; case: leqP => Hlt; first exact: oner_neq0.
  exact: Hne.
rewrite -Hx [RHS](prod_proto Hd HW).
have -> : \prod_(q <- zip [seq nth 0%N (inv_perm p) k | k <- sites] (zip [seq f o | o <- occs] [seq f o | o <- [seq nth 0%N x j | j <- sites]]))
     (if (i <= q.1)%N then 1 else update_ratio P i m q.2.1 q.2.2 q.1)
  = \prod_(q <- zip sites (zip occs [seq nth 0%N x j | j <- sites])) (W q.2.1 q.1 / W q.2.2 q.1).
  rewrite !zip_mapl big_map; apply: eq_bigr => q _ /=; rewrite /W update_ratioE.
  by case: ifP => // _; rewrite divr1.
rewrite (prod_zip_div W) ?size_map // zip_read_prod.
by rewrite mulrC mulrA mulrAC.
Qed.
End P.

Section Q.
Variables (F : fieldType) (R : realFieldType) (wexp : F -> R) (out : seq F -> F).
Variables (D M L : nat) (constrained normalize : bool).
Variables (count_spins : nat -> seq nat) (renorm : seq nat -> nat -> seq bool).
Implicit Types (P : params F).
Local Notation fast := (arfull_fast wexp out D M L constrained normalize count_spins renorm).
Local Notation full := (arfull wexp out D M L constrained normalize count_spins renorm).

Lemma arfull_fast_lemma P s x y sites occs : syms_ok L s -> size x = L -> denotes x y sites occs ->
  (forall c i j m, c \in sym_copies s x -> (i < L)%N -> (j < i)%N -> (m < width M P i)%N ->
     factor P i m (nth 0%N c j) j != 0) ->
  fast P s (full P s x).2 occs sites = full P s y.
Proof.
move=> Hok Hx Hd Hne; have [Hy _ Hs _ _] := Hd; rewrite Hx in Hy Hs.
rewrite /arfull_fast /arfull; cbn [finish fc_samples fc_ctx snd].
have -> : update_config x sites occs = y by apply: denotes_write.
congr finish.
rewrite !(@sym_inverseE L) // !(@sym_copiesE L) // -map_comp zip_map3 -map_comp.
have HC : forall fp, List.In fp (ops L s) -> is_perm L fp.2 /\ [seq fp.1 o | o <- [seq nth 0%N x j | j <- fp.2]] \in sym_copies s x.
  move=> fp Hin; split.
    by apply: ops_perm Hok _; elim: (ops L s) Hin => //= a l IH [->|/IH H]; rewrite in_cons ?eqxx // H orbT.
  rewrite (@sym_copiesE L) //.
  by elim: (ops L s) Hin => //= a l IH [->|/IH H]; rewrite in_cons ?eqxx // H orbT.
elim: (ops L s) HC => //= fp l IH HC; rewrite IH; last by move=> q Hq; apply: HC; right.
congr cons; have [Hp Hc] := HC fp (or_introl erefl).
apply/eq_in_map => i; rewrite mem_iota /= add0n => Hi.
rewrite (nth_map 0%N) ?size_iota // nth_iota // add0n.
apply: (context_fastE Hi Hp Hx Hd) => m j Hm Hlt Hj.
have := Hne _ i _ m Hc Hi Hlt Hm; rewrite (inv_permE Hp) // in Hlt *.
have Ej : nth 0%N fp.2 (index j fp.2) = j by rewrite nth_index // (perm_mem Hp) mem_iota.
have HjL : (index j fp.2 < L)%N by apply: ltn_trans Hlt Hi.
by rewrite (nth_map 0%N) ?size_map ?(perm_size Hp) // (nth_map 0%N) ?(perm_size Hp) // Ej.
Qed.

(* the call without updates is the model of AR_Model *)
Lemma scan_same (C C' : Type) (c : C) (c' : C') site site' is_ ns x :
  (forall c c' i, List.In i is_ -> (site c x i).2 = (site' c' x i).2 :> seq F) ->
  scan_conditionals constrained count_spins renorm site is_ c ns x
  = scan_conditionals constrained count_spins renorm site' is_ c' ns x.
Proof.
elim: is_ c c' ns => [//|i is_ IH] c c' ns H /=; rewrite /compute_conditional.
have := H c c' i (or_introl erefl).
case: (site c x i) => d v; case: (site' c' x i) => d' v' /= ->; congr cons.
by apply: IH => e e' k Hk; apply: H; right.
Qed.

Definition to_model P : model F := match P with Packed eps => ARFull eps | PerSite Ms eps => ARFullTuple Ms eps end.

Lemma conditionals_ofE P x :
  conditionals_of out D M L constrained count_spins renorm P [seq context_full M L P x i | i <- iota 0 L] x
  = log_conditionals D L constrained count_spins renorm (cache0 F D M) (model_site out D M L (to_model P)) x.
Proof.
apply: scan_same => c c' i /=.
have Hin : List.In i (iota 0 L) -> (i < L)%N.
  move=> H; have : i \in iota 0 L by elim: (iota 0 L) H => //= a l IH [->|/IH H]; rewrite in_cons ?eqxx // H orbT.
  by rewrite mem_iota.
move=> /Hin Hi; rewrite (nth_map 0%N) ?size_iota // nth_iota // add0n.
case: P => [eps|Ms eps] /=; rewrite /site_out /full_prods /fulltuple_prods -map_comp; apply: eq_map => d /=; congr out.
  by apply/eq_in_map => m; rewrite mem_iota /= add0n => Hm; rewrite (nth_map 0%N) ?size_iota // nth_iota.
by apply/eq_in_map => m; rewrite mem_iota /= add0n => Hm; rewrite (nth_map 0%N) ?size_iota // nth_iota.
Qed.
End Q.
