From Verif Require Import Base Fock_Spec Fock_Proofs Occ_Model Occ_Spec Hopping_Model Hopping_Proofs.
From Verif Require Import Buffer_Proofs Hubbard_Proofs Mol_Fock Mol_Row AbInitio_Model.
Local Open Scope ring_scope.

(* index lists *)
Section Inds.
Variable x : cfg.
Hypothesis Hv : valid x.
Definition oinds s := sel_inds (spin_int s) true x.
Definition uinds s := sel_inds (spin_int s) false x.

Lemma mem_oinds s k : (k \in oinds s) = (k < size x)%N && occ s k (fock_of x).
Proof.
by rewrite mem_filter mem_iota add0n andbC has_has_spin ?valid_nth // occ_fock eqb_id.
Qed.
Lemma mem_uinds s k : (k \in uinds s) = (k < size x)%N && ~~ occ s k (fock_of x).
Proof.
by rewrite mem_filter mem_iota add0n andbC has_has_spin ?valid_nth // occ_fock eqbF_neg.
Qed.
Lemma uniq_oinds s : uniq (oinds s). Proof. by rewrite filter_uniq ?iota_uniq. Qed.
Lemma uniq_uinds s : uniq (uinds s). Proof. by rewrite filter_uniq ?iota_uniq. Qed.

Lemma sum_oinds (R : zmodType) s (f : nat -> R) :
  \sum_(k <- oinds s) f k = \sum_(k < size x | occ s k (fock_of x)) f k.
Proof.
rewrite /oinds /sel_inds big_filter -{1}[size x]subn0 -/(index_iota 0 (size x)) big_mkord.
by apply: eq_bigl => k; rewrite has_has_spin ?valid_nth // occ_fock eqb_id.
Qed.
Lemma sum_uinds (R : zmodType) s (f : nat -> R) :
  \sum_(k <- uinds s) f k = \sum_(k < size x | ~~ occ s k (fock_of x)) f k.
Proof.
rewrite /uinds /sel_inds big_filter -{1}[size x]subn0 -/(index_iota 0 (size x)) big_mkord.
by apply: eq_bigl => k; rewrite has_has_spin ?valid_nth // occ_fock eqbF_neg.
Qed.
End Inds.

(* loops that only push *)
Section Loops.
Variable E : Type.
Lemma for_push (I : eqType) (l : seq I) (body : outbuf E -> I -> outbuf E) (g : I -> seq E) :
  (forall k w m, k \in l -> body (written w (size (g k) + m)) k = written (w ++ g k) m) ->
  forall w m, foldl body (written w (size (flatten (map g l)) + m)) l = written (w ++ flatten (map g l)) m.
Proof.
elim: l => [|a l IH] Hb w m /=; first by rewrite cats0.
rewrite size_cat -addnA Hb ?inE ?eqxx // IH ?catA // => k w' m' Hk.
by apply: Hb; rewrite inE Hk orbT.
Qed.
End Loops.

Section Ab.
Variables (R : comRingType) (half : R).
Add Ring RR : (r_theory R).
Variables (t : nat -> nat -> R) (eri : nat -> nat -> nat -> nat -> R).

Lemma acc_addE l f d : acc_add l f d = d + \sum_(k <- l) f k :> R.
Proof.
elim: l d => [|a l IH] d; first by rewrite /acc_add /= big_nil addr0.
by rewrite /acc_add /= -/(acc_add _ _ _) IH big_cons addrA.
Qed.
Lemma acc_subE l f d : acc_sub l f d = d - \sum_(k <- l) f k :> R.
Proof.
elim: l d => [|a l IH] d; first by rewrite /acc_sub /= big_nil subr0.
by rewrite /acc_sub /= -/(acc_sub _ _ _) IH big_cons opprD addrA.
Qed.
Lemma acc_add2E l l' f d : acc_add2 l l' f d = d + \sum_(i <- l) \sum_(j <- l') f i j :> R.
Proof.
elim: l d => [|a l IH] d; first by rewrite /acc_add2 /= big_nil addr0.
by rewrite /acc_add2 /= -/(acc_add2 _ _ _ _) acc_addE IH big_cons addrA.
Qed.

Section One.
Variable x : cfg.
Let cum s := cumcount (spin_int s) x.
Notation O := (oinds x). Notation V := (uinds x).

Definition e_one s i a : cfg * R :=
  let r := apply_hopping i a x (spin_int s) (Some (cum s)) in
  (r.2, (r.1)%:~R * ab_value half t eri (O s) (V s) (O (other s)) i a).
Definition e_two s i a j b : cfg * R :=
  let r1 := apply_hopping i a x (spin_int s) (Some (cum s)) in
  let r2 := apply_hopping j b r1.2 (spin_int s) (Some (cum s)) in
  (r2.2, half * (ab_two_mult i a j b r1.1 r2.1)%:~R * eri i a j b).
Definition e_ud i a j b : cfg * R :=
  let r1 := apply_hopping i a x 1 (Some (cum Up)) in
  let r2 := apply_hopping j b r1.2 2 (Some (cum Dn)) in
  (r2.2, (r1.1 * r2.1)%:~R * eri i a j b).

Definition l_one s := flatten [seq flatten [seq [:: e_one s i a] | a <- V s] | i <- O s].
Definition l_two s := flatten [seq flatten [seq flatten [seq flatten
  [seq (if (i != j) && (a != b) then [:: e_two s i a j b] else [::]) | b <- V s]
  | j <- O s] | a <- V s] | i <- O s].
Definition l_ud := flatten [seq flatten [seq flatten [seq flatten
  [seq [:: e_ud i a j b] | b <- V Dn] | j <- O Dn] | a <- V Up] | i <- O Up].

Definition ab_list : seq (cfg * R) :=
  (x, ab_diag half t eri (O Up) (V Up) (O Dn) (V Dn)) ::
  (l_one Up ++ l_one Dn ++ l_two Up ++ l_two Dn ++ l_ud).

Lemma ab_one_written s w m :
  ab_one half t eri x (spin_int s) (cum s) (O s) (V s) (O (other s)) (written w (size (l_one s) + m))
  = written (w ++ l_one s) m.
Proof.
apply: for_push => i w1 m1 _; apply: for_push => a w2 m2 _.
by rewrite /= add1n ob_push_written -cats1.
Qed.
Lemma ab_two_written s w m :
  ab_two half eri x (spin_int s) (cum s) (O s) (V s) (written w (size (l_two s) + m))
  = written (w ++ l_two s) m.
Proof.
apply: for_push => i ? ? _; apply: for_push => a ? ? _; apply: for_push => j ? ? _; apply: for_push => b ? ? _.
case: ((i != j) && (a != b)); last by rewrite cats0.
by rewrite /= add1n ob_push_written -cats1.
Qed.
Lemma ab_ud_written w m :
  ab_ud eri x (cum Up) (cum Dn) (O Up) (V Up) (O Dn) (V Dn) (written w (size l_ud + m))
  = written (w ++ l_ud) m.
Proof.
do 4 (apply: for_push => ? ? ? _).
by rewrite /= add1n ob_push_written -cats1.
Qed.

Lemma size_flatten_const (A : Type) (I : eqType) (l : seq I) (g : I -> seq A) n :
  (forall k, k \in l -> size (g k) = n) -> size (flatten (map g l)) = (size l * n)%N.
Proof.
elim: l => // a l IH H /=; rewrite size_cat H ?inE ?eqxx // IH ?mulSn // => k Hk.
by apply: H; rewrite inE Hk orbT.
Qed.
Lemma size_one s : size (l_one s) = (size (O s) * size (V s))%N.
Proof.
apply: size_flatten_const => i _; rewrite (size_flatten_const (n := 1)) ?muln1 //.
Qed.
Lemma size_ud : size l_ud = (size (O Up) * (size (V Up) * (size (O Dn) * size (V Dn))))%N.
Proof.
do 3 (apply: size_flatten_const => ? _).
by rewrite (size_flatten_const (n := 1)) ?muln1.
Qed.

Lemma size_flatten_uniq (A : Type) (l : seq nat) (g : nat -> seq A) n a :
  uniq l -> a \in l -> (forall k, k \in l -> size (g k) = if a == k then 0%N else n) ->
  size (flatten (map g l)) = ((size l).-1 * n)%N.
Proof.
elim: l => // b l IH /= /andP [Hb Hu]; rewrite inE => Ha H.
rewrite size_cat H ?inE ?eqxx //.
case: (altP (a =P b)) Ha => [E _|N /= Ha].
  rewrite add0n (size_flatten_const (n := n)) // => k Hk; rewrite H ?inE ?Hk ?orbT //.
  by case: eqP => // E'; move: Hb; rewrite -E E' Hk.
rewrite IH //; first by case: (l) Ha => //= c l' _; rewrite mulSn.
by move=> k Hk; apply: H; rewrite inE Hk orbT.
Qed.

Lemma size_two s : size (l_two s) = (size (O s) * (size (V s) * ((size (O s)).-1 * (size (V s)).-1)))%N.
Proof.
apply: size_flatten_const => i Hi; apply: size_flatten_const => a Ha.
apply: (size_flatten_uniq (a := i)) => //; first exact: uniq_oinds.
move=> j Hj; case: (altP (i =P j)) => [E|N].
  rewrite (size_flatten_const (n := 0)) ?muln0 //.
rewrite -[RHS]muln1; apply: (size_flatten_uniq (a := a)) => //; first exact: uniq_uinds.
by move=> b Hb; case: eqP.
Qed.

Lemma connected_conE : connected_con (O Up) (V Up) (O Dn) (V Dn) = size ab_list.
Proof.
rewrite /= !size_cat !size_one !size_two size_ud /connected_con.
have P (n : nat) : n%:Z * (n%:Z - 1) = (n * n.-1)%:Z.
  case: n => [|n]; first by rewrite mul0r.
  by rewrite [in LHS](_ : n.+1%:Z - 1 = n) ?PoszM //; rewrite -addn1 PoszD addrK.
move: (size (O Up)) (size (V Up)) (size (O Dn)) (size (V Dn)) => a b c d.
rewrite -(mulrA _ (a%:Z - 1)) -(mulrA _ (c%:Z - 1)).
have E (u v : nat) : u%:Z * v%:Z * ((u%:Z - 1) * (v%:Z - 1)) = (u * (v * (u.-1 * v.-1)))%:Z.
  by rewrite mulrACA !P -PoszM; congr Posz; rewrite -!mulnA; congr muln; rewrite mulnCA.
rewrite !E -!PoszM -!PoszD absz_nat; lia.
Qed.
End One.

Lemma ab_sample_written x b w secs :
  ab_sample half t eri (written w 0, secs) (b, x)
  = (written (w ++ ab_list x) 0, set_nth 0%N secs b (size (w ++ ab_list x))).
Proof.
rewrite /ab_sample [(b, x).2]/= [(b, x).1]/= [(written w 0, secs).1]/= [(written w 0, secs).2]/=.
have -> : connected_con (sel_inds 1 true x) (sel_inds 1 false x) (sel_inds 2 true x) (sel_inds 2 false x)
  = size (ab_list x) by rewrite -connected_conE.
rewrite ob_grow_written {1}/ab_list /= ob_push_written.
set o := ab_ud _ _ _ _ _ _ _ _ _.
have -> : o = written (w ++ ab_list x) 0.
  rewrite /o !size_cat -[X in written _ X]addn0 -!addnA.
  have := ab_one_written x Up; rewrite /= => ->.
  have := ab_one_written x Dn; rewrite /= => ->.
  have := ab_two_written x Up; rewrite /= => ->.
  have := ab_two_written x Dn; rewrite /= => ->.
  have := ab_ud_written x; rewrite /= => ->.
  by rewrite /ab_list -!catA cat_rcons.
by [].
Qed.

Lemma ab_loop b xs w secs : (b + size xs <= size secs)%N ->
  foldl (ab_sample half t eri) (written w 0, secs) (zip (iota b (size xs)) xs)
  = (written (w ++ flatten (map ab_list xs)) 0,
     [seq if (b <= k < b + size xs)%N then size (w ++ flatten (map ab_list (take (k.+1 - b) xs)))
          else nth 0%N secs k | k <- iota 0 (size secs)]).
Proof.
elim: xs b w secs => [|x xs IH] b w secs Hb.
  rewrite /= cats0; congr pair.
  apply: (@eq_from_nth _ 0%N) => [|k Hk]; first by rewrite size_map size_iota.
  rewrite (nth_map 0%N) ?size_iota // nth_iota // add0n addn0.
  by case: (ltnP k b) => H; rewrite ?andbF //; case: leqP => //; lia.
rewrite [size (x :: xs)]/= [iota _ _]/= [zip _ _]/= [foldl _ _ _]/= ab_sample_written IH; last first.
  by rewrite size_set_nth; move: Hb => /=; lia.
rewrite -catA; congr pair.
have -> : size (set_nth 0%N secs b (size (w ++ ab_list x))) = size secs.
  by rewrite size_set_nth; move: Hb => /=; lia.
apply/eq_in_map => k; rewrite mem_iota add0n => /andP [_ Hk].
rewrite nth_set_nth /=.
case: (ltngtP k b) => H; rewrite ?andbF //=.
- rewrite addSnnS; case: ifP => // _.
  by rewrite subSS (subSn (ltnW H)) /= -catA.
- rewrite H; have -> : (b < b + (size xs).+1)%N by lia.
  by rewrite subSnn /= take0 /= cats0.
Qed.

Lemma ab_conn_flattenedE xs secs : size secs = size xs ->
  ab_conn_flattened half t eri xs secs
  = (written (flatten (map ab_list xs)) 0,
     [seq size (flatten (map ab_list (take k.+1 xs))) | k <- iota 0 (size xs)]).
Proof.
move=> Hs; rewrite /ab_conn_flattened ob_alloc_written ab_loop ?Hs // cat0s; congr pair.
by apply/eq_in_map => k; rewrite mem_iota !add0n subn0 => /andP [_ Hk]; rewrite Hk cat0s.
Qed.
End Ab.
