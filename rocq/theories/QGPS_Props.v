(* C32: fast updates of qGPS; C33: symmetrised amplitudes. *)
From Verif Require Import Base Update_Proto QGPS_Model QGPS_Proofs QGPS_Lemmas QGPS_Sym QGPS_Group.
Local Open Scope ring_scope.

Section Props.
Variables (F : fieldType) (eps : nat -> nat -> nat -> F) (M : nat).

(* every factor of every symmetry copy of x is non-zero (the code divides by them) *)
Definition nonvanishing (s : symset) (x : seq nat) : Prop :=
  forall c m i, c \in sym_copies s x -> (m < M)%N -> (i < size x)%N -> eps (nth 0%N c i) m i != 0.

(* C32: every size, support dimension, set of permutations with or without spin flip, and every
   update list in which the first occurrence of a site carries its new occupancy and later
   ones the old occupancy ([denotes], the protocol of the local energies, C14).  The cache
   written equals the cache of a fresh evaluation (site products, hence the returned value, and
   configuration). *)
Theorem C32_qgps_fast_update L s x y sites occs :
  (if sy_perms s is Some ps then all (fun p => perm_eq p (iota 0 L)) ps else true) -> size x = L ->
  nonvanishing s x -> denotes x y sites occs ->
  qgps_fast eps M s (qgps_full eps M s x) occs sites = qgps_full eps M s y.
Proof.
move=> Hok Hx Hne Hd.
by apply: (fast_full_lemma (L := L)) => // c m i Hc Hm Hi; apply: Hne; rewrite ?Hx.
Qed.

(* chains of cached updates of any length *)
Fixpoint chain_ok (s : symset) (x : seq nat) (us : seq (seq nat * (seq nat * seq nat))) : Prop :=
  if us is u :: us' then [/\ nonvanishing s x, denotes x u.1 u.2.1 u.2.2 & chain_ok s u.1 us'] else True.
Theorem C32_qgps_update_chain L s x us :
  (if sy_perms s is Some ps then all (fun p => perm_eq p (iota 0 L)) ps else true) -> size x = L ->
  chain_ok s x us ->
  foldl (fun c u => qgps_fast eps M s c u.2.2 u.2.1) (qgps_full eps M s x) us
  = qgps_full eps M s (last x (map fst us)).
Proof.
elim: us x => [//|[y [sites occs]] us IH] x Hok Hx [H1 H2 H3] /=.
rewrite (C32_qgps_fast_update Hok Hx H1 H2) IH //.
by case: H2 => ->.
Qed.

(* C33: if the permutations form a group, the symmetric copies of an image are a
   rearrangement of those of x; so any sum over copies, in particular the qGPS value, is
   invariant.  With spin flip occupancies are 0/1. *)
Theorem C33_symmetrised_invariant (V : zmodType) (f : seq nat -> V) L s x y :
  size x = L -> (sy_flip s -> all (fun o => o < 2)%N x) ->
  (if sy_perms s is Some ps then
     [&& uniq ps, all (fun p => perm_eq p (iota 0 L)) ps &
         all (fun p => all (fun q => [seq nth 0%N p j | j <- q] \in ps) ps) ps] else true) ->
  y \in sym_copies s x ->
  \sum_(c <- sym_copies s y) f c = \sum_(c <- sym_copies s x) f c.
Proof. by move=> Hx Hb Hg Hy; apply: perm_big; apply: (group_lemma Hx Hb Hg Hy). Qed.

Theorem C33_qgps_invariant L s x y :
  size x = L -> (sy_flip s -> all (fun o => o < 2)%N x) ->
  (if sy_perms s is Some ps then
     [&& uniq ps, all (fun p => perm_eq p (iota 0 L)) ps &
         all (fun p => all (fun q => [seq nth 0%N p j | j <- q] \in ps) ps) ps] else true) ->
  y \in sym_copies s x ->
  default_out (ca_prod (qgps_full eps M s y)) = default_out (ca_prod (qgps_full eps M s x)).
Proof.
move=> Hx Hb Hg Hy; rewrite /default_out /= /get_site_prod !big_map.
exact: (C33_symmetrised_invariant (fun c => \sum_(v <- site_prod eps M c) v) Hx Hb Hg Hy).
Qed.

(* C24, contract of the model: qGPS with any output function of the site products meets what
   the fast sampler requires of its machine, on configurations where no factor vanishes *)
Theorem C24_qgps_contract (V : Type) (out : seq (seq F) -> V) L s (ok : pred (seq nat)) x y sites :
  (if sy_perms s is Some ps then all (fun p => perm_eq p (iota 0 L)) ps else true) ->
  (forall z, ok z -> size z = L /\ nonvanishing s z) ->
  let machine c := (out (ca_prod c), c) in
  let full z := machine (qgps_full eps M s z) in
  let fast c occs sites := machine (qgps_fast eps M s c occs sites) in
  ok x -> ok y -> size y = size x -> (forall i, i \notin sites -> nth 0%N y i = nth 0%N x i) ->
  all (fun i => (i < size x)%N) sites -> uniq sites \/ y = x ->
  fast (full x).2 [seq nth 0%N y i | i <- sites] sites = full y.
Proof.
move=> Hs Hok machine full fast Hx Hy Hsz Hoff Hrng Hu; have [HxL Hn] := Hok x Hx.
have E := @C32_qgps_fast_update L s x y sites _ Hs HxL Hn.
rewrite /fast /full; cbn [snd]; rewrite E //; apply: denotes_once => // j.
by case: Hu => [Hu|-> //]; rewrite count_uniq_mem // eqb1; exact: Hoff.
Qed.
End Props.

(* the protocol matters: with the new occupancy at every occurrence of a repeated changed site
   its factor is divided out and multiplied in twice *)
Theorem C32_repeated_new_value_refuted : exists (F : fieldType) (eps : nat -> nat -> nat -> F) (M : nat) s x y sites,
  [/\ nonvanishing eps M s x, size y = size x, all (fun k => (k < size x)%N) sites,
      (forall j, j \notin sites -> nth 0%N y j = nth 0%N x j) &
      ca_prod (qgps_fast eps M s (qgps_full eps M s x) [seq nth 0%N y i | i <- sites] sites)
      <> ca_prod (qgps_full eps M s y)].
Proof.
exists [fieldType of rat], (fun o _ _ => o.+1%:R), 1%N, (SymSet None false), [:: 0%N], [:: 1%N], [:: 0; 0]%N.
split=> //.
- by move=> c m i; rewrite /sym_copies /= inE => /eqP-> _; case: i.
- by case=> [|j] //; rewrite !nth_nil.
- rewrite /qgps_fast /qgps_full /get_site_prod /outer_update /inner_update /site_prod /upd_prod /=.
  rewrite !big_cons !big_nil !big_ord_recl !big_ord0 /= => -[] /eqP; by vm_compute.
Qed.

(* two sites, swap symmetry; an up electron moves 0 -> 1 and a down electron 1 -> 0: the list
   0, 1, 1, 0 repeats both sites *)
Example C32_example :
  let s := SymSet (Some [:: [:: 0; 1]; [:: 1; 0]]%N) false in
  let e := (fun o m i => (1 + o + 2 * m + 3 * i)%N%:R : rat) in
  ca_samples (qgps_fast e 2 s (qgps_full e 2 s [:: 1; 2]%N) [:: 2; 1; 2; 1]%N [:: 0; 1; 1; 0]%N) = [:: 2; 1]%N /\
  sym_copies s [:: 1; 2]%N = [:: [:: 1; 2]; [:: 2; 1]]%N /\
  denotes [:: 1; 2]%N [:: 2; 1]%N [:: 0; 1; 1; 0]%N [:: 2; 1; 2; 1]%N.
Proof.
split; first by []. split; first by []. split=> //.
  by do 4?[case=> //].
by case=> [|[|j]] // _; rewrite !nth_default.
Qed.

Print Assumptions C32_qgps_fast_update.
Print Assumptions C32_qgps_update_chain.
Print Assumptions C32_repeated_new_value_refuted.
Print Assumptions C33_symmetrised_invariant.
Print Assumptions C33_qgps_invariant.
Print Assumptions C24_qgps_contract.
