(* What the on-the-fly local energies assume of a model evaluated with use_fast_update:
   logpsi(parameters including the cache of x, occs, update_sites = sites) returns the log
   amplitude of the configuration y described by the update list (Update_Proto.v).  The lists
   describe occupancies 0..3 and keep the numbers of electrons.  [None] is
   use_fast_update=False, for which nothing is assumed. *)
From Verif Require Import Base Fock_Spec Occ_Model Occ_Spec Update_Proto.
Local Open Scope ring_scope.

Definition fast_ok (F : fieldType) (fast : option (seq nat -> seq nat -> F)) (psi : seq nat -> F) (x : seq nat) : Prop :=
  if fast is Some f then
    forall y sites occs, denotes x y sites occs -> valid y -> (forall s, n_spin s y = n_spin s x) ->
    f occs sites = psi y
  else True.

(* the Hubbard energy needs this for lists of distinct sites only *)
Definition fast_ok_uniq (F : fieldType) (fast : option (seq nat -> seq nat -> F)) (psi : seq nat -> F) (x : seq nat) : Prop :=
  if fast is Some f then
    forall y sites occs, denotes x y sites occs -> uniq sites -> valid y -> (forall s, n_spin s y = n_spin s x) ->
    f occs sites = psi y
  else True.
Lemma fast_okW (F : fieldType) fast (psi : seq nat -> F) x : fast_ok fast psi x -> fast_ok_uniq fast psi x.
Proof. by case: fast => //= f H y sites occs D _; apply: H. Qed.

Lemma fast_okE (F : fieldType) fast (psi : seq nat -> F) x y sites occs : fast_ok fast psi x ->
  denotes x y sites occs -> valid y -> (forall s, n_spin s y = n_spin s x) ->
  (if fast is Some f then f occs sites else psi y) = psi y.
Proof. by case: fast => //= f H D V N; apply: H. Qed.

Lemma fast_ok_uniqE (F : fieldType) fast (psi : seq nat -> F) x y sites occs : fast_ok_uniq fast psi x ->
  denotes x y sites occs -> uniq sites -> valid y -> (forall s, n_spin s y = n_spin s x) ->
  (if fast is Some f then f occs sites else psi y) = psi y.
Proof. by case: fast => //= f H D U V N; apply: H. Qed.

Lemma denotes_two x i j o o' : (i < size x)%N -> (j < size x)%N -> i != j ->
  denotes x (set_nth 0%N (set_nth 0%N x i o) j o') [:: i; j] [:: o; o'].
Proof.
move=> Hi Hj ij; split=> //=.
- by rewrite !size_set_nth (maxn_idPr Hi) (maxn_idPr Hj).
- by rewrite Hi Hj.
- case=> [|[|k]] //= _; rewrite ?eqxx ?(negbTE ij) /= !nth_set_nth /= ?eqxx //.
  by rewrite nth_set_nth /= (negbTE ij) eqxx.
move=> k; rewrite !inE negb_or => /andP[ki kj].
by rewrite nth_set_nth /= (negbTE kj) nth_set_nth /= (negbTE ki).
Qed.
