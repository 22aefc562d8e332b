(* C72: fast updates of ARqGPSFull. *)
From Verif Require Import Base Update_Proto QGPS_Model QGPS_Proofs QGPS_Lemmas QGPS_Sym AR_Model ARFull_Model ARFull_Proofs.
Import Num.Theory Order.TTheory.
Local Open Scope ring_scope.

Section Props.
Variables (F : fieldType) (R : realFieldType) (wexp : F -> R) (out : seq F -> F).
Variables (D M L : nat) (constrained normalize : bool).
Variables (count_spins : nat -> seq nat) (renorm : seq nat -> nat -> seq bool) (P : params F).
Local Notation fast := (arfull_fast wexp out D M L constrained normalize count_spins renorm P).
Local Notation full := (arfull wexp out D M L constrained normalize count_spins renorm P).

(* no parameter read for the context products of any symmetry copy of x vanishes (the code
   divides by them); epsilon is indexed as in the code *)
Definition nonvanishing (s : symset) (x : seq nat) : Prop :=
  forall c i j m, c \in sym_copies s x -> (i < L)%N -> (j < i)%N -> 
  match P with
  | Packed eps => (m < M)%N -> eps (nth 0%N c j) m ((i * (i + 1)) %/ 2 + j)%N != 0
  | PerSite Ms eps => (m < Ms i)%N -> eps i (nth 0%N c j) m j != 0
  end.

(* C72: values of all symmetry copies and the cache written *)
Theorem C72_arfull_fast_update s x y sites occs :
  (if sy_perms s is Some ps then all (fun p => perm_eq p (iota 0 L)) ps else true) -> size x = L ->
  nonvanishing s x -> denotes x y sites occs ->
  fast s (full s x).2 occs sites = full s y.
Proof.
move=> Hok Hx Hne Hd; apply: arfull_fast_lemma => // c i j m Hc Hi Hj Hm.
by have := Hne c i j m Hc Hi Hj; case: (P) Hm => [eps|Ms eps] /= Hm; apply.
Qed.

(* chains of cached updates of any length *)
Fixpoint chain_ok (s : symset) (x : seq nat) (us : seq (seq nat * (seq nat * seq nat))) : Prop :=
  if us is u :: us' then [/\ nonvanishing s x, denotes x u.1 u.2.1 u.2.2 & chain_ok s u.1 us'] else True.
Theorem C72_arfull_update_chain s x us :
  (if sy_perms s is Some ps then all (fun p => perm_eq p (iota 0 L)) ps else true) -> size x = L ->
  chain_ok s x us ->
  foldl (fun r u => fast s r.2 u.2.2 u.2.1) (full s x) us = full s (last x (map fst us)).
Proof.
elim: us x => [//|[y [sites occs]] us IH] x Hok Hx [H1 H2 H3] /=.
rewrite (C72_arfull_fast_update Hok Hx H1 H2) IH //.
by case: H2 => ->.
Qed.

(* the evaluation without updates is the model of C26-C31 *)
Theorem C72_same_model s x : normalize = true ->
  symm_prob (full s x).1
  = prob wexp D L constrained count_spins renorm (cache0 F D M) (model_site out D M L (to_model P)) s x.
Proof.
move=> Hn; rewrite /symm_prob /prob /arfull /finish; cbn [fst]; rewrite big_map size_map.
have E (cs : seq (seq nat)) f : zip cs [seq f y | y <- cs] = [seq (y, f y) | y <- cs] :> seq (seq nat * seq (seq F)).
  by elim: cs => //= a l ->.
rewrite E big_map size_map; congr (_ / _); apply: eq_bigr => y _; cbn [fst snd].
rewrite conditionals_ofE /copy_amp Hn /prob_one; cbn [fst]; apply: eq_bigr => i _; congr (nth 0 _ _).
rewrite /conditionals.
set lps := log_conditionals _ _ _ _ _ _ _ _.
have Hs : size lps = L.
  rewrite /lps /log_conditionals -[RHS](size_iota 0 L); move: (model_site _ _ _ _ _) => st.
  move: (iota 0 L) (cache0 F D M) (nseq D 0%N) => is_.
  by elim: is_ => //= j is_ IH c ns; case: compute_conditional => [[c' ns'] lp] /=; rewrite IH.
by rewrite (nth_map [::]) // Hs.
Qed.

(* C24, contract of the model *)
Theorem C24_arfull_contract (V : Type) (fin : seq (R * F) -> V) s (ok : pred (seq nat)) x y sites :
  (if sy_perms s is Some ps then all (fun p => perm_eq p (iota 0 L)) ps else true) ->
  (forall z, ok z -> size z = L /\ nonvanishing s z) ->
  let machine (r : seq (R * F) * fcache F) := (fin r.1, r.2) in
  let fullm z := machine (full s z) in
  let fastm c occs sites := machine (fast s c occs sites) in
  ok x -> ok y -> size y = size x -> (forall i, i \notin sites -> nth 0%N y i = nth 0%N x i) ->
  all (fun i => (i < size x)%N) sites -> uniq sites \/ y = x ->
  fastm (fullm x).2 [seq nth 0%N y i | i <- sites] sites = fullm y.
Proof.
move=> Hs Hok machine fullm fastm Hx Hy Hsz Hoff Hrng Hu; have [HxL Hn] := Hok x Hx.
rewrite /fastm /fullm /machine; cbn [snd]; rewrite (@C72_arfull_fast_update s x y) //.
by apply: denotes_once => // j; case: Hu => [Hu|-> //]; rewrite count_uniq_mem // eqb1; exact: Hoff.
Qed.
End Props.

(* three sites, cyclic shifts, D = 4 local states, one packed array; the electron with index 1
   moves from site 0 to site 2 and one with index 2 from 2 to 1; site 2 is repeated *)
Example C72_example :
  let s := SymSet (Some [:: [:: 0; 1; 2]; [:: 1; 2; 0]; [:: 2; 0; 1]]%N) false in
  let P := Packed (fun o m i => (1 + o + 2 * m + 3 * i)%N%:R : rat) in
  let full := arfull (R := rat_realFieldType) (fun _ => 1) (fun v => head 0 v) 4 2 3 false true count_spins4 (fun _ _ => nseq 4 true) P in
  [/\ nonvanishing 2%N 3%N P s [:: 1; 0; 2]%N,
      denotes [:: 1; 0; 2]%N [:: 0; 2; 1]%N [:: 0; 2; 1; 2]%N [:: 0; 1; 2; 2]%N,
      size (full s [:: 1; 0; 2]%N).1 = 3%N &
      fc_ctx (full s [:: 1; 0; 2]%N).2 != fc_ctx (full s [:: 0; 2; 1]%N).2].
Proof.
split.
- by move=> c i j m _ _ _ /= _; rewrite pnatr_eq0.
- split=> //; first by do 4?[case=> //].
  by case=> [|[|[|j]]] // _; rewrite !nth_default.
- by [].
- rewrite /arfull /finish /=.
  rewrite /full_context /slice_start /n_packed /lower_index /= !big_ord_recl !big_ord0 /=.
  by vm_compute.
Qed.

Print Assumptions C72_arfull_fast_update.
Print Assumptions C72_arfull_update_chain.
Print Assumptions C72_same_model.
Print Assumptions C24_arfull_contract.
