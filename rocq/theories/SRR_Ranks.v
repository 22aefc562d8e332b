(* C65: the two SR drivers flatten the array of local energies in different ways, for each layout of
   state.local_estimators one of them pairs samples with energies of other samples.
   C66: the broadcast of the update in SRRMSProp. *)
From Verif Require Import Base MinSR_Model MinSR_Proofs MinSR_Props SRR_Model SRR_Props.
Import Num.Theory Order.TTheory.
Local Open Scope ring_scope.

Section Layout.
Variables (C : fieldType) (T : Type) (eloc : T -> C).

(* VMC_SRRMSProp.py L197 and L25: self.state.local_estimators(self._ham) flattened as it is, the
   samples by _flatten_samples, L80-82 and L201 *)
Definition srr_energies (transposed : bool) (rk : rank_state C T) : seq C :=
  flatten (local_estimators eloc transposed rk).
End Layout.

Definition rectangular (C : fieldType) (T : Type) (rk : rank_state C T) : bool :=
  all (fun row => size row == size (head [::] (samples rk))) (samples rk).

(* each driver is right for one of the layouts *)
Theorem C65_partial (C : fieldType) (T : eqType) (eloc : T -> C) (rk : rank_state C T) :
  (rectangular rk -> loc_ens eloc true rk = map eloc (flat rk)) /\
  srr_energies eloc false rk = map eloc (flat rk).
Proof.
split; first exact: loc_ensE.
by rewrite /srr_energies /local_estimators /flat seq.map_flatten.
Qed.

(* and wrong for the other one, already for two chains of two samples *)
Theorem C65_refuted (transposed : bool) :
  exists (rk : rank_state [fieldType of rat] nat) (eloc : nat -> rat), rectangular rk /\
    ~ (loc_ens eloc transposed rk = map eloc (flat rk) /\ srr_energies eloc transposed rk = map eloc (flat rk)).
Proof.
exists (RankState [:: [:: 0; 1]; [:: 2; 3]]%N (nseq 4 (1 / 4%:R))), (fun k => k%:R); split=> //.
by case: transposed => -[]; rewrite /loc_ens /srr_energies /local_estimators /transpose /flat /=.
Qed.

(* --- C66 *)
Section Broadcast.
Variables (R : rcfType) (P : nat).

(* every rank returns the update of rank 0: with one rank, or in mode "real" if the ranks happen to
   hold as many samples as there are parameters *)
Theorem C66_partial (complex_mode : bool) (ranks : seq (rank_data R P)) (em : R * R) (ema : 'cV[R]_P)
    (step : nat) (shift decay eps : R) (solver : 'M[R]_P -> 'cV[R]_P -> 'cV[R]_P) :
  (0 < size ranks)%N ->
  size ranks = 1%N \/ (~~ complex_mode /\ all (fun rk => size (energies rk) == P) ranks) ->
  updates_of_ranks complex_mode ranks em ema step shift decay eps solver =
  nseq (size ranks) (Some (- root_updates complex_mode ranks em ema step shift decay eps solver)).
Proof.
case: ranks => // rk0 l _ H; rewrite /updates_of_ranks /=; congr (_ :: _).
case: H => [[/size0nil ->]|[/negPf Hc /= /andP[_ Hl]]] //; move: Hl.
rewrite /bcast_received Hc; move: (root_updates _ _ _ _ _ _ _ _ _) => u.
by elim: l => //= rk l' IH /andP[Hrk /IH ->]; rewrite Hrk.
Qed.

(* two ranks with two samples each and one parameter: the second rank gets nothing in mode "real";
   in mode "complex" no other rank ever does *)
Theorem C66_refuted (ema : 'cV[R]_1) (em : R * R) (step : nat) (shift decay eps : R)
    (solver : 'M[R]_1 -> 'cV[R]_1 -> 'cV[R]_1) :
  exists ranks : seq (rank_data R 1), equal_shapes ranks 2 /\
    forall complex_mode, None \in updates_of_ranks complex_mode ranks em ema step shift decay eps solver.
Proof.
exists [:: w_rank R; w_rank R]; split=> //; case; rewrite /updates_of_ranks /= !inE //.
Qed.
Theorem C66_complex_fails (ranks : seq (rank_data R P)) (em : R * R) (ema : 'cV[R]_P)
    (step : nat) (shift decay eps : R) (solver : 'M[R]_P -> 'cV[R]_P -> 'cV[R]_P) (r : nat) :
  (0 < r < size ranks)%N -> nth None (updates_of_ranks true ranks em ema step shift decay eps solver) r = None.
Proof.
case: ranks => [|rk0 l]; case: r => [|r] // Hr; rewrite /updates_of_ranks.
by rewrite [X in X = _]/= (nth_map rk0).
Qed.
End Broadcast.
(* L72-74: the update of complex parameters, from the vector of all real parts followed by all
   imaginary parts (the order of the columns of nkjax.jacobian(..., dense=True)) *)
Theorem C66_repack (R : rcfType) (z : seq (R * R)) : repack (map fst z ++ map snd z) = z.
Proof.
rewrite /repack size_cat !size_map addnn -muln2 mulnK // take_size_cat ?size_map //.
by rewrite drop_size_cat ?size_map // -/unzip1 -/unzip2 zip_unzip.
Qed.

Example C65_example (rk := RankState [:: [:: 0; 1]; [:: 2; 3]]%N (nseq 4 (1 / 4%:R)) : rank_state [fieldType of rat] nat)
    (e := fun k : nat => k%:R : rat) :
  srr_energies e false rk = [seq e k | k <- [:: 0; 1; 2; 3]%N] /\
  srr_energies e true rk = [seq e k | k <- [:: 0; 2; 1; 3]%N].
Proof. by split; vm_compute. Qed.

Example C66_example (R : rcfType) (solver : 'M[R]_1 -> 'cV[R]_1 -> 'cV[R]_1)
    (rk := RankData [:: const_mx 2%:R] [:: 0] [:: (1, 0)] : rank_data R 1) :
  size (updates_of_ranks false [:: rk; rk; rk] (1, 0) 0 0 1 0 1 solver) = 3%N /\
  None \notin updates_of_ranks false [:: rk; rk; rk] (1, 0) 0 0 1 0 1 solver.
Proof. by rewrite C66_partial //; right. Qed.
