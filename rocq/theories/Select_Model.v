(* Selection by sorting: GPSKet/datasets/h2o.py get_H2O_dataset (L139-143), and scripts/cpd-backflow/cpd_backflow:
   systems.py L160-171 and models.py get_top_k_orbital_indices (L295-319); the batch shape of
   GPSKet/sampler/autoreg.py (L73-76, L114, L174).  np.argsort is a parameter with its contract in Select_Props. *)
From Verif Require Import Base.
From mathcomp Require Import ssrnum.
Import Num.Theory.
Local Open Scope ring_scope.

(* l[-n:] for a Python integer n *)
Definition tail_slice (T : Type) (n : int) (l : seq T) : seq T :=
  match n with
  | Posz 0 => l
  | Posz n => drop (size l - n)%N l
  | Negz n => drop n.+1 l
  end.

Section H2O.
Variables (R : realFieldType) (Cf : Type) (argsort : seq R -> seq nat).
Variables (prob : R -> R) (* np.abs(amplitudes) ** 2 *).
(* L139-143; select_largest None or 0 is false *)
Definition select_largest_of (sel : option int) (d : Cf * R) (confs : seq Cf) (amps : seq R) : seq Cf * seq R :=
  if sel is Some n then
    if n == 0 then (confs, amps)
    else let ids := tail_slice n (argsort [seq prob a | a <- amps]) in
      ([seq nth d.1 confs k | k <- ids], [seq nth d.2 amps k | k <- ids])
  else (confs, amps).
End H2O.

Section Exchange.
Variables (R : realFieldType) (norb : nat) (argsort : seq R -> seq nat).
(* systems.py L167-171: em of get_jk is in the atomic orbital basis; local: 'local' in config.basis *)
Definition saved_exchange (local : bool) (basis em : 'M[R]_norb) : 'M[R]_norb :=
  if local then basis^T *m em *m basis else em.
(* models.py L305-312 *)
Definition loaded_exchange (local : bool) (basis em : 'M[R]_norb) : 'M[R]_norb :=
  if local then basis^T *m em *m basis else em.
(* models.py L315, row i: np.flip(np.argsort(np.abs(em), axis=1)[:, -exchange_cutoff:], axis=1) *)
Definition top_k (em : 'M[R]_norb) (k : int) (i : 'I_norb) : seq nat :=
  rev (tail_slice k (argsort [seq `|em i j| | j <- enum 'I_norb])).
Definition environments (local : bool) (basis em : 'M[R]_norb) (k : int) (i : 'I_norb) : seq nat :=
  top_k (loaded_exchange local basis (saved_exchange local basis em)) k i.
End Exchange.

(* autoreg.py L114 and L174: a batch of chain_length * n_chains_per_rank rows, reshaped to
   (n_chains_per_rank, chain_length, size) *)
Definition reshape_chains (T : Type) (n_chains chain_length : nat) (batch : seq T) : seq (seq T) :=
  [seq take chain_length (drop (c * chain_length)%N batch) | c <- iota 0 n_chains].
(* L70 *)
Definition ar_sample_chain (T : Type) (draw : nat -> seq T) (n_chains chain_length : nat) : seq (seq T) :=
  reshape_chains n_chains chain_length (draw (chain_length * n_chains)%N).
(* L73-76: chain length 1, squeeze(axis=0) raises unless that axis has length one *)
Definition ar_sample_next (T : Type) (draw : nat -> seq T) (n_chains : nat) : option (seq T) :=
  let s := ar_sample_chain draw n_chains 1 in
  if s is [:: c] then Some c else None.
