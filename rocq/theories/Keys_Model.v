(* The random keys the samplers and drivers split and draw from.  A key is the path from the
   root key (PRNGKey(seed)) to it: jax.random.split(k, n)[i] is [child n i k], nothing else is
   known of the generator (two paths are two keys).  A function is modelled by the keys it
   consumes, in order: [Split k n] is jax.random.split(k, n), [Draw k] a draw (uniform, choice,
   randint, model.init) with key k; the numbers drawn play no role here.  A draw is one
   event, the splits jax makes inside choice are not shown. *)
From Verif Require Import Base Hilbert_Model Strat_Model.

Definition key := seq (nat * nat).
Definition child (n i : nat) (k : key) : key := rcons k (n, i).
Inductive event := Split of key & nat | Draw of key.

(* a loop that carries a key: one turn gives the next key and the events *)
Definition turn (f : key -> key * seq event) (s : key * seq event) : key * seq event :=
  let: (k, tr) := f s.1 in (k, s.2 ++ tr).
Definition loop (f : key -> key * seq event) (n : nat) (k : key) : key * seq event :=
  iter n (turn f) (k, [::]).

(* sampler/rules/exchange_with_update.py L15-33: one randint for all chains *)
Definition exchange_events (n_chains : nat) (k : key) : seq event := [:: Draw k].

(* sampler/rules/fermionic_hopping.py L11-41: keyA..keyD, used in the order C, A, B, D *)
Definition hop_events (k : key) : seq event :=
  [:: Split k 4; Draw (child 4 2 k); Draw (child 4 0 k); Draw (child 4 1 k); Draw (child 4 3 k)].
(* L60-66: one key per chain, vmap *)
Definition hopping_events (n_chains : nat) (k : key) : seq event :=
  Split k n_chains :: flatten [seq hop_events (child n_chains i k) | i <- iota 0 n_chains].

Section Metropolis.
Variables (rule_events : nat -> key -> seq event) (n_chains sweep_size : nat).
(* sampler/metropolis_fast.py L33-78: s["key"], key1, key2 *)
Definition body_keys (k : key) : key * seq event :=
  (child 3 0 k, Split k 3 :: rule_events n_chains (child 3 1 k) ++ [:: Draw (child 3 2 k)]).
(* L80-101: new_rng, rng *)
Definition next_keys (rng : key) : key * seq event :=
  (child 2 0 rng, Split rng 2 :: (loop body_keys sweep_size (child 2 1 rng)).2).
(* any number of calls of _sample_next *)
Definition sample_keys (calls : nat) (rng : key) : key * seq event := loop next_keys calls rng.
End Metropolis.

Section Autoreg.
Variable n_sites : nat.
(* sampler/autoreg.py L84-108, scan_fun: new_key, key *)
Definition scan_keys (k : key) : key * seq event :=
  (child 2 0 k, [:: Split k 2; Draw (child 2 1 k)]).
(* L110-177, _sample_chain: new_key, key_init, key_scan, key_symm *)
Definition ar_chain_keys (k : key) : key * seq event :=
  (child 4 0 k,
   Split k 4 :: Draw (child 4 1 k) :: (loop scan_keys n_sites (child 4 2 k)).2 ++ [:: Draw (child 4 3 k)]).
(* any number of calls *)
Definition ar_keys (calls : nat) (k : key) : key * seq event := loop ar_chain_keys calls k.
End Autoreg.

(* hilbert/random/discrete_fermion.py L17-30, scan_fun: key, subkey; the new key draws the up
   positions and is the carry of the scan *)
Definition fermion_keys (k : key) : key * seq event :=
  (child 2 0 k, [:: Split k 2; Draw (child 2 0 k); Draw (child 2 1 k)]).
Definition random_state_keys (batches : nat) (k : key) : key * seq event := loop fermion_keys batches k.

(* driver/autoreg_state_fitting.py L47-54: self._key, _ = split(self._key); choice(self._key, ..) *)
Definition batch_keys (k : key) : key * seq event :=
  (child 2 0 k, [:: Split k 2; Draw (child 2 0 k)]).
Definition fitting_keys (steps : nat) (k : key) : key * seq event := loop batch_keys steps k.

(* what random_state returns, for any generator: positions drawn with a key without replacement
   (size, number, key) *)
Section Stratified.
Variable positions : nat -> nat -> key -> seq nat.
Variables (h : hilbert) (n_up n_down : nat).
(* discrete_fermion.py L18-28, one turn of the scan *)
Definition fermion_sample (k : key) : seq nat :=
  random_sample_constrained h (positions (h_size h) n_up (child 2 0 k))
                              (positions (h_size h) n_down (child 2 1 k)).
(* L30 *)
Fixpoint random_state (batches : nat) (k : key) : seq (seq nat) :=
  if batches is b.+1 then fermion_sample k :: random_state b (child 2 0 k) else [::].

(* vqs/mc/mc_state/state_stratified_sampling.py L160-183: key = split(sampler_state.rng)[0]; the
   candidates of [rounds] turns of the while loop, each with key = split(key)[0] first *)
Fixpoint rounds_candidates (rounds n_random : nat) (k : key) : seq (seq nat) :=
  if rounds is r.+1 then
    random_state n_random (child 2 0 k) ++ rounds_candidates r n_random (child 2 0 k)
  else [::].
Definition norm_candidates (rounds n_random : nat) (rng : key) : seq (seq nat) :=
  rounds_candidates rounds n_random (child 2 0 rng).
(* the rows of random_samples: the while loop ends when n_random are found; None: the given
   number of turns is not enough *)
Definition norm_samples (det : seq (seq nat)) (rounds n_random : nat) (rng : key) : option (seq (seq nat)) :=
  random_samples det n_random (norm_candidates rounds n_random rng).
(* the keys consumed by it *)
Fixpoint rounds_events (rounds n_random : nat) (k : key) : seq event :=
  if rounds is r.+1 then
    Split k 2 :: (random_state_keys n_random (child 2 0 k)).2 ++ rounds_events r n_random (child 2 0 k)
  else [::].
Definition norm_events (rounds n_random : nat) (rng : key) : seq event :=
  Split rng 2 :: rounds_events rounds n_random (child 2 0 rng).
End Stratified.
