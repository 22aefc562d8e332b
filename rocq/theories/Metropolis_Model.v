(* sampler/metropolis_fast.py L18-101, MetropolisFastSampler._sample_next.
   A configuration is a seq of occupancies; the per-chain leading axis of every array
   (configurations, cached intermediates, log-probabilities) is a seq with one entry per
   chain.  Random keys are elements of an arbitrary type with the splitting and drawing
   functions as parameters.  Only the real part of the log-amplitude is used (L52, L88), so
   [full] and [fast] return it; -inf / NaN are not modelled.  np.exp is the parameter
   [expf]. *)
From Verif Require Import Base.
Import Num.Theory Order.TTheory.
Local Open Scope ring_scope.

Section Sampler.
Variables (F : realFieldType) (T : Type) (d : T) (Cache Key : Type).
Variable expf : F -> F.
(* jax.random.split(key, 3) (L35) and jax.random.split(key) (L80) *)
Variables (split3 : Key -> Key * Key * Key) (split2 : Key -> Key * Key).
(* jax.random.uniform(key2, shape=(n_chains_per_rank,)) (L54) *)
Variable uniform : Key -> seq F.
(* sampler.rule.transition (L37-39): proposals, log_prob_correction, update_sites *)
Variable transition : Key -> seq (seq T) -> seq (seq T) * option (seq F) * seq (seq nat).
(* machine.apply on full configurations with cache_intermediates=True (L81-83), per chain *)
Variable full : seq T -> F * Cache.
(* machine.apply on the updated occupancies with update_sites and the cache (L45-51), per chain *)
Variable fast : Cache -> seq T -> seq nat -> F * Cache.
Variables (machine_pow : F) (sweep_size n_chains : nat).

Record lstate := LState
  { ls_key : Key; ls_conf : seq (seq T); ls_cache : seq Cache; ls_logp : seq F; ls_acc : nat }.

(* jnp.where(mask, a, b) entry by entry *)
Definition where_ (A : Type) (m : seq bool) (a b : seq A) : seq A :=
  [seq (if p.1 then p.2.1 else p.2.2) | p <- zip m (zip a b)].

(* L55-60 *)
Definition accept (us : seq F) (prop cur : seq F) (corr : option (seq F)) : seq bool :=
  match corr with
  | Some cs => [seq (p.1 < expf (p.2.1.1 - p.2.1.2 + p.2.2)) | p <- zip us (zip (zip prop cur) cs)]
  | None => [seq (p.1 < expf (p.2.1 - p.2.2)) | p <- zip us (zip prop cur)]
  end.

(* L33-78 *)
Definition loop_body (s : lstate) : lstate :=
  let: (k, k1, k2) := split3 (ls_key s) in
  let: (confp, corr, sites) := transition k1 (ls_conf s) in
  (* L42-44: updated_occupancy = vmap(take)(σp, update_sites) *)
  let updated : seq (seq T) := [seq [seq nth d p.1 i | i <- p.2] | p <- zip confp sites] in
  let out : seq (F * Cache) :=
    [seq fast p.1 p.2.1 p.2.2 | p <- zip (ls_cache s) (zip updated sites)] in
  let prop : seq F := [seq machine_pow * o.1 | o <- out] in
  let acc : seq bool := accept (uniform k2) prop (ls_logp s) corr in
  LState k
    (where_ acc confp (ls_conf s))
    (* L65-70: tree_map(update, new cache, old cache): new where accepted *)
    (where_ acc (map snd out) (ls_cache s))
    (where_ acc prop (ls_logp s))
    (ls_acc s + count id acc).

Record sstate := SState { st_rng : Key; st_conf : seq (seq T); st_acc : nat; st_steps : nat }.

(* L80-101 *)
Definition init_loop (st : sstate) : lstate :=
  let out : seq (F * Cache) := map full (st_conf st) in
  LState (split2 (st_rng st)).2 (st_conf st) (map snd out)
         [seq machine_pow * o.1 | o <- out] (st_acc st).
Definition sample_next (st : sstate) : sstate :=
  let s := iter sweep_size loop_body (init_loop st) in
  SState (split2 (st_rng st)).1 (ls_conf s) (ls_acc s) (st_steps st + sweep_size * n_chains).
End Sampler.
