(* Drawing an index from a list of weights: GPSKet's batch_choice, and the algorithm of
   jax.random.choice that the hopping rule relies on. *)
From Verif Require Import Base.
Import Num.Theory Order.TTheory.
Local Open Scope ring_scope.

Section Choice.
Variable F : realFieldType.

(* p.cumsum(axis=1) of one row, sampler/autoreg.py L24; jnp.cumsum(p) in jax *)
Definition cumsum (p : seq F) : seq F := scanl +%R 0 p.

(* One row of sampler/autoreg.py L24-27, batch_choice: u is jax.random.uniform's draw for
   the row;  r = p_cumsum[-1] * u;  index = (r > p_cumsum).sum() *)
Definition batch_index (p : seq F) (u : F) : nat :=
  let r : F := last 0 (cumsum p) * u in
  count (fun c => c < r) (cumsum p).

(* sampler/autoreg.py L10-28: all rows, one draw per row; a[indices].  Gathering past the
   end of `a` is clamped by jax; the model uses a default instead, and the theorems show
   that it never happens. *)
Definition batch_choice (T : Type) (dflt : T) (a : seq T) (p : seq (seq F)) (us : seq F) : seq T :=
  [seq nth dflt a (batch_index pu.1 pu.2) | pu <- zip p us].

(* jax.random.choice(key, n, p=p) (external library, jax/_src/random.py `choice` with p and
   replace=True): p_cuml = cumsum(p); r = p_cuml[-1] * (1 - uniform(key));
   searchsorted(p_cuml, r), i.e. the number of entries smaller than r. *)
Definition jax_choice (p : seq F) (u : F) : nat :=
  let r : F := last 0 (cumsum p) * (1 - u) in
  count (fun c => c < r) (cumsum p).

(* Probability that jax_choice returns i: all-zero weights give index 0.  That this is the
   length of the set of draws u in [0,1) with jax_choice p u = i is proved in
   Choice_Proofs. *)
Definition choice_prob (p : seq F) (i : nat) : F :=
  let total : F := last 0 (cumsum p) in
  if total == 0 then (i == 0%N)%:R else nth 0 p i / total.
End Choice.
