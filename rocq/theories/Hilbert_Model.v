(* hilbert/discrete_fermion.py and hilbert/random/discrete_fermion.py *)
From Verif Require Import Base.

(* n_elec and size as stored by FermionicSumConstraint (L11-17) *)
Record constraint := Constraint { c_size : nat; c_n_elec : nat * nat }.

(* L19-29: the two jnp.where chains, then the sums *)
Definition x_up (o : nat) : nat := if o == 1 then 1 else if o == 3 then 1 else 0.
Definition x_dn (o : nat) : nat := if o == 2 then 1 else if o == 3 then 1 else 0.
Definition constraint_call (c : constraint) (x : seq nat) : bool :=
  (sumn (map x_up x) == (c_n_elec c).1) && (sumn (map x_dn x) == (c_n_elec c).2).

(* L31-32: hash(("FermionicSumConstraint", self.n_elec)); the Python hash of a tuple is an
   arbitrary function of its contents *)
Definition constraint_hash (H : Type) (hash : nat * nat -> H) (c : constraint) : H := hash (c_n_elec c).
(* L34-37 *)
Definition constraint_eq (c c' : constraint) : bool :=
  (c_size c == c_size c') && (c_n_elec c == c_n_elec c').

(* FermionicDiscreteHilbert(N, n_elec), L40-53 *)
Record hilbert := Hilbert { h_size : nat; h_n_elec : option (nat * nat) }.
Definition h_constraint (h : hilbert) : option constraint :=
  if h_n_elec h is Some ne then Some (Constraint (h_size h) ne) else None.
(* configurations of the space: local states 0..3 on each site, satisfying the constraint *)
Definition h_contains (h : hilbert) (x : seq nat) : bool :=
  [&& size x == h_size h, all (fun o => o < 4) x &
      if h_constraint h is Some c then constraint_call c x else true].

(* __pow__, L56-62: on the constrained branch `n_elec` is read before it is assigned, which
   raises UnboundLocalError (None); note `if .. : n_elec = None` makes it a local variable *)
Definition h_pow (h : hilbert) (n : nat) : option hilbert :=
  if h_n_elec h is None then Some (Hilbert (h_size h * n) None) else None.

(* random_state, hilbert/random/discrete_fermion.py L10-31, one sample.
   out.at[pos].add(v): scatter-add *)
Definition scatter_add (out : seq nat) (pos : seq nat) (v : nat) : seq nat :=
  foldl (fun o p => set_nth 0 o p (nth 0 o p + v)) out pos.
Definition random_sample_constrained (h : hilbert) (up_pos down_pos : seq nat) : seq nat :=
  scatter_add (scatter_add (nseq (h_size h) 0) up_pos 1) down_pos 2.
(* jax.random.choice(key, size, shape=(k,), replace=False): k distinct sites; raises when
   k > size *)
Definition distinct_draw (n k : nat) (pos : seq nat) : bool :=
  [&& size pos == k, uniq pos & all (fun p => p < n) pos].
(* whole batch: `batches` samples; unconstrained spaces draw every entry from local_states
   0..3 (L13-14) *)
Definition random_state_constrained (h : hilbert) (draws : seq (seq nat * seq nat)) : seq (seq nat) :=
  [seq random_sample_constrained h d.1 d.2 | d <- draws].
Definition random_state_free (h : hilbert) (draws : seq (seq nat)) : seq (seq nat) := draws.
