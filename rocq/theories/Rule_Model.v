(* Metropolis proposal rules: fermionic hopping/exchange (sampler/rules/fermionic_hopping.py)
   and the exchange rule with updates (sampler/rules/exchange_with_update.py).
   Random draws are arguments; their exact probabilities are [move_prob] below. *)
From Verif Require Import Base Occ_Model Choice_Model.
Import Num.Theory Order.TTheory.
Local Open Scope ring_scope.

Section HopRule.
Variable F : realFieldType.
Implicit Types (x : cfg).

(* L13-15: occ = is_occ_up + is_occ_down, as an integer *)
Definition occ_num (o : nat) : nat := (has o 1 + has o 2)%N.
(* jnp.logical_and(occ != 2, occ != 0), L21 and L32 *)
Definition single (o : nat) : bool := (occ_num o != 2)%N && (occ_num o != 0)%N.

(* L17-19: weights of hopping (false) and exchange (true) *)
Definition kind_weights (hop_probability : F) : seq F := [:: hop_probability; 1 - hop_probability].
(* L20-23: occ_prob *)
Definition start_weights (exch : bool) x : seq F :=
  [seq (if exch then (single o : nat)%:R else (occ_num o)%:R) | o <- x].
(* L24: spin_probs *)
Definition spin_weights x (start : nat) : seq F :=
  [:: (has (nth 0%N x start) 1 : nat)%:R; (has (nth 0%N x start) 2 : nat)%:R].
(* L28-34: target_site_probs, booleans *)
Definition target_ok (exch : bool) (spin : nat) (o : nat) : bool :=
  if exch then single o && ~~ has o spin else ~~ has o spin.
Definition target_mask (exch : bool) (spin : nat) x : seq bool := map (target_ok exch spin) x.
(* L35-40: weights of the target draw; with transition_probs the row of the start site *)
Definition target_weights (tp : option (seq (seq F))) (exch : bool) (spin start : nat) x : seq F :=
  match tp with
  | Some t => nth [::] t start
  | None => [seq (nat_of_bool b)%:R | b <- target_mask exch spin x]
  end.
(* L41-44: fall back to the start site when the drawn target is not allowed *)
Definition real_target (exch : bool) (spin start drawn : nat) x : nat :=
  if nth false (target_mask exch spin x) drawn then drawn else start.
(* L45-57: the new configuration from the drawn kind, start site, spin (1 or 2) and target *)
Definition hop_move (exch : bool) (start spin drawn : nat) x : cfg :=
  let target := real_target exch spin start drawn x in
  let updated : cfg := add_at (add_at x start (- (spin%:Z))) target (spin%:Z) in
  if exch then add_at (add_at updated start ((3 - spin)%N%:Z)) target (- ((3 - spin)%N%:Z))
  else updated.

(* the draws of one call of apply_electron_hop: kind, start site, spin, target site *)
Definition draws := (bool * nat * nat * nat)%type.

(* L11-58: configuration, start site, target site *)
Definition apply_electron_hop x (d : draws) : cfg * nat * nat :=
  let: (exch, start, spin, drawn) := d in
  (hop_move exch start spin drawn x, start, real_target exch spin start drawn x).

(* Probability of the draws: keyC, keyA, keyB, keyD are independent; the spin is drawn from
   arange(0,2) and 1 is added (L25-27). *)
Definition move_prob (hop_probability : F) (tp : option (seq (seq F))) x (d : draws) : F :=
  let: (exch, start, spin, drawn) := d in
  if (1 <= spin)%N then
    choice_prob (kind_weights hop_probability) (exch : nat)
    * choice_prob (start_weights exch x) start
    * choice_prob (spin_weights x start) spin.-1
    * choice_prob (target_weights tp exch spin start x) drawn
  else 0.

(* Probability that one call proposes y from x: sum over all draws *)
Definition propose_prob (hop_probability : F) (tp : option (seq (seq F))) x (y : cfg) : F :=
  \sum_(exch <- [:: false; true]) \sum_(start < size x) \sum_(spin <- [:: 1; 2]%N) \sum_(drawn < size x)
    move_prob hop_probability tp x (exch, start : nat, spin, drawn : nat)
    * (((apply_electron_hop x (exch, start : nat, spin, drawn : nat)).1.1 == y) : nat)%:R.

(* L60-73: vmap over the chains; log_prob_correction is None; update_sites stacks the start
   and target sites.  The casts to and from uint8 are the identity on occupancies. *)
Definition transition_function (xs : seq cfg) (ds : seq draws)
  : seq cfg * option (seq F) * seq (nat * nat) :=
  let rs := [seq apply_electron_hop xd.1 xd.2 | xd <- zip xs ds] in
  ([seq r.1.1 | r <- rs], None, [seq (r.1.2, r.2) | r <- rs]).

(* sampler/fermionic_hopping.py L17-18 and L38-39: the only check on transition_probs:
   not np.any(transition_probs - transition_probs.T) *)
Definition transition_probs_accepted (n : nat) (t : seq (seq F)) : bool :=
  [&& size t == n, all (fun r => size r == n) t &
      all (fun i => all (fun j => nth 0 (nth [::] t i) j - nth 0 (nth [::] t j) i == 0) (iota 0 n)) (iota 0 n)].
End HopRule.

Section Exchange.
Variables (F : realFieldType) (T : Type) (d : T).
(* sampler/rules/exchange_with_update.py L23-29, scalar_update_fun *)
Definition exchange_update (clusters : seq (nat * nat)) (x : seq T) (cluster : nat)
  : seq T * nat * nat :=
  let si := (nth (0, 0)%N clusters cluster).1 in
  let sj := (nth (0, 0)%N clusters cluster).2 in
  let xp := set_nth d x si (nth d x sj) in
  (set_nth d xp sj (nth d x si), si, sj).
(* L15-33: one cluster id per chain, uniform over the clusters *)
Definition exchange_transition (clusters : seq (nat * nat)) (xs : seq (seq T)) (ids : seq nat)
  : seq (seq T) * option (seq F) * seq (nat * nat) :=
  let rs := [seq exchange_update clusters xc.1 xc.2 | xc <- zip xs ids] in
  ([seq r.1.1 | r <- rs], None, [seq (r.1.2, r.2) | r <- rs]).
End Exchange.

(* probability of proposing y from x: jax.random.randint(minval=0, maxval=len(clusters)) is
   uniform (L18-20) *)
Definition exchange_prob (F : realFieldType) (T : eqType) (d : T) (clusters : seq (nat * nat))
  (x y : seq T) : F :=
  \sum_(c < size clusters)
     (size clusters)%:R^-1 * (((exchange_update d clusters x c).1.1 == y) : nat)%:R.
