(* GPSKet/operator/hamiltonian/J1J2.py: get_J1_J2_Hamiltonian (L17-54).  Library contracts: the coloured edges of
   nk.graph.Chain / Grid are arguments (colour 0: nearest, 1: next-nearest neighbours); nk.operator.Heisenberg
   puts J (sz sz +- exchange) on every edge, with minus if the sign rule of its colour is set; the constructor of
   nk.operator.LocalOperator takes hilbert, operators, acting_on, constant and dtype, and raises for J. *)
From Verif Require Import Base.
Local Open Scope ring_scope.

Section Build.
Variable F : fieldType.
(* netket: sz_sz and exchange, basis of two spins up-up, up-down, down-up, down-down or its reverse *)
Definition sz_sz (a b : nat) : F := if a != b then 0 else if (a == 0%N) || (a == 3%N) then 1 else -1.
Definition exchange (a b : nat) : F := if (a, b) \in [:: (1, 2); (2, 1)]%N then 2%:R else 0.
Definition bond_op (J : F) (sign_rule : bool) (a b : nat) : F :=
  J * (if sign_rule then sz_sz a b - exchange a b else sz_sz a b + exchange a b).
(* an edge: its ends and its colour *)
Definition netket_heisenberg (edges : seq (nat * nat * nat)) (J : seq F) (sign_rule : seq bool) : seq ((nat -> nat -> F) * (nat * nat)) :=
  [seq (bond_op (nth 0 J e.2) (nth false sign_rule e.2), e.1) | e <- edges].

(* L13-14 with the keywords of L49-52: the constructor of LocalOperator does not know J and sign_rule *)
Definition heisenberg_on_the_fly (edges : seq (nat * nat * nat)) (J : seq F) (sign_rule : seq bool) : option (seq ((nat -> nat -> F) * (nat * nat))) := None.

(* L27-54: [graph k] are the edges for max_neighbor_order = k; sign_rule has one entry for each coupling *)
Definition get_J1_J2_Hamiltonian (graph : nat -> seq (nat * nat * nat)) (J1 J2 : F) (sign_rule : seq bool) (on_the_fly_en : bool)
    : option (seq ((nat -> nat -> F) * (nat * nat))) :=
  let g := graph (if J2 != 0 then 2%N else 1%N) in
  let classtype := if on_the_fly_en then heisenberg_on_the_fly else fun e J s => Some (netket_heisenberg e J s) in
  if J2 != 0 then classtype g [:: J1 / 4%:R; J2 / 4%:R] sign_rule else classtype g [:: J1 / 4%:R] sign_rule.
End Build.
