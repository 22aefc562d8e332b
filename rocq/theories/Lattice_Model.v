(* Hubbard lattices of the scripts: scripts/ARGPS/argps/systems.py get_Hubbard_system (L147-160) and
   scripts/cpd-backflow/cpd_backflow/systems.py get_FermiHubbard_system (L215-231).  The edges of
   nk.graph.Chain / Grid are a library's: arguments. *)
From Verif Require Import Base.
Local Open Scope ring_scope.

Section Lattice.
Variable F : fieldType.
Implicit Types (edges : seq (nat * nat)) (pbc : bool).
(* argps L155 *)
Definition argps_edges (L : nat) : seq (nat * nat) := [seq (i, (i + 1) %% L)%N | i <- iota 0 L].
(* t[-1] *= -1 *)
Definition flip_last (t : seq F) : seq F := set_nth 0 t (size t).-1 (nth 0 t (size t).-1 * -1).
(* argps L156-158 *)
Definition argps_t (L : nat) pbc (t : F) : seq F :=
  let l := nseq L (t * 1) in if pbc && (L %% 4 == 0)%N then flip_last l else l.

(* cpd-backflow L220: np.ones(edges.shape[0]) * config.t; L229-231 for chains *)
Definition chain_t (Lx : nat) edges pbc (t : F) : seq F :=
  let l := nseq (size edges) (1 * t) in if pbc && (Lx %% 4 == 0)%N then flip_last l else l.
(* np.abs(a - b) of two site indices *)
Definition distn (a b : nat) : nat := `|a%:Z - b%:Z|%N.
(* L221-226 *)
Definition grid_t (Lx Ly : nat) edges (apbc : bool) (t : F) : seq F :=
  [seq if apbc && (distn e.1 e.2 %/ Ly == Lx - 1)%N then 1 * t * -1 else 1 * t | e <- edges].
End Lattice.
