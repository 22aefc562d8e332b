(* Independent specification: fermionic Fock space on L sites with two spin species,
   all up orbitals ordered before all down orbitals, sites in increasing order.
   A basis state is a pair of bit lists (up, down).  Ladder operators act on wave
   functions psi : fock -> R.  Nothing here refers to the code. *)
From Verif Require Import Base.

Inductive spin := Up | Dn.

Definition fock := (seq bool * seq bool)%type.

Definition species (s : spin) (x : fock) : seq bool := if s is Up then x.1 else x.2.

Definition occ (s : spin) (i : nat) (x : fock) : bool := nth false (species s x) i.

Definition setocc (s : spin) (i : nat) (b : bool) (x : fock) : fock :=
  if s is Up then (set_nth false x.1 i b, x.2) else (x.1, set_nth false x.2 i b).

Definition num (l : seq bool) : nat := count id l.

(* number of electrons that precede orbital (s,i) in the ordering *)
Definition before (s : spin) (i : nat) (x : fock) : nat :=
  if s is Up then num (take i x.1) else num x.1 + num (take i x.2).

Section Ops.
Variable R : comRingType.
Local Open Scope ring_scope.
Implicit Types (psi : fock -> R).

Definition sgn (n : nat) : R := (-1) ^+ n.

(* (annih s i psi) x = <x| c_{s,i} |psi>,  (creat s i psi) x = <x| c+_{s,i} |psi> *)
Definition annih s i psi : fock -> R := fun x =>
  if occ s i x then 0 else sgn (before s i x) * psi (setocc s i true x).
Definition creat s i psi : fock -> R := fun x =>
  if occ s i x then sgn (before s i x) * psi (setocc s i false x) else 0.

Definition number s i psi : fock -> R := creat s i (annih s i psi).

(* one-body excitation operator c+_{s,p} c_{s,q} *)
Definition hop s p q psi : fock -> R := creat s p (annih s q psi).

(* well formed basis state of L sites, and the electron sector *)
Definition on_sites (L : nat) (x : fock) : Prop := size x.1 = L /\ size x.2 = L.
Definition n_up (x : fock) := num x.1.
Definition n_dn (x : fock) := num x.2.

(* Fermi-Hubbard Hamiltonian: edges carry their own hopping amplitude *)
Definition hubbard (L : nat) (edges : seq ((nat * nat) * R)) (U : R) psi : fock -> R := fun x =>
  (\sum_(e <- edges) - e.2 *
     (\sum_(s <- [:: Up; Dn]) (hop s e.1.1 e.1.2 psi x + hop s e.1.2 e.1.1 psi x)))
  + U * \sum_(i < L) number Up i (number Dn i psi) x.

(* molecular Hamiltonian in normal ordered form:
   sum_{pq,s} h_pq c+_ps c_qs + 1/2 sum_{pqrs,s,s'} (pq|rs) c+_ps c+_rs' c_ss' c_qs *)
Definition molecular (L : nat) (half : R) (h : nat -> nat -> R)
    (eri : nat -> nat -> nat -> nat -> R) psi : fock -> R := fun x =>
  (\sum_(s <- [:: Up; Dn]) \sum_(p < L) \sum_(q < L) h p q * hop s p q psi x)
  + half * (\sum_(s <- [:: Up; Dn]) \sum_(s' <- [:: Up; Dn])
      \sum_(p < L) \sum_(q < L) \sum_(r < L) \sum_(t < L)
        eri p q r t * creat s p (creat s' r (annih s' t (annih s q psi))) x).
End Ops.
