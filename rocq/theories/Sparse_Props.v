(* Property theorems C12, C13. *)
From Verif Require Import Base Fock_Spec Fock_Proofs Occ_Model Occ_Spec Hopping_Model.
From Verif Require Import AbInitio_Model AbInitioOtf_Model AbInitio_Lemmas2 Sparse_Model Sparse_Csr Sparse_Energy Update_Proto Fast_Contract.
Local Open Scope ring_scope.

(* C12: the energy of the sparse storage is the molecular Hamiltonian applied to psi ... *)
Theorem C12_sparse_energy_hamiltonian (F : fieldType) (half : F) h eri (fast : option (seq nat -> seq nat -> F)) (psi : cfg -> F) x n_elecs L :
  half + half = 1 -> fast_ok fast psi x -> valid x -> size x = L -> n_elecs = (n_spin Up x, n_spin Dn x) -> psi x != 0 ->
  (forall p q r s, (p < L)%N -> (q < L)%N -> (r < L)%N -> (s < L)%N -> eri p q r s = eri r s p q) ->
  sp_otf n_elecs (h1_csr L h) (h2_csr L eri) fast psi x * psi x
  = molecular L half h eri (fun f => psi (cfg_of f)) (fock_of x).
Proof. by move=> h2 Hf Hv <- -> Hp He; apply: sp_otfE. Qed.
Print Assumptions C12_sparse_energy_hamiltonian.

(* ... hence the same number as the dense on-the-fly evaluation *)
Theorem C12_sparse_energy_equals_dense (F : fieldType) (half : F) h eri (fast : option (seq nat -> seq nat -> F)) (psi : cfg -> F) x n_elecs L :
  half + half = 1 -> fast_ok fast psi x -> valid x -> size x = L -> n_elecs = (n_spin Up x, n_spin Dn x) -> psi x != 0 ->
  (forall p q r s, (p < L)%N -> (q < L)%N -> (r < L)%N -> (s < L)%N -> eri p q r s = eri r s p q) ->
  sp_otf n_elecs (h1_csr L h) (h2_csr L eri) fast psi x = ab_otf half n_elecs (t_mat half L h eri) eri fast psi x.
Proof.
move=> h2 Hf Hv HL Hn Hp He; apply: (mulIf Hp).
by rewrite (C10_lemma _ h2 Hf Hv HL Hn Hp He) (C12_sparse_energy_hamiltonian _ h2 Hf Hv HL Hn Hp He).
Qed.
Print Assumptions C12_sparse_energy_equals_dense.

(* C13 *)
Theorem C13_one_body_storage_lossless (R : comRingType) n (h : nat -> nat -> R) :
  let: (rng, ids, vals) := h1_csr n h in
  [/\ size rng = n.+1, nth 0%N rng 0 = 0%N, nth 0%N rng n = size ids, size vals = size ids &
  forall i, (i < n)%N ->
    let row := [seq a <- iota 0 n | h i a != 0] in
    [/\ nth 0%N rng i.+1 = (nth 0%N rng i + size row)%N,
        take (nth 0%N rng i.+1 - nth 0%N rng i) (drop (nth 0%N rng i) ids) = row &
        take (nth 0%N rng i.+1 - nth 0%N rng i) (drop (nth 0%N rng i) vals) = [seq h i a | a <- row]]].
Proof. exact: h1_csrE. Qed.
Print Assumptions C13_one_body_storage_lossless.

Theorem C13_two_body_storage_lossless (R : comRingType) n (eri : nat -> nat -> nat -> nat -> R) :
  let: (rng, ids, vals) := h2_csr n eri in
  [/\ size rng = n /\ all (fun r => size r == n.+1) rng,
      (0 < n)%N -> nth 0%N (nth [::] rng 0) 0 = 0%N /\ nth 0%N (nth [::] rng n.-1) n = size ids,
      size vals = size ids,
      forall i, (i.+1 < n)%N -> nth 0%N (nth [::] rng i.+1) 0 = nth 0%N (nth [::] rng i) n &
  forall i j, (i < n)%N -> (j < n)%N ->
    let row := [seq p <- [seq (a, b) | a <- iota 0 n, b <- iota 0 n] | eri i p.1 j p.2 != 0] in
    let lo := nth 0%N (nth [::] rng i) j in let hi := nth 0%N (nth [::] rng i) j.+1 in
    [/\ hi = (lo + size row)%N, take (hi - lo) (drop lo ids) = row &
        take (hi - lo) (drop lo vals) = [seq eri i p.1 j p.2 | p <- row]]].
Proof.
have := h2_csrE n eri; case: (h2_csr n eri) => -[rng ids] vals [S A B C D].
by split=> //; move: S => /andP [/eqP -> ->].
Qed.
Print Assumptions C13_two_body_storage_lossless.

(* orbital 1 has an empty row *)
Example C13_example :
  h1_csr 3 (fun p q => if (p == 1)%N then 0 else (p + q)%:R : rat)
  = ([:: 0; 2; 2; 5]%N, [:: 1; 2; 0; 1; 2]%N, [:: 1; 2%:R; 2%:R; 3%:R; 4%:R])
  /\ h2_csr 2 (fun p q r s => if (p + q + r + s == 2)%N then (p + 2 * r)%:R + 1 else 0 : rat)
  = ([:: [:: 0; 1; 3]; [:: 3; 5; 6]]%N, [:: (1, 1); (0, 1); (1, 0); (0, 1); (1, 0); (0, 0)]%N,
     [:: 1; 3%:R; 3%:R; 2%:R; 2%:R; 4%:R]).
Proof. by split; vm_compute. Qed.

(* a doubly occupied orbital: two single excitations and the double one *)
Example C12_example :
  let psi (y : cfg) : rat := (1 + 2 * nth 0%N y 0 + nth 0%N y 1)%:R in
  let h (p q : nat) : rat := (p == 0%N)%:R * (q == 1%N)%:R in
  let e (p q r s : nat) : rat := if [&& p == 0, q == 1, r == 0 & s == 1]%N then 3%:R else 0 in
  sp_otf (1, 1)%N (h1_csr 2 h) (h2_csr 2 e) None psi [:: 3; 0]%N = 23%:R / 7%:R.
Proof. by rewrite /sp_otf !unlock; vm_compute. Qed.
