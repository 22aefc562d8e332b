(* Property theorems C01-C07 (Hubbard part of C04).  Only statements, closed by lemmas. *)
From Verif Require Import Base Fock_Spec Fock_Proofs Occ_Model Occ_Spec Hopping_Model Hopping_Proofs.
From Verif Require Import Buffer_Proofs Update_Proto Fast_Contract Hubbard_Model Hubbard_Proofs Hubbard_Lemmas.
Local Open Scope ring_scope.

(* Sanity of the specification: the ladder operators of Fock_Spec satisfy the canonical
   anticommutation relations and are mutually adjoint. *)
Theorem fock_spec_car (R : comRingType) L s t i j (psi : fock -> R) x :
  on_sites L x -> (i < L)%N -> (j < L)%N ->
  [/\ annih s i (annih t j psi) x + annih t j (annih s i psi) x = 0,
      creat s i (creat t j psi) x + creat t j (creat s i psi) x = 0 &
      annih s i (creat t j psi) x + creat t j (annih s i psi) x
        = if (s == t) && (i == j) then psi x else 0].
Proof. exact: fock_spec_car_lemma. Qed.
Print Assumptions fock_spec_car.

Theorem fock_spec_adjoint (R : comRingType) L s i x y :
  on_sites L x -> on_sites L y -> (i < L)%N ->
  annih s i (fun z => (z == y)%:R : R) x = creat s i (fun z => (z == x)%:R : R) y.
Proof. exact: annih_creat_adj. Qed.
Print Assumptions fock_spec_adjoint.

(* C01, for every wave function: multiplicator * psi(x') = <x| c+_a c_c |psi>. *)
Theorem C01_apply_hopping_is_fermionic_hop (R : comRingType) (s : spin) a c x (psi : fock -> R) :
  valid x -> (a < size x)%N -> (c < size x)%N ->
  let: (m, x') := apply_hopping a c x (spin_int s) (Some (cumcount (spin_int s) x)) in
  [/\ m%:~R * psi (fock_of x') = hop s a c psi (fock_of x),
      m \in [:: 0; 1; -1] /\ (m = 0 -> x' = x), valid x', size x' = size x
    & forall t, n_spin t x' = n_spin t x].
Proof. exact: C01_lemma. Qed.
Print Assumptions C01_apply_hopping_is_fermionic_hop.

(* C01, ket form: c+_c c_a |x> = m |x'>. *)
Theorem C01_apply_hopping_ket (R : comRingType) (s : spin) a c x (y : fock) :
  valid x -> (a < size x)%N -> (c < size x)%N -> on_sites (size x) y ->
  let: (m, x') := apply_hopping a c x (spin_int s) (Some (cumcount (spin_int s) x)) in
  hop s c a (fun z => (z == fock_of x)%:R : R) y = m%:~R * (y == fock_of x')%:R.
Proof. exact: C01_ket_lemma. Qed.
Print Assumptions C01_apply_hopping_ket.

Example C01_example :
  apply_hopping 0 3 [:: 3; 1; 2; 0]%N 1 (Some (cumcount 1 [:: 3; 1; 2; 0]%N)) = (-1, [:: 2; 1; 2; 1]%N).
Proof. by vm_compute. Qed.

(* C02 is false: without cumulative counts the parity window is shifted by one site. *)
Theorem C02_none_branch_refuted :
  exists a c x s, [/\ valid x, (a < size x)%N, (c < size x)%N &
    apply_hopping a c x (spin_int s) None
    <> apply_hopping a c x (spin_int s) (Some (cumcount (spin_int s) x))].
Proof. exact: C02_refuted_lemma. Qed.
Print Assumptions C02_none_branch_refuted.

(* What holds: the configuration is the same, and the sign agrees exactly when the
   electron next to the right end of the hop compensates. *)
Theorem C02_none_branch_partial (s : spin) a c x :
  valid x -> (a < size x)%N -> (c < size x)%N ->
  let r0 := apply_hopping a c x (spin_int s) None in
  let r1 := apply_hopping a c x (spin_int s) (Some (cumcount (spin_int s) x)) in
  r0.2 = r1.2 /\
  (r0.1 = r1.1 <->
   [\/ r1.1 = 0, a = c | has_spin s (nth 0%N x (maxn a c).-1) = (a < c)%N]).
Proof. exact: C02_partial_lemma. Qed.
Print Assumptions C02_none_branch_partial.

Section C03.
Variables (R : comRingType) (U : R) (edges : seq (nat * nat)) (t : seq R).
Let conn := hub_conn_flattened U edges t.

(* get_conn of a single sample *)
Theorem C03_hubbard_conn_is_hamiltonian (psi : fock -> R) x s0 :
  valid x -> all (fun e => (e.1 < size x)%N && (e.2 < size x)%N) edges -> size t = size edges ->
  \sum_(e <- pmap id (ob_buf (conn [:: x] [:: s0]).1)) e.2 * psi (fock_of e.1)
  = hubbard (size x) (zip edges t) U psi (fock_of x).
Proof. exact: C03_lemma. Qed.

(* a whole batch, delimited by the returned sections *)
Theorem C03_hubbard_batch_is_hamiltonian (psi : fock -> R) xs secs b L :
  size secs = size xs -> edges != [::] -> (b < size xs)%N ->
  all (fun x => valid x && (size x == L)) xs ->
  all (fun e => (e.1 < L)%N && (e.2 < L)%N) edges -> size t = size edges ->
  \sum_(e <- pmap id (sec_slice (ob_buf (conn xs secs).1) (conn xs secs).2 b)) e.2 * psi (fock_of e.1)
  = hubbard L (zip edges t) U psi (fock_of (nth [::] xs b)).
Proof. exact: C03_batch_lemma. Qed.

(* C04 for Hubbard: sector conservation, zero elements included *)
Theorem C04_hubbard_sector x s0 p :
  valid x -> all (fun e => (e.1 < size x)%N && (e.2 < size x)%N) edges ->
  p \in ob_buf (conn [:: x] [:: s0]).1 ->
  exists x' mel, [/\ p = Some (x', mel), valid x', size x' = size x & forall s, n_spin s x' = n_spin s x].
Proof. exact: C04_hubbard_lemma. Qed.

(* C05: total matrix elements are symmetric *)
Definition hub_mel x y : R :=
  \sum_(e <- pmap id (ob_buf (conn [:: x] [:: 0%N]).1) | e.1 == y) e.2.
Theorem C05_hubbard_symmetric x y :
  valid x -> valid y -> size y = size x ->
  all (fun e => (e.1 < size x)%N && (e.2 < size x)%N) edges -> size t = size edges ->
  hub_mel x y = hub_mel y x.
Proof. exact: C05_lemma. Qed.

(* C06: every slot written exactly once and the sections delimit the samples *)
Theorem C06_hubbard_sections_partial xs secs :
  size secs = size xs -> edges != [::] ->
  let out := conn xs secs in
  [/\ ob_ok out.1, ob_cur out.1 = size (ob_buf out.1), all isSome (ob_buf out.1),
      size out.2 = size xs &
      forall b, (b < size xs)%N ->
        [/\ (sec_lo out.2 b <= nth 0%N out.2 b <= size (ob_buf out.1))%N,
            (b.+1 = size xs -> nth 0%N out.2 b = size (ob_buf out.1)) &
            sec_slice (ob_buf out.1) out.2 b = ob_buf (conn [:: nth [::] xs b] [:: 0%N]).1]].
Proof. exact: C06_lemma. Qed.
End C03.
Print Assumptions C03_hubbard_conn_is_hamiltonian.
Print Assumptions C03_hubbard_batch_is_hamiltonian.
Print Assumptions C04_hubbard_sector.
Print Assumptions C05_hubbard_symmetric.
Print Assumptions C06_hubbard_sections_partial.

(* without edges the sections array is returned as it was passed in *)
Theorem C06_hubbard_sections_refuted :
  exists (U : rat) (xs : seq cfg) (secs : seq nat),
  [/\ size secs = size xs, all valid xs &
      let out := hub_conn_flattened U [::] [::] xs secs in
      exists b, (b < size xs)%N /\
        sec_slice (ob_buf out.1) out.2 b
        <> ob_buf (hub_conn_flattened U [::] [::] [:: nth [::] xs b] [:: 0%N]).1].
Proof. exact: C06_refuted_lemma. Qed.
Print Assumptions C06_hubbard_sections_refuted.

Example C06_example :
  (hub_conn_flattened (1 : int) [:: (0, 1)]%N [:: 2%:Z] [:: [:: 1; 2]; [:: 3; 0]]%N [:: 7; 7]%N).2 = [:: 5; 10]%N.
Proof. by vm_compute. Qed.

(* C07: on-the-fly local energy = connected elements, graphs without self loops *)
Theorem C07_hubbard_on_the_fly_partial (F : fieldType) (U : F) edges (t : seq F) (fast : option (seq nat -> seq nat -> F)) (psi : cfg -> F) x s0 :
  fast_ok_uniq fast psi x -> valid x -> all (fun e => (e.1 < size x)%N && (e.2 < size x)%N) edges ->
  all (fun e => e.1 != e.2) edges -> psi x != 0 ->
  hub_otf U edges t fast psi x
  = \sum_(e <- pmap id (ob_buf (hub_conn_flattened U edges t [:: x] [:: s0]).1)) e.2 * (psi e.1 / psi x).
Proof. exact: C07_lemma. Qed.
Print Assumptions C07_hubbard_on_the_fly_partial.

Theorem C07_hubbard_on_the_fly_hamiltonian_partial (F : fieldType) (U : F) edges (t : seq F) (fast : option (seq nat -> seq nat -> F)) (psi : cfg -> F) x :
  fast_ok_uniq fast psi x -> valid x -> all (fun e => (e.1 < size x)%N && (e.2 < size x)%N) edges ->
  all (fun e => e.1 != e.2) edges -> size t = size edges -> psi x != 0 ->
  hub_otf U edges t fast psi x * psi x
  = hubbard (size x) (zip edges t) U (fun f => psi (cfg_of f)) (fock_of x).
Proof. exact: C07_ham_lemma. Qed.
Print Assumptions C07_hubbard_on_the_fly_hamiltonian_partial.

Theorem C07_hubbard_self_loop_refuted :
  exists (U : rat) edges (t : seq rat) (psi : cfg -> rat) x,
  [/\ valid x, all (fun e => (e.1 < size x)%N && (e.2 < size x)%N) edges, size t = size edges, psi x != 0 &
   hub_otf U edges t None psi x
   <> \sum_(e <- pmap id (ob_buf (hub_conn_flattened U edges t [:: x] [:: 0%N]).1)) e.2 * (psi e.1 / psi x)].
Proof. exact: C07_refuted_lemma. Qed.
Print Assumptions C07_hubbard_self_loop_refuted.

Example C03_C07_example :
  let x := [:: 3; 0; 1]%N in let edges := [:: (0, 1); (2, 1); (0, 2)]%N in
  [&& valid x, all (fun e => (e.1 < size x)%N && (e.2 < size x)%N) edges & all (fun e => e.1 != e.2) edges]
  /\ pmap id (ob_buf (hub_conn_flattened (10 : int) edges [:: 1; 2; 3] [:: x] [:: 0%N]).1)
     = [:: ([:: 3; 0; 1]%N, 10); ([:: 2; 1; 1]%N, -1); ([:: 3; 0; 1]%N, 0);
           ([:: 1; 2; 1]%N, -1); ([:: 3; 0; 1]%N, 0); ([:: 3; 1; 0]%N, -2); ([:: 3; 0; 1]%N, 0);
           ([:: 3; 0; 1]%N, 0); ([:: 3; 0; 1]%N, 0); ([:: 3; 0; 1]%N, 0); ([:: 3; 0; 1]%N, 0);
           ([:: 1; 0; 3]%N, -3); ([:: 3; 0; 1]%N, 0)].
Proof. by vm_compute. Qed.
