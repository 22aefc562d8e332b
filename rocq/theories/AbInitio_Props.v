(* Property theorems C04 (ab-initio part), C08-C11, C14, C59. *)
From Verif Require Import Base Fock_Spec Fock_Proofs Occ_Model Occ_Spec Hopping_Model.
From Verif Require Import AbInitio_Model AbInitio_Lemmas AbInitioOtf_Model AbInitioOtf_RDM AbInitio_Lemmas2 Update_Proto Fast_Contract.
Local Open Scope ring_scope.

Section Props.
Variables (R : comRingType) (half : R) (h : nat -> nat -> R) (eri : nat -> nat -> nat -> nat -> R).
Hypothesis half2 : half + half = 1.

(* C08, get_conn of a single sample; the kernel receives the modified one-body matrix t_mat
   that __init__ computes from h and eri *)
Theorem C08_ab_initio_conn_is_molecular_hamiltonian L (psi : fock -> R) x s0 :
  valid x -> size x = L ->
  (forall p q r s, (p < L)%N -> (q < L)%N -> (r < L)%N -> (s < L)%N -> eri p q r s = eri r s p q) ->
  \sum_(e <- pmap id (ob_buf (ab_conn_flattened half (t_mat half L h eri) eri [:: x] [:: s0]).1))
     e.2 * psi (fock_of e.1)
  = molecular L half h eri psi (fock_of x).
Proof. exact: C08_lemma. Qed.

(* C08, a whole batch *)
Theorem C08_ab_initio_batch_is_molecular_hamiltonian L (psi : fock -> R) xs secs b :
  size secs = size xs -> (b < size xs)%N ->
  all (fun x => valid x && (size x == L)) xs ->
  (forall p q r s, (p < L)%N -> (q < L)%N -> (r < L)%N -> (s < L)%N -> eri p q r s = eri r s p q) ->
  let out := ab_conn_flattened half (t_mat half L h eri) eri xs secs in
  \sum_(e <- pmap id (sec_slice (ob_buf out.1) out.2 b)) e.2 * psi (fock_of e.1)
  = molecular L half h eri psi (fock_of (nth [::] xs b)).
Proof. exact: C08_batch_lemma. Qed.

(* C04 for the ab-initio Hamiltonian: every slot, zero elements included *)
Theorem C04_ab_initio_sector t x s0 p :
  valid x -> p \in ob_buf (ab_conn_flattened half t eri [:: x] [:: s0]).1 ->
  exists x' mel, [/\ p = Some (x', mel), valid x', size x' = size x & forall s, n_spin s x' = n_spin s x].
Proof. exact: C04_ab_lemma. Qed.

(* C09: the reserved space is exactly what is written *)
Theorem C09_ab_initio_buffers_exact t xs secs :
  size secs = size xs ->
  let out := ab_conn_flattened half t eri xs secs in
  [/\ ob_ok out.1, ob_cur out.1 = size (ob_buf out.1), all isSome (ob_buf out.1),
      size out.2 = size xs &
      forall b, (b < size xs)%N ->
        [/\ (sec_lo out.2 b <= nth 0%N out.2 b <= size (ob_buf out.1))%N,
            (b.+1 = size xs -> nth 0%N out.2 b = size (ob_buf out.1)) &
            sec_slice (ob_buf out.1) out.2 b
            = ob_buf (ab_conn_flattened half t eri [:: nth [::] xs b] [:: 0%N]).1]].
Proof. exact: C09_lemma. Qed.

(* C59: symmetric integrals give symmetric total matrix elements *)
Theorem C59_ab_initio_symmetric L x y :
  valid x -> valid y -> size x = L -> size y = L ->
  (forall p q, (p < L)%N -> (q < L)%N -> h p q = h q p) ->
  (forall p q r s, (p < L)%N -> (q < L)%N -> (r < L)%N -> (s < L)%N -> eri p q r s = eri r s p q) ->
  (forall p q r s, (p < L)%N -> (q < L)%N -> (r < L)%N -> (s < L)%N -> eri p q r s = eri q p s r) ->
  let conn x := pmap id (ob_buf (ab_conn_flattened half (t_mat half L h eri) eri [:: x] [:: 0%N]).1) in
  \sum_(e <- conn x | e.1 == y) e.2 = \sum_(e <- conn y | e.1 == x) e.2.
Proof. exact: ab_symm_lemma. Qed.
End Props.
Print Assumptions C08_ab_initio_conn_is_molecular_hamiltonian.
Print Assumptions C08_ab_initio_batch_is_molecular_hamiltonian.
Print Assumptions C04_ab_initio_sector.
Print Assumptions C09_ab_initio_buffers_exact.
Print Assumptions C59_ab_initio_symmetric.

(* two electrons on two orbitals, h = hopping 3 and (pq|rs) = 2 constant: diagonal entry and
   the element of the up hop, with the modified one-body part folded in *)
Example C08_example :
  let h (p q : nat) : rat := if p == q then 1 else 3%:R in
  let e (p q r s : nat) : rat := 2%:R in
  let out := ab_conn_flattened (2%:R^-1) (t_mat (2%:R^-1) 2 h e) e [:: [:: 3; 0]%N; [:: 1; 0]%N] [:: 7; 7]%N in
  out.2 = [:: 4; 6]%N
  /\ ob_buf out.1 = [:: Some ([:: 3; 0]%N, 4%:R); Some ([:: 2; 1]%N, 5%:R); Some ([:: 1; 2]%N, 5%:R);
                      Some ([:: 0; 3]%N, 2%:R); Some ([:: 1; 0]%N, 1); Some ([:: 0; 1]%N, 3%:R)].
Proof. by rewrite /t_mat !unlock; split; vm_compute. Qed.

(* C10 *)
Theorem C10_ab_initio_on_the_fly_hamiltonian (F : fieldType) (half : F) h eri (fast : option (seq nat -> seq nat -> F)) (psi : cfg -> F) x n_elecs L :
  half + half = 1 -> fast_ok fast psi x -> valid x -> size x = L -> n_elecs = (n_spin Up x, n_spin Dn x) -> psi x != 0 ->
  (forall p q r s, (p < L)%N -> (q < L)%N -> (r < L)%N -> (s < L)%N -> eri p q r s = eri r s p q) ->
  ab_otf half n_elecs (t_mat half L h eri) eri fast psi x * psi x
  = molecular L half h eri (fun f => psi (cfg_of f)) (fock_of x).
Proof. exact: C10_lemma. Qed.
Print Assumptions C10_ab_initio_on_the_fly_hamiltonian.

(* for arbitrary (not symmetric) integrals: the sum over the connected elements *)
Theorem C10_ab_initio_on_the_fly_connected (F : fieldType) (half : F) t eri (fast : option (seq nat -> seq nat -> F)) (psi : cfg -> F) x n_elecs s0 :
  fast_ok fast psi x -> valid x -> n_elecs = (n_spin Up x, n_spin Dn x) -> psi x != 0 ->
  ab_otf half n_elecs t eri fast psi x
  = \sum_(e <- pmap id (ob_buf (ab_conn_flattened half t eri [:: x] [:: s0]).1)) e.2 * (psi e.1 / psi x).
Proof. exact: C10_conn_lemma. Qed.
Print Assumptions C10_ab_initio_on_the_fly_connected.

(* C11: no sector hypothesis is needed, and no assumption on psi or fast *)
Theorem C11_local_rdms (F : fieldType) (half : F) n_elecs t eri (fast : option (seq nat -> seq nat -> F)) (psi : cfg -> F) x :
  (0 < size x)%N ->
  let: (en, T, E) := ab_otf_rdm half n_elecs t eri fast psi x in
  [/\ en = \sum_(p < size x) \sum_(q < size x) t p q * T p q
           + \sum_(p < size x) \sum_(q < size x) \sum_(r < size x) \sum_(s < size x) eri p q r s * E p q r s,
      en = ab_otf half n_elecs t eri fast psi x &
      forall t' eri', let r := ab_otf_rdm half n_elecs t' eri' fast psi x in r.1.2 = T /\ r.2 = E].
Proof. exact: C11_lemma. Qed.
Print Assumptions C11_local_rdms.

Example C11_example :
  let psi (y : cfg) : rat := (2 * nth 0%N y 0 + nth 0%N y 1)%:R in
  let r := ab_otf_rdm (2%:R^-1) (1%N, 1%N) (fun p q => (p + 2 * q)%:R) (fun p q r s => (p + q + r * s)%:R) None psi
             [:: 3; 0]%N in
  [/\ r.1.2 0%N 0%N = 2%:R, r.1.2 0%N 1%N = 5%:R / 6%:R + 4%:R / 6%:R, r.2 0%N 1%N 0%N 1%N = 3%:R / 6%:R &
      r.1.1 = 33%:R / 4%:R].
Proof.
rewrite /ab_otf_rdm /rdm_diag_t /rdm_diag_eri /rdm_ud /rdm_two /rdm_one /otf_diag /otf_value /loop4 /scat2 /scat4.
by rewrite /rdm_c1 /rdm_c2 /rdm_c3 /scat2 !unlock; split; vm_compute.
Qed.

(* C14: an up hop i->a followed by a down hop j->b, sites may coincide in any way *)
Theorem C14_double_hop_updates x i a j b :
  valid x -> (i < size x)%N -> (a < size x)%N -> (j < size x)%N -> (b < size x)%N ->
  has_spin Up (nth 0%N x i) -> ~~ has_spin Up (nth 0%N x a) ->
  has_spin Dn (nth 0%N x j) -> ~~ has_spin Dn (nth 0%N x b) ->
  let: (occs, sites) := otf_ud_lists x i a j b in
  [/\ sites = [:: i; a; j; b], size occs = 4%N,
      fock_of (apply_updates x occs sites)
        = setocc Dn b true (setocc Dn j false (setocc Up a true (setocc Up i false (fock_of x)))) &
      forall p, (p < 4)%N ->
        (if index (nth 0%N sites p) sites == p
         then nth 0%N occs p = nth 0%N (apply_updates x occs sites) (nth 0%N sites p)
         else nth 0%N occs p = nth 0%N x (nth 0%N sites p))].
Proof. exact: C14_lemma. Qed.
Print Assumptions C14_double_hop_updates.

(* doublon hopping 0 -> 1 as a whole: both sites repeat *)
Example C14_example :
  otf_ud_lists [:: 3; 0; 1]%N 0 1 0 1 = ([:: 0; 3; 3; 0], [:: 0; 1; 0; 1])%N
  /\ apply_updates [:: 3; 0; 1]%N [:: 0; 3; 3; 0]%N [:: 0; 1; 0; 1]%N = [:: 0; 3; 1]%N.
Proof. by split; vm_compute. Qed.
