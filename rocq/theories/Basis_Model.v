(* The integrals the scripts hand to the ab-initio Hamiltonians: choice of the basis, transformation of the
   integrals, files kept for later runs, distribution over the MPI ranks.
   scripts/ARGPS/argps/systems.py L98-130; scripts/cpd-backflow/cpd_backflow/systems.py L95-180;
   scripts/GPS_for_ab_initio/H2O.py L61-113, H4x4x4.py L62-103, H50_1D.py L51-87, H10_amplitudes.py L36-84.
   What PySCF returns (molecular orbitals, core Hamiltonian, overlap, repulsion integrals over atomic orbitals,
   localised orbitals) are parameters; the basis is square (as many orbitals as atomic functions).  np.allclose is
   modelled by equality. *)
From Coq Require Import String.
From Verif Require Import Base Argps_Model.
Local Open Scope ring_scope.

Section Basis.
Variables (F : fieldType) (n : nat).
Notation mat := (nat -> nat -> F).
Notation ten := (nat -> nat -> nat -> nat -> F).

(* np.linalg.multi_dot((C.T, B, C)): argps/systems.py L100, L116, L119; cpd_backflow/systems.py L140, L143;
   H2O.py L96, L99; H50_1D.py L68, L71 *)
Definition dot3 (C B : mat) : mat := fun p q => \sum_(k < n) (\sum_(m < n) C m p * B m k) * C k q.
(* ao2mo.incore.general / ao2mo.kernel and ao2mo.restore(1, .): argps/systems.py L103-107, L120;
   cpd_backflow/systems.py L144; H2O.py L100; H50_1D.py L72 *)
Definition eri_in (C : mat) (eri : ten) : ten := fun p q r s =>
  \sum_(k < n) \sum_(l < n) \sum_(m < n) \sum_(o < n) C k p * C l q * C m r * C o s * eri k l m o.
(* assert np.allclose(multi_dot((C.T, S, C)), np.eye(norb)) *)
Definition is_eye (C S : mat) : bool :=
  all (fun p => all (fun q => dot3 C S p q == (p == q)%:R) (iota 0 n)) (iota 0 n).

Variables (hcore S : mat) (eri : ten) (mo : mat).

(* argps/systems.py L98-122 on rank 0; local: "local" in config.basis, loc: lo.orth_ao(mol, "meta_lowdin") *)
Definition argps_integrals (local : bool) (loc : mat) : option (mat * ten) :=
  if local then
    if is_eye loc S then Some (dot3 loc hcore, eri_in loc eri) else None
  else Some (dot3 mo hcore, eri_in mo eri).

(* np.concatenate of the first c columns of A and of the columns of B *)
Definition hstack (c : nat) (A B : mat) : mat := fun i j => if (j < c)%N then A i j else B i (j - c)%N.
Variables (lowdin : mat) (boys pipek_mezey edmiston : mat -> mat).
(* the Boys localisation of the columns from a to b of the molecular orbitals *)
Variable boys_part : nat -> nat -> mat.

(* cpd_backflow/systems.py L116-137; None: the ValueError *)
Definition cpd_basis (nelec : nat) (basis : string) : option mat :=
  if substring_of "local" basis then
    Some (if substring_of "boys" basis then boys lowdin
          else if substring_of "pipek-mezey" basis then pipek_mezey lowdin
          else if substring_of "edmiston-ruedenberg" basis then edmiston lowdin
          else if substring_of "split" basis then hstack (nelec %/ 2) (boys_part 0 (nelec %/ 2)) (boys_part (nelec %/ 2) n)
          else lowdin)
  else if String.eqb basis "canonical" then Some mo else None.

(* the basis of H2O.py L70-87: 0 local, 1 canonical, 2 split *)
Definition h2o_basis (nelec basis_type : nat) : mat :=
  if basis_type == 1%N then mo
  else if basis_type == 0%N then boys lowdin
  else if basis_type == 2%N then hstack (nelec %/ 2) (boys_part 0 (nelec %/ 2)) (boys_part (nelec %/ 2) n)
  else lowdin.

(* the files of a working directory: basis.npy, h1.npy, h2.npy, hf_orbitals.npy, exchange.npy; np.save of one file is
   taken to be atomic *)
Record files := Files { f_basis : option mat; f_h1 : option mat; f_h2 : option ten; f_hf : option mat; f_em : option mat }.
Definition no_files := Files None None None None None.
Definition save_basis b f := Files (Some b) (f_h1 f) (f_h2 f) (f_hf f) (f_em f).
Definition save_h1 h f := Files (f_basis f) (Some h) (f_h2 f) (f_hf f) (f_em f).
Definition save_h2 g f := Files (f_basis f) (f_h1 f) (Some g) (f_hf f) (f_em f).
Definition save_hf o f := Files (f_basis f) (f_h1 f) (f_h2 f) (Some o) (f_em f).
Definition save_em e f := Files (f_basis f) (f_h1 f) (f_h2 f) (f_hf f) (Some e).

(* H2O.py L66-102 (with the same form H4x4x4.py L67-91) on rank 0: the contents of the directory after each of the
   saves, and the integrals; None: the assertion fails *)
Definition h2o_rank0 (nelec basis_type : nat) (f : files) : seq files * option (mat * ten) :=
  let: (loc, f1, out1) :=
    if f_basis f is Some b then (b, f, [::])
    else let b := h2o_basis nelec basis_type in (b, save_basis b f, [:: save_basis b f]) in
  match f_h1 f1, f_h2 f1 with
  | Some h, Some g => (out1, Some (h, g))
  | _, _ =>
    if is_eye loc S then
      let h := dot3 loc hcore in
      let g := eri_in loc eri in
      (out1 ++ [:: save_h1 h f1; save_h2 g (save_h1 h f1)], Some (h, g))
    else (out1, None)
  end.

(* pruning, cpd_backflow/systems.py L153-155; keep: the modulus is not below the threshold *)
Variable keep : F -> F -> bool.
Definition prune1 (threshold : option F) (h : mat) : mat :=
  if threshold is Some t then (if t == 0 then h else fun p q => if keep t (h p q) then h p q else 0) else h.
Definition prune2 (threshold : option F) (g : ten) : ten :=
  if threshold is Some t then (if t == 0 then g else fun p q r s => if keep t (g p q r s) then g p q r s else 0) else g.

(* the configuration and the molecule of a run of cpd_backflow: config.basis, config.pruning_threshold, mol.spin == 0,
   store_exchange, the numbers of electrons *)
Record cpd_run := CpdRun { r_basis : string; r_threshold : option F; r_closed : bool; r_exchange : bool;
  r_up : nat; r_dn : nat }.
Definition r_nelec r := (r_up r + r_dn r)%N.
(* canonical_to_local_trafo, basis.T.dot(ovlp.dot(mf.mo_coeff)): L142 *)
Definition trafo (b : mat) : mat := fun p q => \sum_(m < n) b m p * \sum_(k < n) S m k * mo k q.
(* hf_orbitals, L145-151 *)
Definition cpd_hf (r : cpd_run) (b : mat) : mat :=
  if r_closed r then trafo b else hstack (r_up r) (trafo b) (trafo b).
(* em of mf.get_jk over atomic orbitals, L166 *)
Variable em_ao : mat.

(* L103-159: the contents of the directory after each of the saves, the basis, the integrals and the directory at
   the end; None: the assertion or the choice of the basis fails *)
Definition cpd_integrals (r : cpd_run) (f : files) : seq files * option (mat * mat * ten * files) :=
  match f_basis f, f_h1 f, f_h2 f, f_hf f with
  | Some b, Some h, Some g, Some _ => ([::], Some (b, h, g, f))
  | _, _, _, _ =>
    if cpd_basis (r_nelec r) (r_basis r) is Some b then
      if is_eye b S then
        let h := prune1 (r_threshold r) (dot3 b hcore) in
        let g := prune2 (r_threshold r) (eri_in b eri) in
        let f1 := save_basis b f in
        let f2 := save_h1 h f1 in
        let f3 := save_h2 g f2 in
        let f4 := save_hf (cpd_hf r b) f3 in
        ([:: f1; f2; f3; f4], Some (b, h, g, f4))
      else ([::], None)
    else ([::], None)
  end.
(* L97-171 on rank 0 *)
Definition cpd_rank0 (r : cpd_run) (f : files) : seq files * option (mat * ten) :=
  let: (out, res) := cpd_integrals r f in
  if res is Some (b, h, g, f4) then
    if r_exchange r then
      if f_em f4 is Some _ then (out, Some (h, g))
      else
        let em := if substring_of "local" (r_basis r) then dot3 b em_ao else em_ao in
        (rcons out (save_em em f4), Some (h, g))
    else (out, Some (h, g))
  else (out, None).
End Basis.

(* the slice-wise broadcast of H2O.py L106-112, H50_1D.py L80-87; h2 r: the array of rank r *)
Section Bcast.
Variables (T : Type) (n : nat).
Notation ten := (nat -> nat -> nat -> nat -> T).
Definition set_slice (g : ten) (i j : nat) (sl : nat -> nat -> T) : ten :=
  fun p q => if (p == i) && (q == j) then sl else g p q.
Definition bcast_step (h2 : nat -> ten) (ij : nat * nat) : nat -> ten :=
  let slice r := h2 r ij.1 ij.2 in
  let slice r := slice 0%N in
  fun r => set_slice (h2 r) ij.1 ij.2 (slice r).
Definition bcast_slices (h2 : nat -> ten) : nat -> ten :=
  foldl bcast_step h2 [seq (i, j) | i <- iota 0 n, j <- iota 0 n].
End Bcast.
