(* The Hartree-Fock orbitals the backflow models of scripts/cpd-backflow start from:
   cpd_backflow/systems.py L142-151 (saved orbitals of a molecule), cpd_backflow/models.py get_hf_orbitals
   (L180-191) and get_hf_orbitals_from_file (L219-245).  The mean-field calculation itself is a library's. *)
From Verif Require Import Base.
Local Open Scope ring_scope.

Section HF.
Variable F : fieldType.
Record arr := Arr { a_rows : nat; a_cols : nat; a_ent : nat -> nat -> F }.
(* a[:, :n] *)
Definition take_cols (n : nat) (a : arr) : arr := Arr (a_rows a) (minn n (a_cols a)) (a_ent a).
(* np.concatenate((a, b), axis=1) *)
Definition hcat (a b : arr) : option arr :=
  if a_rows a == a_rows b then
    Some (Arr (a_rows a) (a_cols a + a_cols b)
      (fun r c => if (c < a_cols a)%N then a_ent a r c else a_ent b r (c - a_cols a)%N))
  else None.
Definition zeros (r c : nat) : arr := Arr r c (fun _ _ => 0).
(* a[r0:r1, c0:c1] = v with numpy's broadcasting; None: ValueError *)
Definition assign (a : arr) (r0 r1 c0 c1 : nat) (v : arr) : option arr :=
  let nr := (minn r1 (a_rows a) - r0)%N in
  let nc := (minn c1 (a_cols a) - c0)%N in
  if ((a_rows v == nr) || (a_rows v == 1%N)) && ((a_cols v == nc) || (a_cols v == 1%N)) then
    Some (Arr (a_rows a) (a_cols a) (fun r c =>
      if ((r0 <= r) && (r < r0 + nr) && (c0 <= c) && (c < c0 + nc))%N then
        a_ent v (if a_rows v == 1%N then 0%N else (r - r0)%N) (if a_cols v == 1%N then 0%N else (c - c0)%N)
      else a_ent a r c))
  else None.

(* systems.py L145-151; trafo = canonical_to_local_trafo, a square matrix, spin = n0 - n1 *)
Definition saved_orbitals (trafo : arr) (n0 n1 : nat) : option arr :=
  if n0 == n1 then Some (take_cols ((n0 + n1) %/ 2) trafo)
  else hcat (take_cols n0 trafo) (take_cols n1 trafo).

(* models.py L219-245; given: config.get('n_elec', None) is set *)
Definition get_hf_orbitals_from_file (given restricted fixed_magnetization : bool) (n0 n1 : nat) (hf : arr) : option arr :=
  let nelec := (n0 + n1)%N in
  if fixed_magnetization then
    if restricted then
      if a_cols hf == (nelec %/ 2)%N then Some hf else None
    else
      if a_cols hf == (nelec %/ 2)%N then hcat hf hf
      else if a_cols hf == nelec then Some hf else None
  else
    let norb := a_rows hf in
    if given then
      let hf_a := take_cols n0 hf in
      let hf_b := take_cols n1 hf in
      let o := zeros (2 * norb) nelec in
      if assign o 0 norb 0 n0 hf_a is Some o then assign o norb (2 * norb) n1 nelec hf_b else None
    else
      let nelec := (a_cols hf * 2)%N in
      let o := zeros (2 * norb) nelec in
      if assign o 0 norb 0 (nelec %/ 2) hf is Some o then assign o norb (2 * norb) (nelec %/ 2) nelec hf else None.

(* models.py L180-191; mf.mo_coeff is one matrix (RHF) or a pair (UHF).  np.reshape of one matrix to
   (2, norb, norb) raises *)
Definition get_hf_orbitals (fixed_magnetization : bool) (norb n0 n1 : nat) (mo : arr + arr * arr) : option arr :=
  match mo with
  | inl c => if fixed_magnetization then Some (take_cols n0 c) else None
  | inr (ca, cb) =>
    if fixed_magnetization then hcat (take_cols n0 ca) (take_cols n1 cb)
    else
      let o := zeros (2 * norb) (n0 + n1) in
      if assign o 0 norb 0 n0 (take_cols n0 ca) is Some o
      then assign o norb (2 * norb) n0 (n0 + n1) (take_cols n1 cb) else None
  end.
End HF.
