(* Model of GPSKet/operator/asep.py and GPSKet/operator/hamiltonian/asep.py.
   Configurations are lists of 0/1 occupations; np.exp is a parameter [expf]. *)
From Verif Require Import Base Occ_Model.
Local Open Scope ring_scope.

(* asep.py L4-11: multiplicator and the row after the in-place write *)
Definition apply_creation (create_site : nat) (x : seq nat) : int * seq nat :=
  let multiplicator : int := 1 - (nth 0%N x create_site)%:Z in
  (multiplicator, if multiplicator != 0 then set_nth 0%N x create_site 1%N else x).

(* asep.py L14-21 *)
Definition apply_annihilation (annihilate_site : nat) (x : seq nat) : int * seq nat :=
  let multiplicator : int := (nth 0%N x annihilate_site)%:Z in
  (multiplicator, if multiplicator != 0 then set_nth 0%N x annihilate_site 0%N else x).

(* asep.py L24-38 *)
Definition asep_hopping (annihilate_site create_site : nat) (x : seq nat) : int * seq nat :=
  let start_occ := nth 0%N x annihilate_site in
  let final_occ := nth 0%N x create_site in
  let multiplicator : int := if (start_occ != final_occ) && (start_occ == 1%N) then 1 else 0 in
  (multiplicator,
   if multiplicator != 0 then set_nth 0%N (set_nth 0%N x annihilate_site final_occ) create_site start_occ
   else x).

(* asep.py L41-51: no write *)
Definition apply_particle_hole (particle_site hole_site : nat) (x : seq nat) : int :=
  let start_occ := nth 0%N x particle_site in
  let final_occ := nth 0%N x hole_site in
  if (start_occ != final_occ) && (start_occ == 1%N) then 1 else 0.

(* 1 - x_prime[count, site] *)
Definition hole (site : nat) (x : seq nat) : int := 1 - (nth 0%N x site)%:Z.

Section Asep.
Variables (R : comRingType) (expf : R -> R).
Variables (lambd alpha beta gamma delta p q : R).

(* hamiltonian/asep.py L35-41 *)
Definition is_hermitian : bool :=
  let params_equal := alpha + beta + gamma + delta == 2%:R in
  [&& lambd == 0, params_equal & p == q].

Let exp_lambd := expf lambd.
Let exp_minus_lambd := expf (- lambd).

(* x_prime[count] = row after the write, mels[count] = c * multiplicator *)
Definition put_mel (c : R) (r : int * seq nat) (o : outbuf (seq nat * R)) : outbuf (seq nat * R) :=
  ob_push o (r.2, c * (r.1)%:~R).
(* the bond terms, L109-126 *)
Definition asep_bond_terms (x : seq nat) (o : outbuf (seq nat * R)) (i : nat) : outbuf (seq nat * R) :=
  let o := put_mel (p * exp_lambd) (asep_hopping i i.+1 x) o in
  let o := ob_push o (x, - p * (apply_particle_hole i i.+1 x)%:~R) in
  let o := put_mel (q * exp_minus_lambd) (asep_hopping i.+1 i x) o in
  ob_push o (x, - q * (apply_particle_hole i.+1 i x)%:~R).
(* hamiltonian/asep.py L74-128, one iteration of the batch loop; every x_prime[count, :] row is
   first filled with the sample *)
Definition asep_sample (st : outbuf (seq nat * R) * seq nat) (bx : nat * seq nat) :
    outbuf (seq nat * R) * seq nat :=
  let x := bx.2 in
  let L := size x in
  let o := st.1 in
  let o := put_mel (alpha * exp_lambd) (apply_creation 0 x) o in
  let o := ob_push o (x, - alpha * (hole 0 x)%:~R) in
  let o := put_mel (gamma * exp_minus_lambd) (apply_annihilation 0 x) o in
  let o := ob_push o (x, - gamma * (nth 0%N x 0)%:R) in
  let o := put_mel (beta * exp_minus_lambd) (apply_creation L.-1 x) o in
  let o := ob_push o (x, - beta * (hole L.-1 x)%:~R) in
  let o := put_mel (delta * exp_lambd) (apply_annihilation L.-1 x) o in
  let o := ob_push o (x, - delta * (nth 0%N x L.-1)%:R) in
  let o := foldl (asep_bond_terms x) o (iota 0 L.-1) in
  (o, set_nth 0%N st.2 bx.1 (ob_cur o)).

(* hamiltonian/asep.py L62-129; L is x.shape[-1] *)
Definition asep_conn_flattened (L : nat) (xs : seq (seq nat)) (sections : seq nat) :=
  foldl asep_sample (ob_alloc _ (size xs * (4 * (1 + L)))%N, sections) (zip (iota 0 (size xs)) xs).
End Asep.
