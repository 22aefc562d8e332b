(* models/asymm_qGPS.py: ASymmqGPS and ASymmqGPSProd, per sample.  Both hand an out_transformation
   to Slater (without S2 projection, fixed magnetisation: slater.py L74-86); its argument is the
   table of log-determinants over determinants and symmetries (B, M, 1, T), here the table of
   determinants itself.  sinhf stands for sinh.  None = an exception. *)
From Verif Require Import Base Occ_Model AbInitioOtf_Model Slater_Model.
Local Open Scope ring_scope.

Section Asymm.
Variables (F : fieldType) (sinhf : F -> F) (L nu nd M : nat).
(* U_up, U_down of each determinant (row, column), apply_symmetries as one map of sites each *)
Variables (Uup Udn : nat -> nat -> nat -> F) (syms : seq (nat -> nat)).
Notation T := (size syms).

(* the component of determinant m and symmetry t of Slater (slater.py L142-177, L226-240) *)
Definition asymm_comp (m t : nat) : component F (nu + nd) :=
  Component (block_U L (fun p => \row_(j < nu) Uup m p j) (fun p => \row_(j < nd) Udn m p j)) (nth id syms t).
(* the table exp(log_det_values), slater.py L243-277 *)
Definition slater_table (x : seq nat) (m t : nat) : F := evaluate_SD true (submat L (asymm_comp m t) x).

(* jnp.asarray(self.coeffs) * y, L59 and L68, with numpy's broadcasting of a vector against the
   last axis of (B, M, 1, T): the new length of that axis and the entries *)
Definition mul_coeffs (coeffs : seq F) (y : nat -> nat -> F) : option (nat * (nat -> nat -> F)) :=
  if size coeffs == T then Some (T, fun m t => nth 0 coeffs t * y m t)
  else if size coeffs == 1%N then Some (T, fun m t => nth 0 coeffs 0 * y m t)
  else if T == 1%N then Some (size coeffs, fun m t => nth 0 coeffs t * y m 0%N)
  else None.
Inductive symmetrization := Kernel | Projective.
(* ASymmqGPS.__call__, L50-84, the exponential of the value *)
Definition asymm_qgps (s : symmetrization) (coeffs : seq F) (x : seq nat) : option F :=
  (* L51 *)
  if M == size coeffs then
    if mul_coeffs coeffs (slater_table x) is Some (T', y) then
      (* L59-61, L68-70 *)
      Some (match s with
            | Kernel => sinhf (\sum_(t < T') \sum_(m < M) y m t)
            | Projective => \sum_(t < T') sinhf (\sum_(m < M) y m t)
            end)
    else None
  else None.
(* coeffs: HashableArray = HashableArray(np.ones(1)), L36 *)
Definition default_coeffs : seq F := [:: 1].

(* ASymmqGPSProd.setup and __call__, L109-135 *)
Definition asymm_prod (x : seq nat) : option F :=
  if odd M then Some (\sum_(t < T) \prod_(m < M) sinhf (slater_table x m t)) else None.
End Asymm.
