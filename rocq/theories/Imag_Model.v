(* supervised/imag_time_step.py.  Log-amplitudes are replaced by amplitudes (the complex log and
   exp cancel for non-zero arguments, log 0 = -inf is amplitude 0), None is a raised exception.
   The Hamiltonian is given by its connected configurations and matrix elements; local_estimator_fun
   is the local energy sum_y H_xy psi(y) / psi(x) (for the on-the-fly kernels: C05-C08). *)
From Coq Require Export String.
From Verif Require Import Base.
Local Open Scope ring_scope.

Section Imag.
Variables (F : fieldType) (T : eqType) (Par : Type).
(* the variables of a model: a dictionary of collections; the value stored under "tau" is a
   scalar, the others are parameters *)
Definition value : Type := (F + Par)%type.
Definition dict : Type := string -> option value.
(* {**d, **e} *)
Definition merge (d e : dict) : dict := fun k => if e k is Some v then Some v else d k.
Definition single (k : string) (v : value) : dict := fun k' => if String.eqb k' k then Some v else None.
(* freeze(d).pop(key) raises KeyError if the key is missing (flax) *)
Definition pop (d : dict) (k : string) : option (dict * value) :=
  if d k is Some v then Some (fun k' => if String.eqb k' k then None else d k', v) else None.

(* model.apply: variables -> configuration -> amplitude *)
Definition apply_fun : Type := dict -> T -> option F.
Variable conn : T -> seq (T * F).

(* local_estimator_fun(log_model, pars, samples, args): the amplitudes of the sample and of all
   connected configurations are evaluated *)
Fixpoint osum (l : seq (option F)) : option F :=
  if l is o :: l' then
    match o, osum l' with Some a, Some b => Some (a + b) | _, _ => None end
  else Some 0.
Definition local_energy (psi : T -> option F) (x : T) : option F :=
  match psi x, osum [seq omap (fun a => c.2 * a) (psi c.1) | c <- conn x] with
  | Some a, Some s => Some (s / a)
  | _, _ => None
  end.

Record vstate := VState { vs_apply : apply_fun; vs_params : Par; vs_model_state : dict }.
(* vstate.variables = {"params": parameters, **model_state} *)
Definition variables (v : vstate) : dict := merge (single "params" (inr (vs_params v))) (vs_model_state v).
(* log_value(x) *)
Definition amplitude (v : vstate) (x : T) : option F := vs_apply v (variables v) x.

(* imag_time_model_log_amp, L62-67 *)
Definition imag_time_model (log_model : apply_fun) : apply_fun := fun vars x =>
  match pop vars "tau" with
  | Some (pars, inl tau) =>
    match local_energy (log_model pars) x, log_model pars x with
    | Some e, Some a => Some (a * (1 / tau - 1 * e) * tau)
    | _, _ => None
    end
  | _ => None
  end.

(* get_imag_time_step_vstate, L55-73 *)
Definition imag_time_step (tau : F) (v : vstate) : vstate :=
  VState (imag_time_model (vs_apply v)) (vs_params v) (merge (single "tau" (inl tau)) (vs_model_state v)).

(* ImagTimeStep.log_imag_time_step, L31-35 *)
Definition log_imag_time_step (tau : F) (v : vstate) (x : T) : option F :=
  match amplitude v x, local_energy (amplitude v) x with
  | Some a, Some e => Some (a * (1 - tau * e))
  | _, _ => None
  end.
End Imag.
