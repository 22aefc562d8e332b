(* C57: the imaginary time step *)
From Verif Require Import Base Imag_Model.
Local Open Scope string_scope.
Local Open Scope ring_scope.

Section Imag.
Variables (F : fieldType) (T : eqType) (Par : Type) (conn : T -> seq (T * F)).

(* specification: (H psi)(x) *)
Definition apply_H (psi : T -> F) (x : T) : F := \sum_(c <- conn x) c.2 * psi c.1.

Lemma local_total (f : T -> option F) (psi : T -> F) x : (forall y, f y = Some (psi y)) ->
  local_energy conn f x = Some (apply_H psi x / psi x).
Proof.
move=> Hf; rewrite /local_energy Hf /apply_H.
suff -> : osum [seq omap (fun a : F => c.2 * a) (f c.1) | c <- conn x] = Some (\sum_(c <- conn x) c.2 * psi c.1) by [].
by elim: (conn x) => [|c l IH] /=; rewrite ?big_nil // big_cons Hf /= IH.
Qed.

(* One step, from a state whose model has no collection "tau" and does not read one: the
   amplitude is ((1 - tau H) psi)(x) for tau != 0 and psi(x) != 0. *)
Theorem C57_step_partial (v : vstate F T Par) (psi : T -> F) (tau : F) x :
  vs_model_state v "tau" = None ->
  (forall d e y, (forall k, k <> "tau" -> d k = e k) -> vs_apply v d y = vs_apply v e y) ->
  (forall y, amplitude v y = Some (psi y)) ->
  tau != 0 -> psi x != 0 ->
  amplitude (imag_time_step conn tau v) x = Some (psi x - tau * apply_H psi x).
Proof.
move=> Hms Hind Hpsi Ht Hx.
rewrite /amplitude; set w := variables _; rewrite /imag_time_step /imag_time_model /=.
have E : w "tau" = Some (inl tau) by rewrite /w /variables /imag_time_step /= /merge /single /= Hms.
rewrite /pop E.
set pars := (fun k' : string => _).
have Hp y : vs_apply v pars y = Some (psi y).
  rewrite -Hpsi /amplitude; apply: Hind => k Hk; rewrite /pars /w /variables /imag_time_step /= /merge /single /=.
  have -> : String.eqb k "tau" = false by apply/negbTE/negP => /String.eqb_eq.
  by case: (vs_model_state v k).
rewrite (local_total _ Hp) Hp; congr Some.
rewrite -mulrA [(_ - _) * tau]mulrBl mul1r mulVf // mul1r mulrBr mulr1; congr (_ - _).
by rewrite mulrA mulrCA mulfV // mulr1 mulrC.
Qed.

(* The variant used by ImagTimeStep needs no condition on tau *)
Theorem C57_log_step (v : vstate F T Par) (psi : T -> F) (tau : F) x :
  (forall y, amplitude v y = Some (psi y)) -> psi x != 0 ->
  log_imag_time_step conn tau v x = Some (psi x - tau * apply_H psi x).
Proof.
move=> Hpsi Hx; rewrite /log_imag_time_step (local_total _ Hpsi) Hpsi; congr Some.
by rewrite mulrBr mulr1 mulrCA [psi x * _]mulrC divfK.
Qed.

(* Nesting: the second application of the step function raises for every configuration, because
   the outer model removes the only "tau" before it evaluates the inner one *)
Theorem C57_nested_error (v : vstate F T Par) (tau1 tau2 : F) x :
  amplitude (imag_time_step conn tau2 (imag_time_step conn tau1 v)) x = None.
Proof.
rewrite /amplitude /= /imag_time_model /pop.
case: (variables _ _) => [[tau|p]|] //; rewrite /local_energy /= /pop /=.
Qed.
End Imag.

(* C57 is false for two nested steps: H = 0 on one configuration, psi = 1 *)
Theorem C57_nested_refuted : exists (conn : unit -> seq (unit * rat)) (v : vstate [fieldType of rat] [eqType of unit] unit) (tau : rat),
  (forall x, amplitude v x = Some 1) /\ tau != 0 /\
  amplitude (imag_time_step conn tau (imag_time_step conn tau v)) tt
  <> Some (1 - tau * apply_H conn (fun x => 1) tt - tau * apply_H conn (fun y => 1 - tau * apply_H conn (fun x => 1) y) tt).
Proof.
exists (fun _ => [::]), (@VState [fieldType of rat] [eqType of unit] unit (fun _ _ => Some 1) tt (fun _ => None)), 1.
by split=> //; split=> //; rewrite C57_nested_error.
Qed.

(* two configurations, H = [[1, 2], [2, 0]], psi = (1, 3), tau = 1/2: (1 - H/2) psi = (-5/2, 2) *)
Definition ex_conn (x : bool) : seq (bool * rat) := if x then [:: (false, 2%:R)] else [:: (false, 1); (true, 2%:R)].
Definition ex_state : vstate [fieldType of rat] [eqType of bool] unit :=
  @VState [fieldType of rat] [eqType of bool] unit (fun _ x => Some (if x then 3%:R else 1)) tt (fun _ => None).
Example C57_example : (amplitude (imag_time_step ex_conn (1 / 2%:R) ex_state) false, amplitude (imag_time_step ex_conn (1 / 2%:R) ex_state) true)
  = (Some (- (5%:R / 2%:R)), Some 2%:R).
Proof. by vm_compute. Qed.
