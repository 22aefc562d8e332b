(* GPSKet/supervised/supervised_qgps.py, QGPSLearningExp: setup_fit_noise_dep (L560-594) and the weighted data term
   of log_marg_lik (L619-641) where amplitudes may be zero.  Real parameters (dtype float), fit_data of
   setup_fit (L604-616).  Real numbers of Coq's standard library; m configurations of all ranks. *)
From Coq Require Import Reals List.
From Verif Require Import Sup_Glm_Grad.
Local Open Scope R_scope.

Section Zero.
Variables (m : nat) (K : nat -> nat -> R).
(* self.noise_tilde; self.predict(self.confs) where iterative_noise_est; noise_reweighting and weightings
   where they are not None; [shift]: contribution of the prior mean, L612-615 *)
Variables (noise : R) (pred reweighting weightings : option (nat -> R)) (shift : nat -> R).
Definition is0 (x : R) : bool := if Req_EM_T x 0 then true else false.
(* L560-581; for a zero amplitude noise/0 and log1p of it are inf, S_diag is 0 *)
Definition S_noise (amps : nat -> R) (i : nat) : R :=
  if is0 noise then 1 else
  match pred with
  | Some pr => 1 / (ln (1 + sqrt (4 * noise / Rabs (pr i) ^ 2 + 1)) + ln (1 / 2))
  | None => if is0 (amps i) then 0 else
    match reweighting with
    | None => 1 / ln (1 + noise / Rabs (amps i) ^ 2)
    | Some rw => 1 / ln (1 + noise / (Rabs (amps i) ^ 2 / rw i))
    end
  end.
(* L582-583 *)
Definition S_diag (amps : nat -> R) (i : nat) : R :=
  match weightings with None => S_noise amps i | Some wt => S_noise amps i * wt i end.
(* L606, L612-615 *)
Definition fit_data (amps : nat -> R) (i : nat) : R := ln (Rabs (amps i)) - shift i.
(* L586-588 *)
Definition KtK0 (amps : nat -> R) (j k : nat) : R := rsum m (fun i => K i j * (S_diag amps i * K i k)).
(* L590-592 *)
Definition multiplicator (amps : nat -> R) (i : nat) : R :=
  if is0 (amps i) then - 1 / 2 else S_diag amps i * fit_data amps i.
Definition y0 (amps : nat -> R) (j : nat) : R := rsum m (fun i => K i j * multiplicator amps i).
End Zero.

(* division of numpy arrays of one axis: equal lengths, or one of length one; None when it raises *)
Definition np_div (x y : list R) : option (list R) :=
  if Nat.eqb (length x) (length y) then Some (map (fun p => fst p / snd p) (combine x y)) else
  match x, y with
  | a :: nil, _ => Some (map (fun b => a / b) y)
  | _, b :: nil => Some (map (fun a => a / b) x)
  | _, _ => None
  end.
(* L631-640 on one rank, data as lists: S_diag[exp_amps != 0.0] / weightings *)
Definition weighted_precisions (s_diag amps wt : list R) : option (list R) :=
  np_div (map fst (filter (fun p => negb (is0 (snd p))) (combine s_diag amps))) wt.
