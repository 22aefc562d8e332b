(* Complex amplitudes of the autoregressive models: the symmetrised __call__ (models/autoreg_qGPS.py L170-202,
   models/autoreg_qGPS_full.py L141-255 without updates, models/autoreg_plaquetteqGPS.py L96-128) for
   machine_pow = 2, and ARqGPSModPhase (autoreg_qGPS.py L205-225), ARqGPSModPhaseFull
   (autoreg_qGPS_full.py L427-443).  Real numbers are Coq's, a complex number is the pair of its parts. *)
From Coq Require Import Reals.
From Verif Require Import Base Rstruct QGPS_Model AR_Model.
Local Open Scope ring_scope.
Local Notation RR := R_realFieldType.

Section Phase.
(* log-amplitudes in V; wexp v = exp(2 Re v), im v = Im v *)
Variables (V : comRingType) (wexp im : V -> RR).
Variables (D L : nat) (constrained : bool) (count_spins : nat -> seq nat) (renorm : seq nat -> nat -> seq bool).
Variables (C : Type) (c0 : C) (site : C -> seq nat -> nat -> C * seq V).
(* numpy's angle of a complex number *)
Variable carg : RR * RR -> RR.

(* L187-193: imaginary part of the sum over the sites; _normalize and -inf change only the real part *)
Definition phase_one (x : seq nat) : RR :=
  \sum_(i < L) im (nth (0, true) (nth [::] (log_conditionals D L constrained count_spins renorm c0 site x) i) (nth 0%N x i)).1.
(* L199: logsumexp(1j * log_psi.imag).imag *)
Definition phase_sum (s : symset) (x : seq nat) : RR * RR :=
  (\sum_(y <- sym_copies s x) (cos (phase_one y) : RR), \sum_(y <- sym_copies s x) (sin (phase_one y) : RR)).
Definition phase_symm (s : symset) (x : seq nat) : RR := carg (phase_sum s x).
(* exp(log_psi) for a modulus squared and a phase *)
Definition amplitude (p phase : RR) : RR * RR := (sqrt p * cos phase, sqrt p * sin phase)%R.
(* exp of L196-202 *)
Definition ar_psi (s : symset) (x : seq nat) : RR * RR :=
  amplitude (prob wexp D L constrained count_spins renorm c0 site s x) (phase_symm s x).
End Phase.

Section ModPhase.
(* real parameters: the log-amplitudes of the modulus are real, their symmetrised phase is 0 *)
Variables (wexp : RR -> RR) (D L : nat) (constrained : bool) (count_spins : nat -> seq nat) (renorm : seq nat -> nat -> seq bool).
Variables (C : Type) (c0 : C) (site : C -> seq nat -> nat -> C * seq RR).
(* L217-219: a real qGPS without symmetries, support dimension L *)
Variable eps : nat -> nat -> nat -> RR.
Definition modphase_phase (x : seq nat) : RR := default_out (get_site_prod eps L (SymSet None false) x).
(* exp of L222-225 *)
Definition modphase_psi (s : symset) (x : seq nat) : RR * RR :=
  amplitude (prob wexp D L constrained count_spins renorm c0 site s x) (modphase_phase x).
End ModPhase.
