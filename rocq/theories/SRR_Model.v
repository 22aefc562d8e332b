(* driver/VMC_SRRMSProp.py: the function SRRMSProp (L19-76) and the state of the driver
   VMC_SRRMSProp it is called from (L150, L197-233).  Everything is real: complex local energies
   are pairs, complex jacobians (mode "complex") a list of real and a list of imaginary rows.
   MPI ranks are a list, rank 0 its head.  The pytree conversion (L231) is in SRR_Pytree_Model.  Not modelled:
   the schedule of diag_shift (each step gets its own value). *)
From Verif Require Import Base.
Import Num.Theory Order.TTheory.
Local Open Scope ring_scope.

Section SRR.
Variables (R : rcfType) (P : nat).

(* O_L of one rank: O_L[:, 0, :] and O_L[:, 1, :] in mode "complex", only the first in mode "real";
   [energies]: local_energies.flatten() (L25) *)
Record rank_data := RankData { o_re : seq 'rV[R]_P; o_im : seq 'rV[R]_P; energies : seq (R * R) }.

Section Step.
Variables (complex_mode : bool) (ranks : seq rank_data) (e_mean : R * R).
Let n_nodes := size ranks.

(* L22 *)
Definition n_mc (rk : rank_data) : nat := (size (o_re rk) * n_nodes)%N.

(* L28: -2 * conj(e - e_mean) * sqrt(N_mc) *)
Definition energies_centered (rk : rank_data) : seq (R * R) :=
  [seq (- 2%:R * (e.1 - e_mean.1) * Num.sqrt (n_mc rk)%:R,
        - 2%:R * - (e.2 - e_mean.2) * Num.sqrt (n_mc rk)%:R) | e <- energies rk].

(* L33, nkstats.mean: the mean over the ranks of the mean over the rows *)
Definition o_mean (rows : rank_data -> seq 'rV[R]_P) : 'rV[R]_P :=
  n_nodes%:R^-1 *: \sum_(rk <- ranks) (size (rows rk))%:R^-1 *: \sum_(o <- rows rk) o.

(* L34-36 *)
Definition gathered (rows : rank_data -> seq 'rV[R]_P) : seq 'rV[R]_P :=
  flatten [seq [seq Num.sqrt (n_mc rk)%:R *: (o - o_mean rows) | o <- rows rk] | rk <- ranks].

(* L39-40 *)
Definition dense_O : seq 'rV[R]_P := if complex_mode then gathered o_re ++ gathered o_im else gathered o_re.

(* L29-30 and L41-47 *)
Definition dense_E : seq R :=
  let es := flatten [seq energies_centered rk | rk <- ranks] in
  if complex_mode then [seq e.1 | e <- es] ++ [seq - e.2 | e <- es] else [seq e.1 | e <- es].

(* L53 *)
Definition gradient : 'cV[R]_P := \sum_(p <- zip dense_O dense_E) p.2 *: p.1^T.

Section Root.
Variables (ema : 'cV[R]_P) (step : nat) (diag_shift decay eps : R).

(* L54 *)
Definition ema_next : 'cV[R]_P := \col_a (decay * ema a 0 + (1 - decay) * gradient a 0 ^+ 2).
(* L55 *)
Definition ema_hat : 'cV[R]_P := \col_a (ema_next a 0 / (1 - decay ^+ (step + 1))).
(* L58-60 *)
Definition S_matrix : 'M[R]_P :=
  \sum_(o <- dense_O) o^T *m o + diag_shift *: diag_mx (\row_a (Num.sqrt (ema_hat a 0) + eps)).

Variable solver : 'M[R]_P -> 'cV[R]_P -> 'cV[R]_P.
(* L63 *)
Definition root_updates : 'cV[R]_P := solver S_matrix gradient.

(* L67-68 on a rank other than 0: the buffer passed to mpi_bcast_jax has as many entries as
   local_energies_centered, on these ranks their own n samples (mpi_gather_jax returns its input
   there); the call fails (None) if that is not the number broadcast.  In mode "complex" the
   transposition L40 already fails, the array reshaped by L36 having two axes only *)
Definition bcast_received (rk : rank_data) : option 'cV[R]_P :=
  if complex_mode then None
  else if size (energies rk) == P then Some root_updates else None.

(* L76 for every rank, rank 0 first; the ema of the other ranks stays as it is *)
Definition updates_of_ranks : seq (option 'cV[R]_P) :=
  if ranks is _ :: others
  then Some (- root_updates) :: [seq omap (fun u => - u) (bcast_received rk) | rk <- others]
  else [::].
End Root.
End Step.

(* L72-74: updates[:np] + 1j * updates[np:], a list of pairs *)
Definition repack (updates : seq R) : seq (R * R) :=
  let np := (size updates %/ 2)%N in zip (take np updates) (drop np updates).

(* --- the driver on rank 0 *)
Record driver := Driver { d_ema : 'cV[R]_P; step_count : nat }.
(* L150 *)
Definition initial_driver (initial_scale : R) : driver := Driver (const_mx initial_scale) 0.

Record step_input := StepInput { si_ranks : seq rank_data; si_mean : R * R; si_shift : R }.
Section Driver.
Variables (complex_mode : bool) (decay eps : R) (solver : 'M[R]_P -> 'cV[R]_P -> 'cV[R]_P).

(* L217-229; the step counter is increased by the driver loop of NetKet after the update *)
Definition driver_step (d : driver) (i : step_input) : driver :=
  Driver (ema_next complex_mode (si_ranks i) (si_mean i) (d_ema d) decay) (step_count d).+1.
Definition driver_run (d : driver) (l : seq step_input) : driver := foldl driver_step d l.
(* AbstractVariationalDriver.reset of NetKet: the step counter only; VMC_SRRMSProp does not
   override it *)
Definition driver_reset (d : driver) : driver := Driver (d_ema d) 0.

(* the quantities of the step made from the state d with the input i *)
Definition step_ema_hat (d : driver) (i : step_input) : 'cV[R]_P :=
  ema_hat complex_mode (si_ranks i) (si_mean i) (d_ema d) (step_count d) decay.
Definition step_matrix (d : driver) (i : step_input) : 'M[R]_P :=
  S_matrix complex_mode (si_ranks i) (si_mean i) (d_ema d) (step_count d) (si_shift i) decay eps.
Definition step_gradient (i : step_input) : 'cV[R]_P := gradient complex_mode (si_ranks i) (si_mean i).
Definition step_update (d : driver) (i : step_input) : 'cV[R]_P :=
  - root_updates complex_mode (si_ranks i) (si_mean i) (d_ema d) (step_count d) (si_shift i) decay eps solver.
End Driver.
End SRR.
