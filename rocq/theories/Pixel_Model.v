(* models/pixelcnn.py: PixelCNN as a wave function with its gauge constraint, and drawing samples from it with
   sampler/autoreg.py; one sample, amplitudes as |psi|^machine_pow. *)
From Verif Require Import Base Choice_Model AR_Model Causal_Model.
Local Open Scope ring_scope.

Section Pixel.
(* wexp v = exp(machine_pow * Re v) of a log-amplitude v; loc: the local states of the Hilbert space *)
Variables (F : comRingType) (R : realFieldType) (wexp : F -> R) (loc : nat -> F).
(* L66-69: local dimension D, N = L ** 2 sites *)
Variables (D L k n : nat) (act : F -> F).
Variables (wv : nat -> nat -> nat -> nat -> F) (bv : nat -> F) (wh : nat -> nat -> nat -> nat -> F) (bh : nat -> F).
Variables (layers : seq (layer F)) (wf : nat -> nat -> nat -> nat -> F) (bf : nat -> F).
Definition N : nat := (L * L)%N.
(* L112-121, the output of the network before constraint and normalisation *)
Definition net (inputs : nat -> F) (i o : nat) : F :=
  pixelcnn L k n act wv bv wh bh layers wf bf (fun f => f) inputs i o.

(* gauge_fn and constraint_fn, L52-55: what they return is broadcast against (sites, local states) *)
Variables (G : Type) (gauge_fn : option ((nat -> F) -> G)) (constraint_fn : option (G -> nat -> nat -> bool)).
Variable normalize : bool.
(* L124-126 *)
Definition is_broken (inputs : nat -> F) (i o : nat) : bool :=
  match gauge_fn, constraint_fn with Some g, Some c => c (g inputs) i o | _, _ => false end.
(* L127: exp(machine_pow * Re log_psi), 0 for -inf *)
Definition weight (inputs : nat -> F) (i o : nat) : R :=
  if is_broken inputs i o then 0 else wexp (net inputs i o).
Definition site_weights (inputs : nat -> F) (i : nat) : seq R := [seq weight inputs i o | o <- iota 0 D].
(* L130-132, exp(machine_pow * Re) of the result: netket's _normalize subtracts the logarithm of the sum;
   -inf - (-inf) is a nan, [None] *)
Definition conditional (inputs : nat -> F) (i : nat) : option (seq R) :=
  let w := site_weights inputs i in
  if ~~ normalize then Some w
  else if all (is_broken inputs i) (iota 0 D) then None else Some (normalized w).

(* netket's AbstractARNN.__call__: the sum over the sites of the chosen log-amplitudes; x lists the local
   indices of the configuration *)
Definition inputs_of (x : seq nat) (j : nat) : F := nth 0 (map loc x) j.
Definition abs_pow (x : seq nat) : option R :=
  foldr (fun i acc => match conditional (inputs_of x) i, acc with
                      | Some p, Some a => Some (nth 0 p (nth 0%N x i) * a) | _, _ => None end) (Some 1) (iota 0 N).

(* sampler/autoreg.py: batch_choice L10-26; every comparison with a nan is false, so that the first local
   state is drawn *)
Definition draw (c : option (seq R)) : dist R nat :=
  if c is Some p then draw_index p else dret R 0%N.
(* scan_fun, L84-108, with netket's _conditional(inputs, index) = conditionals(inputs)[:, index], and the
   loop over the sites L110-158 from a buffer of zeros; there are no symmetries *)
Definition sample_step (buffer : seq F) (i : nat) : dist R (seq F) :=
  dbind (draw (conditional (nth 0 buffer) i)) (fun o => dret R (set_nth 0 buffer i (loc o))).
Definition sample : dist R (seq F) :=
  foldl (fun d i => dbind d (fun b => sample_step b i)) (dret R (nseq N 0)) (iota 0 N).
End Pixel.

(* a causal constraint for spins: gauge_fn sums the spins before every site, constraint_fn refuses local states
   after which the remaining sites cannot bring the sum back to zero *)
Section Magnetisation.
Variables (F : realFieldType) (L : nat).
Definition spin_loc (o : nat) : F := if o == 0%N then -1 else 1.
Definition mag_gauge (inputs : nat -> F) (i : nat) : F := \sum_(j < i) inputs j.
Definition mag_constraint (g : nat -> F) (i o : nat) : bool := ~~ (`|g i + spin_loc o| <= (L * L - i.+1)%N%:R).
End Magnetisation.
