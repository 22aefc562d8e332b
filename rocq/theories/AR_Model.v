(* Autoregressive models: models/autoreg_qGPS.py, models/autoreg_qGPS_full.py (without fast
   updates, see ARFull_Model) and models/autoreg_plaquetteqGPS.py, and the direct sampler
   sampler/autoreg.py L79-177.

   Everything is per sample (the code carries a batch axis, every operation is entrywise in
   it).  Configurations are sequences of local indices (states_to_local_indices has been
   applied; the sampler's local_states[k] is k).  A log-amplitude log_psi is a pair (v, a): a
   is false if -inf has been added, v is the finite part.  exp(machine_pow * v.real) is the
   parameter [wexp].  The division by a zero normaliser (NaN in the code: -inf - (-inf)) is 0
   in the model; the theorems say when it happens. *)
From Verif Require Import Base Choice_Model QGPS_Model.
Import Num.Theory Order.TTheory.
Local Open Scope ring_scope.

(* inputs[:, index - 1]; a negative index counts from the end *)
Definition prev_site (x : seq nat) (i : nat) : nat :=
  nth 0%N x (if i is i'.+1 then i' else (size x).-1).

Section AR.
Variables (V : comRingType) (R : realFieldType) (wexp : V -> R).
(* L = hilbert.size, D = hilbert.local_size *)
Variables (D L : nat) (constrained : bool).
(* model.count_spins and model.renormalize_log_psi(n_spins, hilbert, index): true where 0 is
   added to the log-amplitude, false where -inf is added *)
Variables (count_spins : nat -> seq nat) (renorm : seq nat -> nat -> seq bool).

(* What differs between the models: from the carried cache, the configuration and the index
   the new cache and out_transformation(prods), one entry per local state. *)
Variables (C : Type) (c0 : C) (site : C -> seq nat -> nat -> C * seq V).

(* _compute_conditional, autoreg_qGPS.py L233-279 / autoreg_qGPS_full.py L258-343 /
   autoreg_plaquetteqGPS.py L131-180, for index >= 0 (the sampler's call with index = -1 only
   initialises the cache: both gpu_cond keep the old values). *)
Definition compute_conditional (c : C) (ns : seq nat) (x : seq nat) (i : nat) :
    C * seq nat * seq (V * bool) :=
  let: (c', v) := site c x i in
  let ns' := if (0 < i)%N then [seq p.1 + p.2 | p <- zip ns (count_spins (prev_site x i))]%N else ns in
  (c', ns', zip v (renorm ns' i)).

(* _conditionals, autoreg_qGPS.py L320-349 and the same function of the other files: scan *)
Fixpoint scan_conditionals (is_ : seq nat) (c : C) (ns : seq nat) (x : seq nat) : seq (seq (V * bool)) :=
  if is_ is i :: is' then
    let: (c', ns', lp) := compute_conditional c ns x i in
    lp :: scan_conditionals is' c' (if constrained then ns' else nseq (size ns') 0%N) x
  else [::].
Definition log_conditionals (x : seq nat) : seq (seq (V * bool)) :=
  scan_conditionals (iota 0 L) c0 (nseq D 0%N) x.

(* _conditional, autoreg_qGPS.py L282-317 and the same function of the other files.  The
   "cache" collection holds the carried cache and, for constrained spaces only, n_spins. *)
Definition mstate : Type := (C * seq nat)%type.
Definition log_conditional (m : mstate) (x : seq nat) (i : nat) : mstate * seq (V * bool) :=
  let ns := if constrained then m.2 else nseq D 0%N in
  let: (c', ns', lp) := compute_conditional m.1 ns x i in
  ((c', if constrained then ns' else m.2), lp).
(* _init_cache, sampler/autoreg.py L48-61, together with setup L146-168 *)
Definition init_mstate : mstate := (c0, nseq D 0%N).

(* exp(machine_pow * log_psi.real) *)
Definition weights (lp : seq (V * bool)) : seq R := [seq if va.2 then wexp va.1 else 0 | va <- lp].
(* _normalize, autoreg_qGPS.py L227-230, followed by exp(machine_pow * log_psi.real)
   (L130-132, L141-143): conditional probabilities *)
Definition normalized (w : seq R) : seq R := [seq v / (\sum_(u <- w) u) | v <- w].

(* conditionals(), L135-144 *)
Definition conditionals (x : seq nat) : seq (seq R) :=
  [seq normalized (weights lp) | lp <- log_conditionals x].

(* __call__, L170-202, one symmetry copy: exp(machine_pow * Re log psi(x)) *)
Definition prob_one (x : seq nat) : R :=
  \prod_(i < L) nth 0 (nth [::] (conditionals x) i) (nth 0%N x i).
(* L196-199: (1/machine_pow) logsumexp(machine_pow * log_psi.real, b = 1/n_symm) *)
Definition prob (s : symset) (x : seq nat) : R :=
  (\sum_(y <- sym_copies s x) prob_one y) / (size (sym_copies s x))%:R.

(* Finite distributions: lists of outcomes with probabilities *)
Definition dist (A : Type) : Type := seq (A * R).
Definition dret (A : Type) (a : A) : dist A := [:: (a, 1)].
Definition dbind (A B : Type) (d : dist A) (f : A -> dist B) : dist B :=
  flatten [seq [seq (b.1, a.2 * b.2) | b <- f a.1] | a <- d].
Definition pr (A : Type) (d : dist A) (P : pred A) : R := \sum_(a <- d | P a.1) a.2.

(* batch_choice, one row (see C25) *)
Definition draw_index (p : seq R) : dist nat := [seq (k, choice_prob p k) | k <- iota 0 (size p)].

(* scan_fun, sampler/autoreg.py L84-108 *)
Definition sample_step (st : seq nat * mstate) (i : nat) : dist (seq nat * mstate) :=
  let: (x, m) := st in
  let: (m', lp) := log_conditional m x i in
  dbind (draw_index (normalized (weights lp))) (fun k => dret (set_nth 0%N x i k, m')).
(* L110-158: the loop over the sites from a zero buffer *)
Definition sample_sites (is_ : seq nat) (st : seq nat * mstate) : dist (seq nat * mstate) :=
  foldl (fun d i => dbind d (fun st' => sample_step st' i)) (dret st) is_.
(* L160-177: symmetry copies and a uniformly drawn one *)
Definition sample_chain (s : symset) : dist (seq nat) :=
  dbind (sample_sites (iota 0 L) (nseq L 0%N, init_mstate)) (fun st =>
    [seq (y, 1 / (size (sym_copies s st.1))%:R) | y <- sym_copies s st.1]).
End AR.

(* count_spins, autoreg_qGPS.py L105-107: [(s+1) & 1, ((s+1) & 2) / 2] *)
Definition count_spins2 (s : nat) : seq nat := [:: (s.+1 %% 2); ((s.+1 %/ 2) %% 2)]%N.
(* renormalize_log_psi, L110-112: log(heaviside(hilbert.size // 2 - n_spins, 0)) *)
Definition renorm2 (L : nat) (ns : seq nat) (i : nat) : seq bool := [seq (n < L %/ 2)%N | n <- ns].

(* count_spins_fermionic and renormalize_log_psi_fermionic, scripts/ARGPS/argps/models.py
   L241-259, L280-337 (the same functions with an equivalent order of operations:
   tutorials/autoreg_state_fitting_example.py L12-59).  n_elec = (nu, nd); diff = n_elec - n
   is compared without subtraction. *)
Definition count_spins4 (s : nat) : seq nat := [:: 0; s %% 2; (s %/ 2) %% 2; 0]%N.
Definition renorm4 (L nu nd : nat) (ns : seq nat) (i : nat) : seq bool :=
  let n1 := nth 0%N ns 1 in
  let n2 := nth 0%N ns 2 in
  let log_psi : seq bool := nseq 4 true in
  let log_psi := if n1 == nu then set_nth false log_psi 1 false else log_psi in
  let log_psi := if n2 == nd then set_nth false log_psi 2 false else log_psi in
  let log_psi := if (n1 == nu) || (n2 == nd) then set_nth false log_psi 3 false else log_psi in
  let log_psi := if (L - i + n1 <= nu)%N then set_nth false (set_nth false log_psi 0 false) 2 false else log_psi in
  if (L - i + n2 <= nd)%N then set_nth false (set_nth false log_psi 0 false) 1 false else log_psi.

Section Models.
Variables (V : comRingType) (out : seq V -> V) (D M L : nat).

(* The models; epsilon indexed as in the code: [d, m, i], for [FullTuple] epsilon_i[d, m, j] *)
Inductive model : Type :=
| ARq of (nat -> nat -> nat -> V)
| ARFull of (nat -> nat -> nat -> V)
| ARFullTuple of (nat -> nat) & (nat -> nat -> nat -> nat -> V)
| ARPlaq of (nat -> nat -> bool) & (nat -> nat -> nat) & (nat -> nat -> nat -> V).

(* ARqGPS, autoreg_qGPS.py L244-258; the cache is (D, M), all ones initially (L157-164, L344) *)
Definition cache0 : seq (seq V) := nseq D (nseq M 1).
Definition arq_prods (eps : nat -> nat -> nat -> V) (c : seq (seq V)) (x : seq nat) (i : nat) : seq (seq V) :=
  [seq [seq eps d m i * nth 0 (nth [::] c (prev_site x i)) m | m <- iota 0 M] | d <- iota 0 D].

(* ARqGPSFull, autoreg_qGPS_full.py L273-303 (one array epsilon of shape (D, M, L(L+1)/2)).
   dynamic_slice_in_dim(epsilon, lower, L) starts at lower unless that would run past the
   end, in which case the start is clamped. *)
Definition lower_index (i : nat) : nat := (i * (i + 1)) %/ 2.
Definition n_packed : nat := (L * (L + 1)) %/ 2.
Definition slice_start (lower : nat) : nat := minn lower (n_packed - L).
Definition full_context (eps : nat -> nat -> nat -> V) (x : seq nat) (i m : nat) : V :=
  \prod_(j < L) (if (i <= j)%N then 1 else eps (nth 0%N x j) m (slice_start (lower_index i) + j)%N).
Definition full_prods (eps : nat -> nat -> nat -> V) (x : seq nat) (i : nat) : seq (seq V) :=
  [seq [seq eps d m (lower_index i + i)%N * full_context eps x i m | m <- iota 0 M] | d <- iota 0 D].

(* the same model with a per-site support dimension: epsilon is a tuple, entry i of shape
   (D, Ms[i], i+1) (L92-103, L266-285) *)
Definition fulltuple_prods (Ms : nat -> nat) (eps : nat -> nat -> nat -> nat -> V) (x : seq nat) (i : nat) : seq (seq V) :=
  [seq [seq eps i d m i * \prod_(j < i.+1) (if (i <= j)%N then 1 else eps i (nth 0%N x j) m j)
      | m <- iota 0 (Ms i)] | d <- iota 0 D].

(* ARPlaquetteqGPS, autoreg_plaquetteqGPS.py L146-156 *)
Definition plaq_prods (masks : nat -> nat -> bool) (plaquettes : nat -> nat -> nat) (eps : nat -> nat -> nat -> V)
    (x : seq nat) (i : nat) : seq (seq V) :=
  [seq [seq eps d m 0%N * \prod_(j < L) (if masks i j then eps (nth 0%N x (plaquettes i j)) m j else 1)
      | m <- iota 0 M] | d <- iota 0 D].

(* the cache is only used by ARqGPS *)
Definition model_site (md : model) (c : seq (seq V)) (x : seq nat) (i : nat) : seq (seq V) * seq V :=
  match md with
  | ARq eps => (arq_prods eps c x i, map out (arq_prods eps c x i))
  | ARFull eps => (c, map out (full_prods eps x i))
  | ARFullTuple Ms eps => (c, map out (fulltuple_prods Ms eps x i))
  | ARPlaq masks plaquettes eps => (c, map out (plaq_prods masks plaquettes eps x i))
  end.

(* get_plaquettes_and_masks, scripts/ARGPS/argps/models.py L339-361: circulant(arange(L)) has
   entry (i - j) mod L; the mask is 0 where plaquettes[i, j] >= i *)
Definition circulant (i j : nat) : nat := ((i + (L - j)) %% L)%N.
Definition autoreg_masks (plaquettes : nat -> nat -> nat) (i j : nat) : bool := (plaquettes i j < i)%N.
End Models.
