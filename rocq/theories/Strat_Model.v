(* vqs/mc/mc_state/state_stratified_sampling.py: MCStateStratifiedSampling.  A configuration is an
   element of an eqType, [prob x] is exp(2 Re log_value(x)) (log-probabilities are replaced by
   probabilities: subtraction of rescale_shift is division by the largest probability).  The
   underlying sampler, self.sample(chain_length=1, n_discard_per_chain=0) with n_sweeps = 1, is
   [mc_step]: from the random state and the current configurations of the chains of a rank
   (sampler_state.sigma) to the new ones.  hilbert.random_state calls are a list of candidates. *)
From Verif Require Import Base Split_Model.
Import Num.Theory Order.TTheory.
Local Open Scope ring_scope.

Section Strat.
Variables (T : eqType) (Rng : Type) (mc_step : Rng -> seq T -> Rng * seq T).
(* deterministic_samples, all ranks; lookup_dict, L55-57, is membership in it *)
Variable det : seq T.

(* L59-75: one initial configuration per chain, the first candidate outside lookup_dict;
   None: the candidates are used up *)
Fixpoint draw_valid (cands : seq T) : option (T * seq T) :=
  match cands with
  | [::] => None
  | c :: cs => if c \in det then draw_valid cs else Some (c, cs)
  end.
Fixpoint initial_chains (n_chains : nat) (cands : seq T) : option (seq T) :=
  if n_chains is n.+1 then
    if draw_valid cands is Some (c, cs) then omap (cons c) (initial_chains n cs) else None
  else Some [::].

(* sample_step, L90-106; the state is (random state, current_sample = sampler_state.sigma) *)
Definition reject_det (old new : T) : T := if new \in det then old else new.
Definition sample_step (st : Rng * seq T) : Rng * seq T :=
  let: (rng, new) := mc_step st.1 st.2 in
  (rng, [seq reject_det p.1 p.2 | p <- zip st.2 new]).

(* L111-125: warm-up, then chain_length times n_sweeps steps and append *)
Definition sweep (n_sweeps : nat) (st : Rng * seq T) := iter n_sweeps sample_step st.
Fixpoint collect (n_sweeps chain_length : nat) (st : Rng * seq T) : seq (seq T) * (Rng * seq T) :=
  if chain_length is n.+1 then
    let st' := sweep n_sweeps st in let: (l, st'') := collect n_sweeps n st' in (st'.2 :: l, st'')
  else ([::], st).
Definition complement_samples (n_discard n_sweeps chain_length : nat) (st : Rng * seq T) : seq T * (Rng * seq T) :=
  let: (l, st') := collect n_sweeps chain_length (sweep (n_discard * n_sweeps) st) in (flatten l, st').

(* L168-183: number_random_samples candidates outside lookup_dict (the first ones) *)
Definition random_samples (k : nat) (cands : seq T) : option (seq T) :=
  let l := [seq c <- cands | c \notin det] in if (k <= size l)%N then Some (take k l) else None.

(* L127-220.  Per rank: its deterministic samples (array_split, L45-47), the samples from the
   complement, the random samples *)
Section Weights.
Variables (F : realFieldType) (prob : T -> F) (N_total : nat) (renormalize rand_norm : bool).
Record rank_data := RankData { rd_det : seq T; rd_comp : seq T; rd_rand : seq T }.
Variable ranks : seq rank_data.

(* L49-51 *)
Definition N_complement : F := N_total%:R - (size det)%:R.
(* _sum over the ranks *)
Definition rsum (f : rank_data -> F) : F := \sum_(r <- ranks) f r.
(* L141 *)
Definition total_samples : F := rsum (fun r => (size (rd_comp r))%:R).
(* L146-152: exp(rescale_shift); the largest probability on all ranks *)
Definition max_prob : F := foldr Num.max 0 (flatten [seq map prob (rd_det r ++ rd_comp r) | r <- ranks]).
Definition scale : F := if renormalize then max_prob else 1.
(* L156, L207 *)
Definition norm_deterministic : F := rsum (fun r => \sum_(x <- rd_det r) prob x / scale).
(* L158-203 *)
Definition norm_sampled : F :=
  if rand_norm then N_complement * rsum (fun r => \sum_(x <- rd_rand r) prob x / scale) / rsum (fun r => (size (rd_rand r))%:R)
  else N_complement * total_samples / rsum (fun r => \sum_(x <- rd_comp r) (prob x / scale)^-1).
(* L205, L208 *)
Definition norm_estimate : F := if renormalize then norm_deterministic + norm_sampled else 1.
(* L210-220: samples and weights of a rank *)
Definition strat_weights (r : rank_data) : seq (T * F) :=
  [seq (x, prob x / scale / norm_estimate) | x <- rd_det r]
  ++ [seq (x, (1 - norm_deterministic / norm_estimate) / total_samples) | x <- rd_comp r].
End Weights.
End Strat.
