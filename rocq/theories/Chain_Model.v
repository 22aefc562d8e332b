(* One chain of the Metropolis samplers as a Markov chain (sampler/metropolis_fast.py L33-101;
   NetKet's MetropolisSampler, used by MetropolisHopping, has the same loop).  Random draws become
   probabilities: a proposal x' made by the draws d is taken with the probability that
   uniform < exp(log_prob' - log_prob) = w x' / w x (L54-60) for a uniform number in [0,1), else
   the chain stays (L63); w stands for |psi|^machine_pow.  Keys split from one another are taken
   to give independent draws. *)
From Verif Require Import Base Fock_Spec Occ_Model Occ_Spec Choice_Model Rule_Model Metropolis_Inst Markov.
Import Num.Theory Order.TTheory.
Local Open Scope ring_scope.

Section HopChain.
Variables (F : realFieldType) (hp : F) (tp : option (seq (seq F))) (w : cfg -> F).

(* sum over all draws of apply_electron_hop, sampler/rules/fermionic_hopping.py L12-40 *)
Definition drawsum (x : cfg) (phi : draws -> F) : F :=
  \sum_(exch <- [:: false; true]) \sum_(start < size x) \sum_(spin <- [:: 1; 2]%N) \sum_(drawn < size x)
    phi (exch, start : nat, spin, drawn : nat).

(* metropolis_fast.py L33-78, loop_body: probability to go from x to y *)
Definition step_prob (x y : cfg) : F :=
  drawsum x (fun d =>
    let x' := (apply_electron_hop x d).1.1 in
    let acc : F := accept_prob (w x' / w x) in
    move_prob hp tp x d * (acc * (x' == y)%:R + (1 - acc) * (x == y)%:R)).
End HopChain.

(* the configurations of a sector (hilbert/discrete_fermion.py L9-36) as a finite type *)
Definition sconf (L nu nd : nat) : Type := {t : L.-tuple 'I_4 | in_sector L nu nd (map val t)}.
Canonical sconf_eqType L nu nd := Eval hnf in [eqType of sconf L nu nd].
Canonical sconf_choiceType L nu nd := Eval hnf in [choiceType of sconf L nu nd].
Canonical sconf_countType L nu nd := Eval hnf in [countType of sconf L nu nd].
Canonical sconf_finType L nu nd := Eval hnf in [finType of sconf L nu nd].
Definition occs (L nu nd : nat) (x : sconf L nu nd) : cfg := map val (val x).

(* one step, and the distribution of the configuration returned by one call of _sample_next,
   metropolis_fast.py L84-101: sweep_size steps (fori_loop, L92) *)
Definition hop_step (F : realFieldType) hp tp (w : cfg -> F) L nu nd (x y : sconf L nu nd) : F :=
  step_prob hp tp w (occs x) (occs y).
Definition sweep_prob (F : realFieldType) hp tp (w : cfg -> F) L nu nd (sweep_size : nat)
  : sconf L nu nd -> sconf L nu nd -> F := pw (hop_step hp tp w (L := L) (nu := nu) (nd := nd)) sweep_size.
