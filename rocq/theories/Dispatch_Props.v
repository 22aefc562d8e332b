(* C118: the sampler chosen by the ARGPS scripts fits the model they build. *)
From Coq Require Import String Reals.
From mathcomp Require Import zify.
From Verif Require Import Base Rstruct Calc Numq Choice_Model QGPS_Model QGPS_Proofs QGPS_Group AR_Model AR_Sym AR_Proofs AR_Lemmas AR_Site AR_Sector AR_Props AR_Phase_Model AR_Phase Argps_Model Argps_Props Dispatch_Model.
Import Num.Theory Order.TTheory.
Local Open Scope ring_scope.
Local Notation RR := R_realFieldType.

(* the model is an autoregressive one with normalised conditionals *)
Definition normalised_model (m : machine) : Prop :=
  match m with MGPS _ _ _ => False | MARFull _ _ _ n => n = true | MARPlaq _ _ _ n _ _ => n = true end.

(* batch_choice draws with the same probabilities from weights that are not normalised *)
Lemma choice_normalized (w : seq RR) k : \sum_(u <- w) u != 0 -> choice_prob (normalized w) k = choice_prob w k.
Proof.
have T (p : seq RR) : last 0 (cumsum p) = \sum_(u <- p) u.
  suff H c : last c (scanl +%R c p) = c + \sum_(u <- p) u by rewrite /cumsum H add0r.
  by elim: p c => [|u p IH] c; rewrite ?big_nil ?addr0 //= IH big_cons addrA.
move=> H; rewrite /choice_prob !T /normalized big_map -mulr_suml divff // oner_eq0 divr1 (negbTE H).
case: (ltnP k (size w)) => Hk; first by rewrite (nth_map 0).
by rewrite !nth_default ?size_map // mul0r.
Qed.

Section Drawn.
Variables (V : fieldType) (wexp im : V -> RR) (carg : RR * RR -> RR) (to_index : int -> nat).
Hypothesis wexp_pos : forall v, 0 < wexp v.
Variable eps : nat -> nat -> nat -> V.
(* the probability with which ARDirectSampler (AR_Model) returns the local indices x *)
Definition drawn (D L : nat) (constrained : bool) (cs : nat -> seq nat) (rn : seq nat -> nat -> seq bool) (m : machine) (x : seq nat) : RR :=
  match m with
  | MGPS _ _ _ => 0
  | MARFull M _ s _ => pr (sample_chain wexp D L constrained cs rn (cache0 V D M) (model_site (fun l => \sum_(v <- l) v) D M L (ARFull eps)) s) (pred1 x)
  | MARPlaq M _ s _ pl mk => pr (sample_chain wexp D L constrained cs rn (cache0 V D M) (model_site (fun l => \sum_(v <- l) v) D M L (ARPlaq mk pl eps)) s) (pred1 x)
  end.
Definition weight (v : V + RR * RR) : RR := if v is inr z then abs2 z else 0.

Lemma modulus_oneE D L c cs rn md M x : modulus_one wexp D L c cs rn md M true x
  = prob_one wexp D L c cs rn (cache0 V D M) (model_site (fun l => \sum_(v <- l) v) D M L md) x.
Proof. by []. Qed.

Section Spins.
Variable L : nat.
Hypothesis HL : ~~ odd L.
Hypothesis Hi : index_ok to_index.
Lemma spin_drawn md M s x : (if md is ARPlaq masks plaquettes _ then
    forall i j, (i < L)%N -> (j < L)%N -> masks i j -> (plaquettes i j < i)%N else True) ->
  perms_ok L s -> (if sy_perms s is Some ps then
     [&& uniq ps, all (is_perm L) ps & all (fun p => all (fun q => comp p q \in ps) ps) ps] else true) -> spins L x ->
  pr (sample_chain wexp 2 L true count_spins2 (renorm2 L) (cache0 V 2 M) (model_site (fun l => \sum_(v <- l) v) 2 M L md) s) (pred1 (map to_index x))
  = abs2 (ar_value wexp im carg to_index 2 L true count_spins2 (renorm2 L) md M true 0 s x).
Proof.
move=> md_ok Hp Hg Hx; have [Hs Ha] := index_all Hi Hx.
have Hns y i : AR_Props.config L 2 y -> (i < L)%N ->
    (forall j, (j < i)%N -> nth 0 (nth [::] (conditionals wexp 2 L true count_spins2 (renorm2 L) (cache0 V 2 M) (model_site (fun l => \sum_(v <- l) v) 2 M L md) y) j) (nth 0%N y j) != 0) ->
    exists2 d, (d < 2)%N & nth 0 (nth [::] (conditionals wexp 2 L true count_spins2 (renorm2 L) (cache0 V 2 M) (model_site (fun l => \sum_(v <- l) v) 2 M L md) y) i) d != 0.
  by move=> [Hys Hya] Hi' _; have [_ _ /(_ i Hi')[d Hd H]] := C29_zero_magnetisation (fun l => \sum_(v <- l) v) M wexp_pos md HL Hys Hya; exists d => //; rewrite gt_eqF.
have := C26_symmetrised_sampling md_ok sz2 (@szr2 L) Hns isT (conj Hs Ha) (s := s) (fun _ => erefl) Hg.
move=> ->; rewrite /ar_value (ar_copies Hi Hp Hx) abs2_amplitude; first by [].
exact: (@prob_ge0 V wexp (fun l => \sum_(v <- l) v) M L wexp_pos md 2 true count_spins2 (renorm2 L) s).
Qed.

(* configs/heisenberg2d.py, with any model, any symmetries and any lattice *)
Theorem C118_heisenberg name c syms M g chain : heisenberg2d name = Some c -> graph_ok L g ->
  exists m sa, [/\ get_system c = Some Heisenberg, get_model name syms (c_system_name c) M L (Some g) chain = Some m,
    get_sampler (with_symmetries syms c) (Some g) = Some sa, s_class sa = ARDirectSampler <-> normalised_model m &
    if s_class sa is ARDirectSampler then forall x, spins L x ->
      drawn 2 L true count_spins2 (renorm2 L) m (map to_index x)
      = weight (value wexp im carg to_index 2 L true count_spins2 (renorm2 L) eps m x)
    else s_graph sa = Some g].
Proof.
rewrite /heisenberg2d; case: ifP => // /negbFE Hn [<-] Hg.
set t := requested "translations" (split_comma syms); set p := requested "point-symmetries" (split_comma syms).
have [Hp Hgr] := group_of_ok t p (requested "spin-flip" (split_comma syms)) Hg.
have mask_ok : forall i j, (i < L)%N -> (j < L)%N -> get_masks L (Some g) i j -> (get_plaquettes L (Some g) i j < i)%N by [].
move: Hn; rewrite /listed /model_names => Hn.
have {Hn} [->|[->|[->|[->|[->|->]]]]] : (name = "GPS" \/ name = "FilterGPS" \/ name = "ARGPS" \/ name = "MaskedGPS" \/ name = "ARFilterGPS" \/ name = "MaskedFilterGPS")%string.
  by move: Hn => /=; rewrite !orbA orbF; do 5 (case/orP => [|/String.eqb_spec]; last by move=> ->; tauto); move=> /String.eqb_spec ->; tauto.
- by do 2 eexists; split=> //.
- by do 2 eexists; split=> //.
- do 2 eexists; split=> // x Hx.
  by rewrite /drawn /weight /value; apply: spin_drawn.
- by do 2 eexists; split=> //.
- do 2 eexists; split=> // x Hx.
  by rewrite /drawn /weight /value; apply: spin_drawn.
- by do 2 eexists; split=> //.
Qed.
End Spins.

Section Electrons.
Variables (L nu nd : nat).
Hypothesis Hnu : (nu <= L)%N.
Hypothesis Hnd : (nd <= L)%N.
Lemma electron_drawn md M x : (if md is ARPlaq masks plaquettes _ then
    forall i j, (i < L)%N -> (j < L)%N -> masks i j -> (plaquettes i j < i)%N else True) ->
  size x = L -> all (fun o => (to_index o < 4)%N) x ->
  pr (sample_chain wexp 4 L true count_spins4 (renorm4 L nu nd) (cache0 V 4 M) (model_site (fun l => \sum_(v <- l) v) 4 M L md) (SymSet None false)) (pred1 (map to_index x))
  = abs2 (ar_value wexp im carg to_index 4 L true count_spins4 (renorm4 L nu nd) md M true 0 (SymSet None false) x).
Proof.
move=> md_ok Hs Ha; have Hs' : size (map to_index x) = L by rewrite size_map.
have Ha' : all (fun o => (o < 4)%N) (map to_index x) by rewrite all_map.
have [-> _] := C26_electron_sampler (fun l => \sum_(v <- l) v) M wexp_pos md_ok Hnu Hnd Hs' Ha'.
have E : prob wexp 4 L true count_spins4 (renorm4 L nu nd) (cache0 V 4 M) (model_site (fun l => \sum_(v <- l) v) 4 M L md) (SymSet None false) (map to_index x)
  = prob_one wexp 4 L true count_spins4 (renorm4 L nu nd) (cache0 V 4 M) (model_site (fun l => \sum_(v <- l) v) 4 M L md) (map to_index x).
  by rewrite /prob /sym_copies /= big_seq1 divr1.
rewrite /ar_value abs2_amplitude; first by rewrite /symmetries /= big_seq1 divr1.
exact: (@prob_ge0 V wexp (fun l => \sum_(v <- l) v) M L wexp_pos md 4 true count_spins4 (renorm4 L nu nd) (SymSet None false)).
Qed.
Definition electron_claim (c : config) (sys : system) M chain : Prop :=
  exists m sa, [/\ get_system c = Some sys, get_model (c_model_name c) (c_symmetries c) (c_system_name c) M L None chain = Some m,
    get_sampler c None = Some sa, s_class sa = ARDirectSampler /\ normalised_model m &
    forall x, size x = L -> all (fun o => (to_index o < 4)%N) x ->
      drawn 4 L true count_spins4 (renorm4 L nu nd) m (map to_index x)
      = weight (value wexp im carg to_index 4 L true count_spins4 (renorm4 L nu nd) eps m x)].
Theorem C118_hubbard M chain : electron_claim hubbard1d Hubbard M chain.
Proof. by do 2 eexists; split=> // x Hs Ha; rewrite /drawn /weight /value; apply: electron_drawn. Qed.
Theorem C118_hydrogen options c M chain : hydrogen options true = Some c -> electron_claim c Molecule M chain.
Proof.
rewrite /hydrogen; case: (split_comma options) => [|geometry [|basis [|dtype []]]] //.
case: ifP => // /negbFE Hg; case: ifP => // _; case: ifP => // _ [<-].
have {Hg} [->|->] : geometry = "chain"%string \/ geometry = "sheet"%string.
  by move: Hg; rewrite /listed /= => /orP[/String.eqb_spec->|/orP[/String.eqb_spec->|//]]; [left|right].
all: by do 2 eexists; split=> // x Hs Ha; rewrite /drawn /weight /value; apply: electron_drawn.
Qed.
End Electrons.
End Drawn.

Definition rexp (v : RR) : RR := Rtrigo_def.exp v.
(* an explicit model.normalize = False is refused ... *)
Theorem C118_guard c g : c_normalize c = Some false -> c_sampler_name c = "ARDirectSampler"%string -> get_sampler c g = None.
Proof. by rewrite /get_sampler => -> ->. Qed.

(* ... but no configuration has that entry, and get_model does not read it: with --config.sampler_name=ARDirectSampler
   the model MaskedGPS is accepted, and its samples are not distributed according to |psi|^2 *)
Theorem C118_guard_refuted : exists c m sa, [/\ heisenberg2d "MaskedGPS" = Some c,
  (forall chain g, get_model "MaskedGPS" "none" "Heisenberg2d" 1 2 (Some g) chain = Some m),
  (forall g, get_sampler (with_sampler "ARDirectSampler" c) (Some g) = Some sa) /\ s_class sa = ARDirectSampler, ~ normalised_model m &
  forall (im : RR -> RR) carg, exists (eps : nat -> nat -> nat -> RR) (x y : seq int),
    let w := fun v : RR => rexp (v + v) in let idx := fun o : int => (o == 1 : nat) in
    let psi2 := fun z => weight (value w im carg idx 2 2 true count_spins2 (renorm2 2) eps m z) in
    let p := fun z => drawn w eps 2 2 true count_spins2 (renorm2 2) m (map idx z) in
    [/\ spins 2 x, spins 2 y & p x * psi2 y <> p y * psi2 x]].
Proof.
exists (Config "Heisenberg2d" false "MaskedGPS" "none" None "MetropolisExchange"), (MARFull 1 0 (SymSet None false) false),
  (Sampler ARDirectSampler false None); split=> // im carg.
pose eps := fun (d _ k : nat) => if k == 1%N then d%:R else (k == 2%N)%:R : RR.
exists eps, [:: -1; 1], [:: 1; -1] => w idx psi2 p.
have w0 : forall v, 0 < w v by move=> v; apply/RltP/exp_pos.
pose site := model_site (fun l => \sum_(v <- l) v) 2 1 2 (ARFull eps).
have lc a b : log_conditionals 2 2 true count_spins2 (renorm2 2) (cache0 RR 2 1) site [:: a; b]
    = [:: [:: (0, true); (0, true)]; zip [:: a%:R; a%:R] (renorm2 2 (count_spins2 a) 1)].
  rewrite /log_conditionals /= /full_prods /full_context /=.
  rewrite !big_cons !big_nil !big_ord_recl !big_ord0 /=.
  rewrite /prev_site /= (_ : eps 0%N 0%N (lower_index 0 + 0)%N = 0) // (_ : eps 0%N 0%N (lower_index 1 + 1)%N = 1) //.
  by rewrite (_ : eps a 0%N _ = a%:R) // !mul0r !mul1r !mulr1 !addr0.
have P a b : all (fun o => (o < 2)%N) [:: a; b] ->
    pr (sample_chain w 2 2 true count_spins2 (renorm2 2) (cache0 RR 2 1) site (SymSet None false)) (pred1 [:: a; b])
    = prob_one w 2 2 true count_spins2 (renorm2 2) (cache0 RR 2 1) site [:: a; b].
  by move=> Hab; have [] := @C26_spin_sampler RR _ w (fun l => \sum_(v <- l) v) 1 2 w0 (ARFull eps) I true [:: a; b] isT erefl Hab.
have Q z a b : map idx z = [:: a; b] -> (a < 2)%N && (b < 2)%N && (a + b == 1)%N -> p z = (w 0 + w 0)^-1 * w 0 /\ psi2 z = w 0 * w a%:R.
  move=> Ez /andP[/andP[Ha Hb] /eqP Hab].
  have W2 : (w 0 + w 0) != 0 by rewrite gt_eqF // addr_gt0.
  have Wa : w a%:R != 0 by rewrite gt_eqF.
  have Hz : symmetries 0 (SymSet None false) z = [:: z] by [].
  rewrite /p /psi2 /drawn Ez P /= ?Ha ?Hb //; split.
    rewrite /prob_one /conditionals lc !big_ord_recl big_ord0 mulr1 /=.
    have -> : b = (1 - a)%N by lia.
    by case: a Ha Hab Wa {Hb Ez} => [|[|//]] _ _ Wa; rewrite /= /normalized /= !big_cons !big_nil /= ?addr0 ?add0r (divff Wa) mulr1 mulrC.
  rewrite /ar_value Hz /= Ez !big_seq1 divr1 abs2_amplitude /modulus_one lc !big_ord_recl big_ord0 mulr1 /=.
    have -> : b = (1 - a)%N by lia.
    by case: a Ha Hab {Hb Ez Wa} => [|[|//]] _ _.
  have -> : b = (1 - a)%N by lia.
  by case: a Ha Hab {Hb Ez Wa} => [|[|//]] _ _ /=; rewrite mulr_ge0 // ltW.
have [px fx] := Q [:: -1; 1] 0%N 1%N erefl isT; have [py fy] := Q [:: 1; -1] 1%N 0%N erefl isT.
have W2 : (w 0 + w 0)^-1 != 0 by rewrite invr_eq0 gt_eqF // addr_gt0.
have W1 : w 0 != 0 by rewrite gt_eqF.
split=> //; rewrite px py fx fy => /(mulfI (mulf_neq0 W2 W1)) /(mulfI W1).
by move/exp_inv => /eqP; rewrite addr0 -(natrD _ 1 1) pnatr_eq0.
Qed.

(* the choices for the Heisenberg lattice, the Hubbard chain and a hydrogen sheet *)
Example C118_example : [/\ [seq if heisenberg2d n is Some c then c_sampler_name c else ""%string | n <- model_names]
    = [:: "MetropolisExchange"; "MetropolisExchange"; "ARDirectSampler"; "MetropolisExchange"; "ARDirectSampler"; "MetropolisExchange"]%string,
  heisenberg2d "RBM" = None, hydrogen "sheet,local" true = None, hydrogen "cube,local,real" true = None &
  if hydrogen "sheet,local,complex" true is Some c then get_system c = Some Molecule /\ get_sampler c None = Some (Sampler ARDirectSampler true None) else False].
Proof. by split. Qed.
Print Assumptions C118_heisenberg.
Print Assumptions C118_hubbard.
Print Assumptions C118_hydrogen.
Print Assumptions C118_guard.
Print Assumptions C118_guard_refuted.
