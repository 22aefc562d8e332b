(* C123: the Metropolis sampler with the hopping rule (MetropolisHopping, MetropolisFastHopping) reaches
   every configuration of its sector, |psi|^2 is its only stationary distribution, and the averages it
   returns converge in mean square, from every start and after any number of discarded samples. *)
From Verif Require Import Base Fock_Spec Occ_Model Occ_Spec Hopping_Proofs Choice_Model Choice_Proofs Rule_Model Rule_Proofs Rule_Lemmas Rule_Sym Rule_Props Metropolis_Inst Markov Chain_Model Chain_Lemmas.
Import Order.Theory Num.Theory GRing.Theory.
Local Open Scope ring_scope.

Section Theorems.
Variables (F : realFieldType) (hp : F) (w : cfg -> F) (L nu nd : nat).
Notation X := (sconf L nu nd).
Notation P := (hop_step hp None w (L := L) (nu := nu) (nd := nd)).

(* every configuration of the sector is reached from every other one *)
Theorem C123_reaches : 0 < hp -> hp <= 1 -> (0 < nu + nd)%N -> (forall z, in_sector L nu nd z -> 0 < w z) ->
  forall x y : cfg, in_sector L nu nd x -> in_sector L nu nd y ->
  exists n (x' y' : X), [/\ occs x' = x, occs y' = y & 0 < pw P n x' y'].
Proof.
move=> H0 H1 Hn Hw x y Hx Hy; have Hh : 0 <= hp <= 1 by rewrite ltW.
have [x' Ex] := occs_onto Hx; have [y' Ey] := occs_onto Hy.
have [n Hp] := step_irreducible Hh Hn Hw H0 x' y'.
by exists n, x', y'.
Qed.

(* one step gives probabilities, and the only distribution it leaves alone is w / sum of w *)
Theorem C123_stationary : 0 < hp -> hp <= 1 -> (0 < nu + nd)%N -> (forall z, in_sector L nu nd z -> 0 < w z) ->
  [/\ forall x y, 0 <= P x y, forall x, \sum_y P x y = 1 &
      forall mu : X -> F, \sum_x mu x = 1 ->
        ((forall y, \sum_x mu x * P x y = mu y) <-> (forall x, mu x = w (occs x) / \sum_(y : X) w (occs y)))].
Proof.
move=> H0 H1 Hn Hw; have Hh : 0 <= hp <= 1 by rewrite ltW.
have HS := step_stochastic Hh Hn Hw; have HR := step_reversible (L := L) (nu := nu) (nd := nd) hp Hn Hw.
have Hwo (x : X) : 0 < w (occs x) by apply: Hw; exact: occsP.
split; [exact: (proj1 HS) | exact: (proj2 HS) |] => mu Hmu; split.
  by move=> Hst x; apply: (stationary_unique HS Hwo HR (step_irreducible Hh Hn Hw H0)).
move=> E y; rewrite E; apply: etrans (stationary_w HS HR y); apply: eq_bigr => x _.
by rewrite E.
Qed.

(* n samples of the sampler, one per sweep, after d discarded ones: the mean square error of an
   average is at most C / n whatever the start and d *)
Theorem C123_averages_partial (sweep_size : nat) (f : X -> F) :
  0 < hp -> hp <= 1 -> (0 < nu + nd)%N -> (forall z, in_sector L nu nd z -> 0 < w z) ->
  (0 < sweep_size)%N -> [|| (2 < L)%N, nu == L, nd == L | odd sweep_size] ->
  exists C : F, forall d n (x : X), (0 < n)%N ->
    ex (sweep_prob hp None w sweep_size) (d + n) x
       (fun s => (avg f (drop d s) - (\sum_(y : X) w (occs y) * f y) / \sum_(y : X) w (occs y)) ^+ 2) <= C / n%:R.
Proof.
move=> H0 H1 Hn Hw Hm Hc; have Hh : 0 <= hp <= 1 by rewrite ltW.
have HS := step_stochastic Hh Hn Hw; have HR := step_reversible (L := L) (nu := nu) (nd := nd) hp Hn Hw.
have HI := step_irreducible Hh Hn Hw H0.
have Hwo (x : X) : 0 < w (occs x) by apply: Hw; exact: occsP.
have HSm := pw_stochastic HS sweep_size.
have HIm : irreducible (pw P sweep_size).
  case: (boolP (odd sweep_size)) => Ho; first exact: (irreducible_pw_odd HS Hwo HR HI Ho).
  have Hf : moves_freely L nu nd by move: Hc; rewrite (negbTE Ho) orbF.
  apply: irreducible_pw => // x y; have [k Hk Hpk] := odd_loop Hh Hn Hw x H0 Hf.
  exact: (eventually HS Hwo HR HI Hk Hpk).
have [C HC] := ergodic_mean_square f HSm Hwo (reversible_pw sweep_size HS HR) HIm.
exists C => d n x Hn0.
by apply: (ex_drop_le d x (G := fun s => (avg f s - wmean (fun y => w (occs y)) f) ^+ 2) HSm) => z; apply: HC.
Qed.

(* with hop_probability = 0 only exchanges are proposed: doubly occupied sites keep their number *)
Theorem C123_exchanges_only : hp = 0 -> (0 < nu + nd)%N -> (forall z, in_sector L nu nd z -> 0 < w z) ->
  forall n (x y : X), pw P n x y != 0 -> count (pred1 3%N) (occs y) = count (pred1 3%N) (occs x).
Proof.
move=> E0 Hn Hw; have Hh : 0 <= hp <= 1 by rewrite E0 lexx ler01.
have H1 (x y : X) : P x y != 0 -> count (pred1 3%N) (occs y) = count (pred1 3%N) (occs x).
  apply: contraNeq => Hne; apply/eqP; rewrite /hop_step /step_prob.
  rewrite -[RHS](mulr0 (drawsum (occs x) (fun=> 0 : F))) -ds_scale; apply: ds_eq => d Hd; cbv zeta.
  have Hxy : (occs x == occs y) = false by apply: contraNF Hne => /eqP->.
  rewrite mulr0 Hxy mulr0 addr0; case: (eqVneq (move_prob hp None (occs x) d) 0) => [->|Hm]; first by rewrite mul0r.
  case: d Hd Hm => [[[e a] s] t] /and3P[Ha Hs Ht] Hm.
  have /and4P[Vx /eqP Sx /eqP Ux /eqP Dx] := occsP x.
  have Hno : (0 < n_spin Up (occs x) + n_spin Dn (occs x))%N || e by rewrite Ux Dx Hn.
  rewrite -[(apply_electron_hop _ _).1.1]/(hop_move e a s t (occs x)).
  have [_ [E _|E Hoa Hot|E Hs1 Hoa Hot]] := move_possible Vx Ha Ht Hm Hno.
  - by rewrite E Hxy !mulr0.
  - move: Hm; rewrite E /move_prob E0 /choice_prob last_cumsum /kind_weights !big_cons big_nil /=.
    by rewrite add0r subr0 addr0 oner_eq0 mul0r !mul0r; case: ifP; rewrite eqxx.
  - have [_ Hc] := exch_valid Vx Ha Ht Hs Hs1 Hoa Hot; rewrite E.
    case: eqP => [Ey|]; last by rewrite !mulr0.
    by move: Hne; rewrite -Ey Hc eqxx.
elim=> [|n IH] x y; first by rewrite pw0; case: (eqVneq x y) => [->//|_]; rewrite eqxx.
move=> Hp; have [z Hz] : exists z, P x z * pw P n z y != 0.
  apply/existsP; apply: contraNT Hp; rewrite negb_exists => /forallP H.
  by rewrite pwS big1 // => z _; apply/eqP; have := H z; rewrite negbK.
by move: Hz; rewrite mulf_eq0 negb_or => /andP[Hz1 Hz2]; rewrite (IH _ _ Hz2) (H1 _ _ Hz1).
Qed.
End Theorems.

(* the sector of one electron on two sites *)
Section Dimer.
Notation Y := (sconf 2 1 0).
Lemma dimer_sector z : in_sector 2 1 0 z -> z = [:: 1; 0]%N \/ z = [:: 0; 1]%N.
Proof.
case: z => [|a [|b [|c z]]] //; try by rewrite /in_sector /= ?andbF.
rewrite /in_sector /n_spin /= andbT => /andP[/andP[Ha Hb]].
by case/lt4_cases: Ha => ->; case/lt4_cases: Hb => -> //; [right|left].
Qed.

Definition w1 : cfg -> rat := fun=> 1.
Notation P := (hop_step 1 None w1 (L := 2) (nu := 1) (nd := 0)).
Definition blocked_draw (x : cfg) (d : draws) : bool :=
  ((apply_electron_hop x d).1.1 == x) && (move_prob (1 : rat) None x d != 0).
Lemma dimer_never_blocked x : in_sector 2 1 0 x ->
  all (fun e => all (fun a => all (fun s => all (fun t => ~~ blocked_draw x (e, a, s, t)) [:: 0; 1]%N) [:: 1; 2]%N) [:: 0; 1]%N) [:: false; true].
Proof. by case/dimer_sector => ->; vm_compute. Qed.
Lemma dimer_moves (x : Y) : P x x = 0.
Proof.
rewrite /hop_step /step_prob -[RHS](mulr0 (drawsum (occs x) (fun=> 0 : rat))) -ds_scale; apply: ds_eq => d Hd; cbv zeta.
rewrite /w1 divr1 /accept_prob minxx subrr mul0r addr0 mul1r mulr0.
case: d Hd => [[[e a] s] t]; rewrite /draw_ok size_occs => /and3P[Ha Hs Ht].
have /allP/(_ e) := dimer_never_blocked (occsP x); rewrite !inE; case: (e); move=> /(_ isT)/allP/(_ a).
all: rewrite !inE; have -> : (a == 0%N) || (a == 1%N) by case: (a) Ha => [|[|]].
all: move=> /(_ isT)/allP/(_ s); rewrite !inE => /(_ Hs)/allP/(_ t); rewrite !inE.
all: have -> : (t == 0%N) || (t == 1%N) by case: (t) Ht => [|[|]].
all: move=> /(_ isT); rewrite /blocked_draw negb_and negbK => /orP[/negbTE->|/eqP->]; by rewrite ?mulr0 ?mul0r.
Qed.
Lemma dimer_two (x y z : Y) : x != y -> z != x -> z = y.
Proof.
move=> Hxy Hzx; apply: occs_inj; move: Hxy Hzx.
rewrite -!(inj_eq (@occs_inj 2 1 0)).
by case: (dimer_sector (occsP x)) => ->; case: (dimer_sector (occsP y)) => ->; case: (dimer_sector (occsP z)) => ->.
Qed.
Let HS : stochastic P.
Proof. by apply: step_stochastic => //; rewrite ?ler01 ?lexx. Qed.
Lemma dimer_returns (x y : Y) : pw P 2 x y = (x == y)%:R.
Proof.
have Hoff (u v : Y) : u != v -> pw P 2 u v = 0.
  move=> Huv; rewrite (pwS P 1) big1 // => z _; rewrite (pw1 P).
  case: (eqVneq z u) => [->|Hz]; first by rewrite dimer_moves mul0r.
  by rewrite (dimer_two Huv Hz) dimer_moves mulr0.
case: (eqVneq x y) => [<-|/Hoff//].
have := pw_sum HS 2 x; rewrite (bigD1 x) //= big1 ?addr0 // => z Hz; apply: Hoff; by rewrite eq_sym.
Qed.
Lemma dimer_even k (x y : Y) : pw P (k * 2) x y = (x == y)%:R.
Proof.
elim: k x => [|k IH] x; first by rewrite mul0n pw0.
rewrite mulSn (pwD P) (bigD1 x) // dimer_returns eqxx mul1r IH big1 => [|z Hz]; first exact: addr0.
by rewrite dimer_returns eq_sym (negbTE Hz) mul0r.
Qed.
Lemma dimer_path (Q : Y -> Y -> rat) n x G : (forall u v, Q u v = (u == v)%:R) -> ex Q n x G = G (nseq n x).
Proof.
move=> HQ; elim: n x G => [//|n IH] x G /=.
rewrite (bigD1 x) //= HQ eqxx mul1r IH big1 ?addr0 // => z; rewrite HQ eq_sym => /negbTE->.
by rewrite mul0r.
Qed.

(* equal weights, hop_probability 1 and an even number of steps per sweep (NetKet's default is the
   number of sites, here 2): the sampler returns its start for ever, the occupation of the left site
   is wrong by 1/2 however many samples are taken *)
Theorem C123_dimer_refuted : exists (x : Y) (f : Y -> rat), forall sweep_size n, ~~ odd sweep_size -> (0 < n)%N ->
  ex (sweep_prob 1 None w1 sweep_size) n x
     (fun s => (avg f s - (\sum_(y : Y) w1 (occs y) * f y) / \sum_(y : Y) w1 (occs y)) ^+ 2) = 1 / 4%:R.
Proof.
have [x Ex] : exists x : Y, occs x = [:: 1; 0]%N by apply: occs_onto.
have [x' Ex'] : exists x : Y, occs x = [:: 0; 1]%N by apply: occs_onto.
have Hne : x != x' by rewrite -(inj_eq (@occs_inj 2 1 0)) Ex Ex'.
have Hsum (G : Y -> rat) : \sum_y G y = G x + G x'.
  rewrite (bigD1 x) //= (bigD1 x') 1?eq_sym //= big1 ?addr0 // => z /andP[Hz Hz'].
  by move: Hz'; rewrite (dimer_two Hne Hz) eqxx.
exists x, (fun z => (nth 0%N (occs z) 0 == 1%N)%:R) => m n Ho Hn.
have Hm : m = (m./2 * 2)%N by rewrite muln2 -[LHS]odd_double_half (negbTE Ho).
rewrite dimer_path => [|u v]; last by rewrite /sweep_prob {1}Hm dimer_even.
rewrite /avg size_nseq big_nseq iter_addr addr0 Ex /= Hsum Ex Ex' /w1 /= Hsum.
have N0 : n%:R != 0 :> rat by rewrite pnatr_eq0 -lt0n.
by rewrite divff // mulr0 mulr1 addr0; apply/eqP; vm_compute.
Qed.

(* with hop_probability = 0 two configurations of one sector that never meet *)
Theorem C123_exchanges_only_refuted : exists x y : cfg,
  [/\ in_sector 2 1 1 x, in_sector 2 1 1 y &
      forall n (x' y' : sconf 2 1 1), occs x' = x -> occs y' = y -> pw (hop_step (0 : rat) None w1 (L := 2) (nu := 1) (nd := 1)) n x' y' = 0].
Proof.
exists [:: 1; 2]%N, [:: 3; 0]%N; split=> // n x y Ex Ey.
apply/eqP; apply: contraT => Hp.
have := C123_exchanges_only (w := w1) (L := 2) (nu := 1) (nd := 1) erefl isT (fun z _ => ltr01) Hp.
by rewrite Ex Ey.
Qed.
End Dimer.

(* one up and one down electron on three sites, weights 1 to 4, hops and exchanges, three steps per
   sweep: the average number of doubly occupied sites converges to its weighted mean (6/18) *)
Definition w_ex (z : cfg) : rat := (nth 0%N z 0).+1%:R.
Definition n_double (x : sconf 3 1 1) : rat := (count (pred1 3%N) (occs x))%:R.
Example C123_example :
  (exists x : sconf 3 1 1, occs x = [:: 3; 0; 0]%N) /\
  exists C : rat, forall d n (x : sconf 3 1 1), (0 < n)%N ->
    ex (sweep_prob (1 / 2%:R) None w_ex 3) (d + n) x
       (fun s => (avg n_double (drop d s) -
          (\sum_(y : sconf 3 1 1) w_ex (occs y) * n_double y) / \sum_(y : sconf 3 1 1) w_ex (occs y)) ^+ 2) <= C / n%:R.
Proof.
split; first exact: occs_onto.
by apply: C123_averages_partial => // z _; rewrite /w_ex ltr0Sn.
Qed.
