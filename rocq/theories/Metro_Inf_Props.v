(* C110: Metropolis sampling in the presence of zero amplitudes *)
From Coq Require Import Reals Lra.
From Verif Require Import Base Rstruct Calc Metropolis_Model Metropolis_Props QGPS_Model Metro_Inf_Model.
Import Num.Theory Order.TTheory.
Local Open Scope ring_scope.
Lemma expD (a b : RR) : rexp (a + b) = rexp a * rexp b. Proof. exact: exp_plus. Qed.
Lemma exp_gt0 (a : RR) : 0 < rexp a. Proof. apply/RltP; exact: exp_pos. Qed.
Lemma exp_rln (a : RR) : 0 < a -> rexp (rln a) = a. Proof. by move/RltP; exact: exp_ln. Qed.
Lemma exp_natmul (k : nat) (a : RR) : rexp (k%:R * a) = rexp a ^+ k.
Proof.
elim: k => [|k IH]; first by rewrite mul0r expr0; exact: exp_0.
by rewrite mulrS mulrDl mul1r expD IH exprS.
Qed.

(* the logarithm of the modulus [a] of an amplitude *)
Definition log_modulus (a : RR) : lv := if a == 0 then NInf else Fin (rln a).

(* acceptance in terms of amplitudes: from a configuration of non-zero amplitude the Metropolis-Hastings rule,
   from one of zero amplitude every move to a non-zero one *)
Definition accept_amp (k : nat) (u ax ay c : RR) : bool :=
  if ax == 0 then ay != 0 else u < (ay / ax) ^+ k * rexp c.
Lemma accept_ampP k u ax ay c : (0 < k)%N -> 0 <= u -> 0 <= ax -> 0 <= ay ->
  lless u (lexp (ladd (lsub (lmul k%:R (log_modulus ay)) (lmul k%:R (log_modulus ax))) (Fin c))) = accept_amp k u ax ay c.
Proof.
move=> Hk Hu Hx Hy; have Hk' : 0 < k%:R :> RR by rewrite ltr0n.
rewrite /accept_amp /log_modulus; case: (eqVneq ax 0) => [Ex|Nx]; case: (eqVneq ay 0) => [Ey|Ny] //=; rewrite ?Hk' //=.
  by rewrite Ey mul0r expr0n eqn0Ngt Hk mul0r ltNge Hu.
have Px : 0 < ax by rewrite lt_def Nx.
have Py : 0 < ay by rewrite lt_def Ny.
by rewrite expD -mulrBr exp_natmul -rln_div // exp_rln ?divr_gt0.
Qed.

(* contract of the rule for n chains, as in C24: shapes, admissible proposals, nothing changed off the update
   sites, sites in range and distinct unless nothing changes *)
Definition rule_contract (T Key : Type) (d : T) (n : nat) (ok : pred (seq T))
    (transition : Key -> seq (seq T) -> seq (seq T) * option (seq RR) * seq (seq nat)) : Prop :=
  forall k xs, size xs = n -> all ok xs ->
  let: (ys, corr, sites) := transition k xs in
  [/\ size ys = n, all ok ys, size sites = n, (forall cs, corr = Some cs -> size cs = n) &
   forall b, (b < n)%N ->
     let: (x, y, ss) := (nth [::] xs b, nth [::] ys b, nth [::] sites b) in
     [/\ size y = size x, (forall i, i \notin ss -> nth d y i = nth d x i),
         all (fun i => (i < size x)%N) ss & uniq ss \/ y = x]].
Definition uniform_contract (Key : Type) (n : nat) (uniform : Key -> seq RR) : Prop :=
  forall k, size (uniform k) = n /\ all (fun u => 0 <= u) (uniform k).
(* contract of the cached update, from the configurations in [good] *)
Definition fast_contract (T Cache : Type) (d : T) (good ok : pred (seq T)) (full : seq T -> lv * Cache)
    (fast : Cache -> seq T -> seq nat -> lv * Cache) : Prop :=
  forall x y sites, good x -> ok y -> size y = size x ->
  (forall i, i \notin sites -> nth d y i = nth d x i) ->
  all (fun i => (i < size x)%N) sites -> uniq sites \/ y = x ->
  fast (full x).2 [seq nth d y i | i <- sites] sites = full y.

Section Ref.
Variables (T Key : Type).
Variables (split3 : Key -> Key * Key * Key) (split2 : Key -> Key * Key) (uniform : Key -> seq RR).
Variable transition : Key -> seq (seq T) -> seq (seq T) * option (seq RR) * seq (seq nat).
Variables (pow sweep_size n : nat) (amp : seq T -> RR).
(* the chains of the textbook sampler, in terms of amplitudes *)
Definition moved (k : Key) (xs : seq (seq T)) (b : nat) : bool :=
  let: (ys, corr, _) := transition (split3 k).1.2 xs in
  accept_amp pow (nth 0 (uniform (split3 k).2) b) (amp (nth [::] xs b)) (amp (nth [::] ys b))
    (if corr is Some cs then nth 0 cs b else 0).
Definition next_chains (k : Key) (xs : seq (seq T)) : seq (seq T) :=
  [seq if moved k xs b then nth [::] (transition (split3 k).1.2 xs).1.1 b else nth [::] xs b | b <- iota 0 n].
Fixpoint chains (m : nat) (k : Key) (xs : seq (seq T)) (acc : nat) : seq (seq T) * Key * nat :=
  if m is m'.+1 then chains m' (split3 k).1.1 (next_chains k xs) (acc + count (moved k xs) (iota 0 n)) else (xs, k, acc).
(* calls of sample: new random keys, the chains after one sweep, accepted moves, number of steps *)
Fixpoint calls (m : nat) (rng : Key) (xs : seq (seq T)) (acc steps : nat) : Key * seq (seq T) * nat * nat :=
  if m is m'.+1 then
    let: (ys, _, acc') := chains sweep_size (split2 rng).2 xs acc in
    calls m' (split2 rng).1 ys acc' (steps + sweep_size * n)
  else (rng, xs, acc, steps).
End Ref.

Section Run.
Variables (T : Type) (d : T) (Cache Key : Type).
Variables (split3 : Key -> Key * Key * Key) (split2 : Key -> Key * Key) (uniform : Key -> seq RR).
Variable transition : Key -> seq (seq T) -> seq (seq T) * option (seq RR) * seq (seq nat).
Variable full : seq T -> lv * Cache.
Variable fast : Cache -> seq T -> seq nat -> lv * Cache.
Variables (pow sweep_size n : nat).
(* configurations the sampler may visit, and those from which the cached update can be used *)
Variables (ok good : pred (seq T)) (amp : seq T -> RR).
Hypothesis pow_gt0 : (0 < pow)%N.
Hypothesis amp_ge0 : forall x, 0 <= amp x.
Hypothesis full_log : forall x, ok x -> (full x).1 = log_modulus (amp x).
Hypothesis rule_ok : rule_contract d n ok transition.
Hypothesis uniform_ok : uniform_contract n uniform.
Hypothesis good_ok : forall x, good x -> ok x.
Hypothesis good_next : forall x, ok x -> amp x != 0 -> good x.
Hypothesis fast_ok : fast_contract d good ok full fast.

Local Notation moved := (moved split3 uniform transition pow amp).
Local Notation next_chains := (next_chains split3 uniform transition pow n amp).
Local Notation chains := (chains split3 uniform transition pow n amp).
Let body := xloop_body d split3 uniform transition fast pow%:R.
Definition xagrees (s : xstate T Cache Key) (r : seq (seq T) * Key * nat) : Prop :=
  let: (xs, k, acc) := r in
  [/\ xs_conf s = xs, xs_key s = k, xs_acc s = acc, xs_logp s = [seq lmul pow%:R (full x).1 | x <- xs] &
      xs_cache s = [seq (full x).2 | x <- xs]].

Lemma xstep s xs k acc : size xs = n -> all good xs -> xagrees s (xs, k, acc) ->
  [/\ size (next_chains k xs) = n, all good (next_chains k xs) &
      xagrees (body s) (next_chains k xs, (split3 k).1.1, (acc + count (moved k xs) (iota 0 n))%N)].
Proof.
move=> Hn Hg [Ec Ek Ea El Ecache].
have Hok : all ok xs by apply: sub_all Hg.
have Hrule := rule_ok (split3 k).1.2 Hn Hok.
rewrite /body /xloop_body Ec Ek Ecache El Ea.
have [Hus Hu0] := uniform_ok (split3 k).2.
rewrite /Metro_Inf_Props.next_chains; set mv := moved k xs; have Emv b : mv b = moved k xs b by [].
clearbody mv; rewrite /Metro_Inf_Props.moved in Emv.
case: (split3 k) Hrule Hus Hu0 Emv => [[k' k1] k2] /=.
case: (transition k1 xs) => [[ys corr] sites] [Hys Hyok Hs Hcorr Hoff] Hus Hu0 /= Emv.
set out := [seq fast _ _ _ | _ <- _].
have Eout : out = map full ys.
  apply: (@eq_from_nth _ (NaN, (full [::]).2)).
    by rewrite !(size_map, size_zip) Hn Hys Hs !minnn.
  move=> b; rewrite !(size_map, size_zip) Hn Hys Hs !minnn => Hb.
  rewrite (nth_map ((full [::]).2, ([::], [::]))); last by rewrite !(size_map, size_zip) Hn Hys Hs !minnn.
  rewrite !nth_zip ?(size_map, size_zip, Hn, Hys, Hs, minnn) //=; try by rewrite !(size_map, size_zip) ?Hn ?Hys ?Hs ?minnn.
  rewrite !(nth_map [::]) ?Hn ?Hys // (nth_map ([::], [::])) ?size_zip ?Hys ?Hs ?minnn //.
  rewrite nth_zip ?Hys ?Hs //=; have [H1 H2 H3 H4] := Hoff b Hb.
  apply: fast_ok => //; [move/all_nthP: Hg; apply; by rewrite Hn | move/all_nthP: Hyok; apply; by rewrite Hys].
rewrite Eout.
pose lp x := lmul pow%:R (full x).1.
have -> : [seq lmul pow%:R o.1 | o <- map full ys] = map lp ys by rewrite -map_comp.
have Hmv b : (b < n)%N -> mv b = lless (nth 0 (uniform k2) b) (lexp (ladd (lsub (lp (nth [::] ys b)) (lp (nth [::] xs b))) (Fin (if corr is Some cs then nth 0 cs b else 0)))).
  move=> Hb; rewrite /lp !full_log; try by [move/all_nthP: Hok; apply; rewrite Hn | move/all_nthP: Hyok; apply; rewrite Hys].
  rewrite Emv accept_ampP //.
  by move/all_nthP: Hu0; apply; rewrite Hus.
have Hacc : xaccept (uniform k2) (map lp ys) (map lp xs) corr = [seq mv b | b <- iota 0 n].
  case: corr Hcorr Hmv {Emv} => [cs|] Hcorr Hmv.
    have Hcs := Hcorr _ erefl.
    apply: (@eq_from_nth _ false); rewrite !(size_map, size_zip) Hus Hys Hn Hcs !minnn ?size_iota // => b Hb.
    rewrite (nth_map (0, (NaN, NaN, 0))) ?size_zip ?size_map ?Hus ?Hys ?Hn ?Hcs ?minnn //.
    rewrite !nth_zip ?size_zip ?size_map ?Hus ?Hys ?Hn ?Hcs ?minnn //=.
    by rewrite !(nth_map [::]) ?Hys ?Hn // (nth_map 0%N) ?size_iota // nth_iota // Hmv.
  apply: (@eq_from_nth _ false); rewrite !(size_map, size_zip) Hus Hys Hn !minnn ?size_iota // => b Hb.
  rewrite (nth_map (0, (NaN, NaN))) ?size_zip ?size_map ?Hus ?Hys ?Hn ?minnn //.
  rewrite !nth_zip ?size_zip ?size_map ?Hus ?Hys ?Hn ?minnn //=.
  rewrite !(nth_map [::]) ?Hys ?Hn // (nth_map 0%N) ?size_iota // nth_iota // Hmv //.
  by case: (lsub _ _) => //= a; rewrite addr0.
set acc_ := xaccept _ _ _ _ in Hacc *.
have Hsa : size acc_ = n by rewrite Hacc size_map size_iota.
have HA b : (b < n)%N -> nth false acc_ b = mv b.
  by move=> Hb; rewrite Hacc (nth_map 0%N) ?size_iota // nth_iota.
have Hconf (B : Type) (g : seq T -> B) (a0 : B) :
   where_ acc_ (map g ys) (map g xs) = [seq g (if mv b then nth [::] ys b else nth [::] xs b) | b <- iota 0 n].
  apply: (@eq_from_nth _ a0); first by rewrite size_where ?size_map ?size_iota ?Hsa.
  rewrite size_where ?size_map ?Hsa // => b Hb.
  rewrite nth_where ?size_map ?Hsa // !(nth_map [::]) ?Hys ?Hn // (nth_map 0%N) ?size_iota // nth_iota // add0n HA //.
  by case: (mv b).
split; first by rewrite size_map size_iota.
  apply/(all_nthP [::]) => b; rewrite size_map size_iota => Hb.
  rewrite (nth_map 0%N) ?size_iota // nth_iota // add0n.
  case E: (mv b); last by move/all_nthP: Hg; apply; rewrite Hn.
  apply: good_next; first by move/all_nthP: Hyok; apply; rewrite Hys.
  move: E; rewrite Emv /accept_amp; case: ifP => // _; apply: contraTneq => ->.
  rewrite mul0r expr0n eqn0Ngt pow_gt0 mul0r -leNgt; move/all_nthP: Hu0; apply; by rewrite Hus.
split=> //=.
- by rewrite -[X in where_ _ X]map_id -[X in where_ _ _ X]map_id (Hconf _ id [::]).
- by rewrite Hacc count_map; congr (_ + _)%N; apply: eq_count.
- by rewrite (Hconf _ lp NaN) -map_comp.
- by rewrite -map_comp (Hconf _ (fun x => (full x).2) (full [::]).2) -map_comp.
Qed.

Lemma xrun m s xs k acc : size xs = n -> all good xs -> xagrees s (xs, k, acc) ->
  xagrees (iter m body s) (chains m k xs acc) /\ size (chains m k xs acc).1.1 = n /\ all good (chains m k xs acc).1.1.
Proof.
elim: m s xs k acc => [//|m IH] s xs k acc Hn Hg Ha.
have [H1 H2 H3] := xstep Hn Hg Ha.
by rewrite iterSr; apply: IH H3.
Qed.

(* any number of steps from chains whose caches are usable *)
Lemma xsampler (st : sstate T Key) m : size (st_conf st) = n -> all good (st_conf st) ->
  let s := iter m body (xinit_loop split2 full pow%:R st) in
  let: (xs, k, acc) := chains m (split2 (st_rng st)).2 (st_conf st) (st_acc st) in
  [/\ xs_conf s = xs, xs_key s = k, xs_acc s = acc, all good xs & size xs = n].
Proof.
move=> Hn Hg s.
have [|] := @xrun m (xinit_loop split2 full pow%:R st) (st_conf st) (split2 (st_rng st)).2 (st_acc st) Hn Hg.
  by split=> //=; rewrite -map_comp.
by rewrite -/s; case: (chains _ _ _ _) => [[xs k] acc] /= [E1 E2 E3 _ _] [].
Qed.
Lemma xcalls (st : sstate T Key) m : size (st_conf st) = n -> all good (st_conf st) ->
  let st' := iter m (xsample_next d split3 split2 uniform transition full fast pow%:R sweep_size n) st in
  (st_rng st', st_conf st', st_acc st', st_steps st')
  = calls split3 split2 uniform transition pow sweep_size n amp m (st_rng st) (st_conf st) (st_acc st) (st_steps st)
  /\ all good (st_conf st').
Proof.
elim: m st => [|m IH] st Hn Hg; first by [].
rewrite iterSr; have := xsampler sweep_size Hn Hg; set s := iter _ _ _; rewrite [calls _ _ _ _ _ _ _ _ _ _ _ _ _]/=.
case: (chains _ _ _ _) => [[ys k'] acc'] [E1 _ E3 Hg' Hn'].
have := IH (xsample_next d split3 split2 uniform transition full fast pow%:R sweep_size n st).
rewrite /xsample_next /= -/body -/s E1 E3; exact.
Qed.
End Run.

(* the cached update is right from configurations of non-zero amplitude: chains started there never visit a
   configuration of zero amplitude and are those of the textbook sampler *)
Theorem C110_support_partial (T : Type) (d : T) (Cache Key : Type) (split3 : Key -> Key * Key * Key)
    (split2 : Key -> Key * Key) (uniform : Key -> seq RR)
    (transition : Key -> seq (seq T) -> seq (seq T) * option (seq RR) * seq (seq nat))
    (full : seq T -> lv * Cache) (fast : Cache -> seq T -> seq nat -> lv * Cache)
    (pow sweep_size n : nat) (ok : pred (seq T)) (amp : seq T -> RR) (st : sstate T Key) (m : nat) :
  (0 < pow)%N -> (forall x, 0 <= amp x) -> (forall x, ok x -> (full x).1 = log_modulus (amp x)) ->
  rule_contract d n ok transition -> uniform_contract n uniform ->
  fast_contract d (fun x => ok x && (amp x != 0)) ok full fast ->
  size (st_conf st) = n -> all (fun x => ok x && (amp x != 0)) (st_conf st) ->
  let st' := iter m (xsample_next d split3 split2 uniform transition full fast pow%:R sweep_size n) st in
  (st_rng st', st_conf st', st_acc st', st_steps st')
  = calls split3 split2 uniform transition pow sweep_size n amp m (st_rng st) (st_conf st) (st_acc st) (st_steps st)
  /\ all (fun x => amp x != 0) (st_conf st').
Proof.
move=> H1 H2 H3 H4 H5 H6 Hn Hg.
have [||E Hg'] := @xcalls T d Cache Key split3 split2 uniform transition full fast pow sweep_size n ok _ amp H1 H2 H3 H4 H5 _ _ H6 st m Hn Hg.
- by move=> x /andP[].
- by move=> x -> ->.
split=> //; by apply: sub_all Hg' => x /andP[].
Qed.
(* the cached update is right everywhere: chains started at a zero of the amplitude leave it with the first
   proposal of non-zero amplitude *)
Theorem C110_zero_start_partial (T : Type) (d : T) (Cache Key : Type) (split3 : Key -> Key * Key * Key)
    (split2 : Key -> Key * Key) (uniform : Key -> seq RR)
    (transition : Key -> seq (seq T) -> seq (seq T) * option (seq RR) * seq (seq nat))
    (full : seq T -> lv * Cache) (fast : Cache -> seq T -> seq nat -> lv * Cache)
    (pow sweep_size n : nat) (ok : pred (seq T)) (amp : seq T -> RR) (st : sstate T Key) (m : nat) :
  (0 < pow)%N -> (forall x, 0 <= amp x) -> (forall x, ok x -> (full x).1 = log_modulus (amp x)) ->
  rule_contract d n ok transition -> uniform_contract n uniform -> fast_contract d ok ok full fast ->
  size (st_conf st) = n -> all ok (st_conf st) ->
  let st' := iter m (xsample_next d split3 split2 uniform transition full fast pow%:R sweep_size n) st in
  (st_rng st', st_conf st', st_acc st', st_steps st')
  = calls split3 split2 uniform transition pow sweep_size n amp m (st_rng st) (st_conf st) (st_acc st) (st_steps st).
Proof.
move=> H1 H2 H3 H4 H5 H6 Hn Hg.
by have [||E _] := @xcalls T d Cache Key split3 split2 uniform transition full fast pow sweep_size n ok _ amp H1 H2 H3 H4 H5 _ _ H6 st m Hn Hg.
Qed.

(* qGPS with a parameter that is exactly zero, one site.  Both configurations have a non-zero amplitude
   (exp 0 and exp 1), so that the textbook sampler accepts the move from the first to the second whatever the
   random number; the cached update evaluates 0/0 and the chain stays where it is for ever *)
Definition ex_eps (o m i : nat) : RR := (o != 0)%N%:R.
Definition ex_amp (x : seq nat) : RR := rexp (default_out (get_site_prod ex_eps 1 (SymSet None false) x)).
Definition ex_flip (xs : seq (seq nat)) : seq (seq nat) * option (seq RR) * seq (seq nat) :=
  ([seq [seq (1 - o)%N | o <- x] | x <- xs], None, [seq [:: 0%N] | _ <- xs]).
Definition ex_ok (x : seq nat) : bool := (size x == 1)%N && all (fun o => o < 2)%N x.

Lemma ex_rule (Key : Type) n : rule_contract 0%N n ex_ok (fun _ : Key => ex_flip).
Proof.
move=> k xs Hn Hok; rewrite /ex_flip /=; split; rewrite ?size_map //.
  rewrite all_map; apply: sub_all Hok => x /andP[/eqP H1 H2]; rewrite /= /ex_ok size_map H1 eqxx /= all_map.
  by apply: sub_all H2 => -[|[|]].
move=> b Hb; rewrite !(nth_map [::]) ?Hn // size_map; split=> //.
- move=> i; rewrite inE => Hi; have : ex_ok (nth [::] xs b) by move/all_nthP: Hok; apply; rewrite Hn.
  by case/andP=> /eqP H1 _; case: i Hi => // i _; rewrite nth_default ?size_map ?H1 // nth_default ?H1.
- have : ex_ok (nth [::] xs b) by move/all_nthP: Hok; apply; rewrite Hn.
  by case/andP=> /eqP -> _.
- by left.
Qed.
Lemma ex_log x : (xqgps_full ex_eps 1 x).1 = log_modulus (ex_amp x).
Proof.
rewrite /log_modulus /ex_amp gt_eqF ?exp_gt0 //; congr Fin.
by rewrite /rln /rexp Rpower.ln_exp.
Qed.

Theorem C110_nan_refuted : exists (eps : nat -> nat -> nat -> RR) (amp : seq nat -> RR) (ok : pred (seq nat))
    (transition : seq (seq nat) -> seq (seq nat) * option (seq RR) * seq (seq nat)) (x : seq nat),
  [/\ (forall x, (xqgps_full eps 1 x).1 = log_modulus (amp x)) /\ (forall x, 0 < amp x),
      ok x /\ (forall Key, rule_contract 0%N 1 ok (fun _ : Key => transition)),
      (forall (Key : Type) (split3 : Key -> Key * Key * Key) uniform k,
         uniform_contract 1 uniform -> (forall k, all (fun u => u < 1) (uniform k)) ->
         next_chains split3 uniform (fun _ => transition) 2 1 amp k [:: x] <> [:: x]) &
      (forall (Key : Type) (split3 : Key -> Key * Key * Key) split2 uniform sweep_size m st, uniform_contract 1 uniform -> st_conf st = [:: x] ->
         st_conf (iter m (xsample_next 0%N split3 split2 uniform (fun _ => transition) (xqgps_full eps 1) (xqgps_fast eps 1) 2%:R sweep_size 1) st) = [:: x])].
Proof.
exists ex_eps, ex_amp, ex_ok, ex_flip, [:: 0%N].
have A0 : ex_amp [:: 0%N] = 1.
  rewrite /ex_amp /get_site_prod /site_prod /default_out /= !big_cons !big_nil !addr0 big_ord_recl big_ord0 mulr1 /=.
  exact: exp_0.
have A1 : ex_amp [:: 1%N] = rexp 1.
  by rewrite /ex_amp /get_site_prod /site_prod /default_out /= !big_cons !big_nil !addr0 big_ord_recl big_ord0 mulr1.
have E1 : 1 < rexp 1 by apply/RltP; apply: Rlt_trans (exp_ineq1 _ R1_neq_R0); exact: Rlt_plus_1.
split.
- by split=> x; [exact: ex_log | exact: exp_gt0].
- by split=> // Key; exact: ex_rule.
- move=> Key split3 uniform k Hu Hu1; rewrite /next_chains /moved /= A0 A1 /accept_amp oner_eq0 divr1.
  have [Hs _] := Hu (split3 k).2; have H1 : nth 0 (uniform (split3 k).2) 0 < 1.
    by move/all_nthP: (Hu1 (split3 k).2); apply; rewrite Hs.
  have -> // : nth 0 (uniform (split3 k).2) 0 < rexp 1 ^+ 2 * rexp 0.
  have -> : rexp 0 = 1 by exact: exp_0.
  by rewrite mulr1; apply: lt_trans H1 _; rewrite exprn_egt1.
move=> Key split3 split2 uniform sweep_size m st Hu.
elim: m st => [//|m IH] st Hst; rewrite iterSr; apply: IH; rewrite /xsample_next /=.
suff G j s : xs_conf s = [:: [:: 0%N]] -> xs_cache s = [:: (xqgps_full ex_eps 1 [:: 0%N]).2] -> size (xs_logp s) = 1%N ->
   xs_conf (iter j (xloop_body 0%N split3 uniform (fun=> ex_flip) (xqgps_fast ex_eps 1) 2%:R) s) = [:: [:: 0%N]].
  by apply: G; rewrite /xinit_loop /= Hst.
elim: j s => [//|j IHj] s C1 C2 C3; rewrite iterSr.
have [Hs _] := Hu (split3 (xs_key s)).2.
have [l El] : exists l, xs_logp s = [:: l] by case: (xs_logp s) C3 => [|l []] // _; exists l.
have [u Eu] : exists u, uniform (split3 (xs_key s)).2 = [:: u] by case: (uniform _) Hs => [|u []] // _; exists u.
have B : xloop_body 0%N split3 uniform (fun=> ex_flip) (xqgps_fast ex_eps 1) 2%:R s
  = XState (split3 (xs_key s)).1.1 [:: [:: 0%N]] [:: (xqgps_full ex_eps 1 [:: 0%N]).2] [:: l] (xs_acc s).
  rewrite /xloop_body C1 C2 El; case: (split3 (xs_key s)) Eu => [[k' k1] k2] /= ->.
  rewrite /xqgps_fast /= /upd_prod /= big_cons big_nil mulr1 eqxx /= /where_ /=.
  by congr XState; rewrite ?addn0 ?addr0.
by rewrite B; apply: IHj.
Qed.

(* one site, amplitudes 0 and 1, the update re-evaluates: started at the zero, the chain leaves it in the
   first step and is not moved back by the second, whatever the random numbers *)
Definition ex_amp01 (x : seq nat) : RR := (x == [:: 1%N])%:R.
Definition ex_full01 (x : seq nat) : lv * unit := (log_modulus (ex_amp01 x), tt).
Example C110_example (Key : Type) split3 split2 (uniform : Key -> seq RR) st : uniform_contract 1 uniform ->
  st_conf st = [:: [:: 0%N]] ->
  st_conf (xsample_next 0%N split3 split2 uniform (fun _ : Key => ex_flip) ex_full01 (fun _ occs _ => ex_full01 occs) 2%:R 2 1 st) = [:: [:: 1%N]].
Proof.
move=> Hu Hst; rewrite /xsample_next /= /xinit_loop Hst /= /xloop_body /=.
have [Hs H0] := Hu (split3 (split2 (st_rng st)).2).2; move: Hs H0; case: (split3 _) => [[k k1] k2] /=.
case: (uniform k2) => [|u []] // _ /= /andP[Hu0 _].
have P2 : 0 < 2%:R :> RR by rewrite ltr0n.
rewrite /ex_amp01 /= /log_modulus eqxx oner_eq0 /= P2 /= /where_ /=.
have [Hs H0] := Hu (split3 k).2; move: Hs H0; case: (split3 k) => [[k' k1'] k2'] /=.
case: (uniform k2') => [|u' []] // _ /= /andP[Hu0' _].
by rewrite eqxx /= P2 /= ltNge Hu0'.
Qed.
