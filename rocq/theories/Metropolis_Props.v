(* C24: the fast Metropolis sampler is the textbook sampler. *)
From Verif Require Import Base Metropolis_Model Metropolis_Spec.
Import Num.Theory Order.TTheory.
Local Open Scope ring_scope.

Section Props.
Variables (F : realFieldType) (T : Type) (d : T) (Cache Key : Type).
Variable expf : F -> F.
Variables (split3 : Key -> Key * Key * Key) (split2 : Key -> Key * Key).
Variable uniform : Key -> seq F.
Variable transition : Key -> seq (seq T) -> seq (seq T) * option (seq F) * seq (seq nat).
Variable full : seq T -> F * Cache.
Variable fast : Cache -> seq T -> seq nat -> F * Cache.
Variables (machine_pow : F) (sweep_size n : nat).
(* configurations the sampler may visit *)
Variable ok : pred (seq T).
(* contract of the rule, for n chains: shapes, admissible proposals, nothing changed off the
   update sites, sites in range and distinct unless nothing changes *)
Hypothesis rule_ok : forall k xs, size xs = n -> all ok xs ->
  let: (ys, corr, sites) := transition k xs in
  [/\ size ys = n, all ok ys, size sites = n, (forall cs, corr = Some cs -> size cs = n) &
   forall b, (b < n)%N ->
     let: (x, y, ss) := (nth [::] xs b, nth [::] ys b, nth [::] sites b) in
     [/\ size y = size x, (forall i, i \notin ss -> nth d y i = nth d x i),
         all (fun i => (i < size x)%N) ss & uniq ss \/ y = x]].
Hypothesis uniform_ok : forall k, size (uniform k) = n.
(* contract of the model's fast update *)
Hypothesis fast_ok : forall x y sites, ok x -> ok y -> size y = size x ->
  (forall i, i \notin sites -> nth d y i = nth d x i) ->
  all (fun i => (i < size x)%N) sites -> uniq sites \/ y = x ->
  fast (full x).2 [seq nth d y i | i <- sites] sites = full y.

Let logprob (x : seq T) : F := machine_pow * (full x).1.
Let run := ref_run [::] expf split3 uniform transition logprob.
Let body := loop_body d expf split3 uniform transition fast machine_pow.

(* loop state matching a set of chains *)
Definition agrees (s : lstate F T Cache Key) (r : seq (seq T) * Key * nat) : Prop :=
  let: (xs, k, acc) := r in
  [/\ ls_conf s = xs, ls_key s = k, ls_acc s = acc, ls_logp s = map logprob xs &
      ls_cache s = map (fun x => (full x).2) xs].

Lemma nth_where (A : Type) (a0 : A) m a b i : size a = size m -> size b = size m -> (i < size m)%N ->
  nth a0 (where_ m a b) i = if nth false m i then nth a0 a i else nth a0 b i.
Proof.
move=> Ha Hb Hi; rewrite (nth_map (false, (a0, a0))) ?size_zip ?Ha ?Hb ?minnn //.
by rewrite !nth_zip //= ?size_zip ?Ha ?Hb ?minnn.
Qed.
Lemma size_where (A : Type) m (a b : seq A) : size a = size m -> size b = size m -> size (where_ m a b) = size m.
Proof. by move=> Ha Hb; rewrite size_map !size_zip Ha Hb !minnn. Qed.

Lemma step_lemma s xs k acc : size xs = n -> all ok xs -> agrees s (xs, k, acc) ->
  let xs' := ref_step [::] expf split3 uniform transition logprob k xs in
  [/\ size xs' = n, all ok xs' &
  agrees (body s) (xs', next_key split3 k, (acc + count (accepted [::] expf split3 uniform transition logprob k xs) (iota 0 (size xs)))%N)].
Proof.
move=> Hn Hok [Ec Ek Ea El Ecache] xs'.
have Hsz' : size xs' = n by rewrite size_map size_iota.
have Hrule := rule_ok (split3 k).1.2 Hn Hok.
rewrite /body /loop_body Ec Ek Ecache El Ea.
rewrite /xs' /ref_step /accepted /proposal /correction /next_key Hn.
case: (split3 k) Hrule => [[k' k1] k2] /=.
case: (transition k1 xs) => [[ys corr] sites] [Hys Hyok Hs Hcorr Hoff].
set out := [seq fast _ _ _ | _ <- _].
have Eout : out = map full ys.
  apply: (@eq_from_nth _ (0, (full [::]).2)).
    by rewrite !(size_map, size_zip) Hn Hys Hs !minnn.
  move=> b; rewrite !(size_map, size_zip) Hn Hys Hs !minnn => Hb.
  rewrite (nth_map ((full [::]).2, ([::], [::]))); last by rewrite !(size_map, size_zip) Hn Hys Hs !minnn.
  rewrite !nth_zip ?(size_map, size_zip, Hn, Hys, Hs, minnn) //=; try by rewrite !(size_map, size_zip) ?Hn ?Hys ?Hs ?minnn.
  rewrite !(nth_map [::]) ?Hn ?Hys // (nth_map ([::], [::])) ?size_zip ?Hys ?Hs ?minnn //.
  rewrite nth_zip ?Hys ?Hs //=; have [H1 H2 H3 H4] := Hoff b Hb.
  apply: fast_ok => //; [move/all_nthP: Hok; apply; by rewrite Hn | move/all_nthP: Hyok; apply; by rewrite Hys].
rewrite Eout.
have -> : [seq machine_pow * o.1 | o <- map full ys] = map logprob ys by rewrite -map_comp.
have Hacc : accept expf (uniform k2) (map logprob ys) (map logprob xs) corr = [seq nth 0 (uniform k2) b <
   expf (logprob (nth [::] ys b) - logprob (nth [::] xs b) + (if corr is Some cs then nth 0 cs b else 0)) | b <- iota 0 n].
  case: corr Hcorr => [cs|] Hcorr.
    have Hcs := Hcorr _ erefl.
    apply: (@eq_from_nth _ false); rewrite !(size_map, size_zip) uniform_ok Hys Hn Hcs !minnn ?size_iota // => b Hb.
    rewrite (nth_map (0, (0, 0, 0))) ?size_zip ?size_map ?uniform_ok ?Hys ?Hn ?Hcs ?minnn //.
    rewrite !nth_zip ?size_zip ?size_map ?uniform_ok ?Hys ?Hn ?Hcs ?minnn //=.
    by rewrite !(nth_map [::]) ?Hys ?Hn // (nth_map 0%N) ?size_iota // nth_iota.
  apply: (@eq_from_nth _ false); rewrite !(size_map, size_zip) uniform_ok Hys Hn !minnn ?size_iota // => b Hb.
  rewrite (nth_map (0, (0, 0))) ?size_zip ?size_map ?uniform_ok ?Hys ?Hn ?minnn //.
  rewrite !nth_zip ?size_zip ?size_map ?uniform_ok ?Hys ?Hn ?minnn //=.
  by rewrite !(nth_map [::]) ?Hys ?Hn // (nth_map 0%N) ?size_iota // nth_iota // addr0.
set acc_ := accept _ _ _ _ _ in Hacc *.
have Hsa : size acc_ = n by rewrite Hacc size_map size_iota.
pose A b := nth 0 (uniform k2) b <
   expf (logprob (nth [::] ys b) - logprob (nth [::] xs b) + (if corr is Some cs then nth 0 cs b else 0)).
have HA b : (b < n)%N -> nth false acc_ b = A b.
  by move=> Hb; rewrite Hacc (nth_map 0%N) ?size_iota // nth_iota.
have Hconf (f : seq T -> seq T) (B : Type) (g : seq T -> B) (a0 : B) :
   where_ acc_ (map g ys) (map g xs) = [seq g (if A b then nth [::] ys b else nth [::] xs b) | b <- iota 0 n].
  apply: (@eq_from_nth _ a0); first by rewrite size_where ?size_map ?size_iota ?Hsa.
  rewrite size_where ?size_map ?Hsa // => b Hb.
  rewrite nth_where ?size_map ?Hsa // !(nth_map [::]) ?Hys ?Hn // (nth_map 0%N) ?size_iota // nth_iota // add0n HA //.
  by case: (A b).
split; first by rewrite size_map size_iota.
  apply/(all_nthP [::]) => b; rewrite size_map size_iota => Hb.
  rewrite (nth_map 0%N) ?size_iota // nth_iota // add0n -[_ < _]/(A b).
  by case: (A b); [move/all_nthP: Hyok; apply; rewrite Hys | move/all_nthP: Hok; apply; rewrite Hn].
split=> //=.
- by rewrite -[X in where_ _ X]map_id -[X in where_ _ _ X]map_id (Hconf id _ id [::]).
- by rewrite Hacc count_map.
- by rewrite (Hconf id _ logprob 0) -map_comp.
- by rewrite -map_comp (Hconf id _ (fun x => (full x).2) (full [::]).2) -map_comp.
Qed.

Lemma run_lemma m s xs k acc : size xs = n -> all ok xs -> agrees s (xs, k, acc) ->
  agrees (iter m body s) (run m k xs acc) /\ size (run m k xs acc).1.1 = n /\ all ok (run m k xs acc).1.1.
Proof.
elim: m s xs k acc => [//|m IH] s xs k acc Hn Hok Hag.
have [H1 H2 H3] := step_lemma Hn Hok Hag.
by rewrite iterSr; apply: IH H3.
Qed.

(* After any number m of steps of one sweep, starting from any chains, key and counter:
   configurations, key, acceptance counter, log-probabilities and cached intermediates are
   those of the textbook sampler. *)
Theorem C24_fast_metropolis_steps (st : sstate T Key) m :
  size (st_conf st) = n -> all ok (st_conf st) ->
  let s := iter m body (init_loop split2 full machine_pow st) in
  let: (xs, k, acc) := run m (split2 (st_rng st)).2 (st_conf st) (st_acc st) in
  [/\ ls_conf s = xs, ls_key s = k, ls_acc s = acc,
      ls_logp s = [seq machine_pow * (full x).1 | x <- xs] &
      ls_cache s = [seq (full x).2 | x <- xs]].
Proof.
move=> Hn Hok; have [] := @run_lemma m (init_loop split2 full machine_pow st) (st_conf st) (split2 (st_rng st)).2 (st_acc st) Hn Hok.
  by split=> //=; rewrite -map_comp.
by [].
Qed.

(* any number of calls of _sample_next *)
Fixpoint ref_calls (m : nat) (k : Key) (xs : seq (seq T)) (acc steps : nat) : Key * seq (seq T) * nat * nat :=
  if m is m'.+1 then
    let: (ys, _, acc') := run sweep_size (split2 k).2 xs acc in
    ref_calls m' (split2 k).1 ys acc' (steps + sweep_size * n)
  else (k, xs, acc, steps).

Theorem C24_fast_metropolis_calls (st : sstate T Key) m :
  size (st_conf st) = n -> all ok (st_conf st) ->
  let st' := iter m (sample_next d expf split3 split2 uniform transition full fast machine_pow sweep_size n) st in
  (st_rng st', st_conf st', st_acc st', st_steps st')
  = ref_calls m (st_rng st) (st_conf st) (st_acc st) (st_steps st).
Proof.
elim: m st => [|m IH] [k xs acc steps] // Hn Hok.
rewrite iterSr [ref_calls _ _ _ _ _]/= /=; rewrite /= in Hn Hok.
have := C24_fast_metropolis_steps (st := SState k xs acc steps) sweep_size Hn Hok => /=.
have := @run_lemma sweep_size (init_loop split2 full machine_pow (SState k xs acc steps)) xs (split2 k).2 acc Hn Hok.
case E : (run _ _ _ _) => [[ys k'] acc'] /= [].
  by split=> //=; rewrite -map_comp.
move=> _ [Hys Hyok] [E1 _ E3 _ _].
rewrite IH /= -/body.
- by rewrite E1 E3.
- by rewrite E1.
- by rewrite E1.
Qed.
End Props.

Print Assumptions C24_fast_metropolis_steps.
Print Assumptions C24_fast_metropolis_calls.
