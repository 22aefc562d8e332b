(* C126: no random key is consumed twice, and no key is drawn from and split.
   C127: the random samples of the norm estimate of stratified sampling. *)
From Verif Require Import Base Hilbert_Model Strat_Model Metropolis_Model Keys_Model.

Definition ekey (e : event) : key := match e with Split k _ => k | Draw k => k end.
Definition is_draw (e : event) : bool := if e is Draw _ then true else false.

(* Two uses of keys that make the numbers dependent: the same key used twice, or a draw with a
   key from which the other key was derived. *)
Definition clash (a b : event) : bool :=
  [|| ekey a == ekey b, is_draw a && prefix (ekey a) (ekey b) | is_draw b && prefix (ekey b) (ekey a)].
Definition used_once (tr : seq event) : bool := pairwise (fun a b => ~~ clash a b) tr.

(* ------------------------------------------------------------------ *)
Definition safe (k : key) (tr : seq event) : bool :=
  all (fun e => prefix k (ekey e)) tr && used_once tr.
Definition kids (k : key) (l : seq (nat * nat)) (tr : seq event) : bool :=
  all (fun e => has (fun x => prefix (rcons k x) (ekey e)) l) tr && used_once tr.

Lemma prefix_siblings (k : key) x y (s : key) :
  prefix (rcons k x) s -> prefix (rcons k y) s -> x = y.
Proof.
move=> /prefixP [u ->]; rewrite -!cats1 -!catA prefix_catr // !cat1s.
by rewrite eqxx /= => /andP[/eqP].
Qed.

Lemma prefix_chain (a b c : key) : prefix a b -> prefix b c -> prefix a c.
Proof. by move=> h1 h2; exact: (prefix_trans h1 h2). Qed.

Lemma clash_siblings (k : key) x y a b :
  prefix (rcons k x) (ekey a) -> prefix (rcons k y) (ekey b) -> clash a b -> x = y.
Proof.
move=> ha hb /or3P[/eqP e|/andP[_ p]|/andP[_ p]].
- by rewrite e in ha; exact: prefix_siblings ha hb.
- exact: prefix_siblings (prefix_chain ha p) hb.
- exact: prefix_siblings ha (prefix_chain hb p).
Qed.

Lemma kids1 k x tr : safe (rcons k x) tr -> kids k [:: x] tr.
Proof.
rewrite /safe /kids => /andP[h ->]; rewrite andbT.
by apply: sub_all h => e /=; rewrite orbF.
Qed.

Lemma kids_cat k l1 l2 t1 t2 : ~~ has (mem l1) l2 ->
  kids k l1 t1 -> kids k l2 t2 -> kids k (l1 ++ l2) (t1 ++ t2).
Proof.
move=> dis /andP[a1 p1] /andP[a2 p2]; apply/andP; split.
  rewrite all_cat; apply/andP; split.
    by apply: sub_all a1 => e h; rewrite has_cat h.
  by apply: sub_all a2 => e h; rewrite has_cat h orbT.
rewrite /used_once pairwise_cat; apply/and3P; split=> //.
apply: sub_all a1 => a /hasP[x xl hx]; apply: sub_all a2 => b /hasP[y yl hy].
apply/negP => /(clash_siblings hx hy) e; case/hasP: dis; exists y => //=.
by rewrite -e.
Qed.

Lemma kids_flatten k (f : nat -> seq event) n (l : seq nat) : uniq l ->
  (forall i, i \in l -> safe (child n i k) (f i)) ->
  kids k [seq (n, i) | i <- l] (flatten [seq f i | i <- l]).
Proof.
elim: l => [|i l IH] //= /andP[il ul] h.
rewrite -cat1s; apply: kids_cat.
- apply/hasPn => y /mapP[j jl ->] /=; rewrite inE xpair_eqE eqxx /=.
  by apply: contraNN il => /eqP <-.
- by apply: kids1; apply: h; rewrite inE eqxx.
- by apply: IH => // j jl; apply: h; rewrite inE jl orbT.
Qed.

Lemma safe_split k l n tr : kids k l tr -> safe k (Split k n :: tr).
Proof.
move=> /andP[a p]; apply/andP; split=> /=.
  rewrite prefix_refl /=; apply: sub_all a => e /hasP[x _ h].
  by apply: prefix_chain h; rewrite -cats1 prefix_prefix.
rewrite /used_once /= in p *; rewrite p andbT.
apply: sub_all a => e /hasP[x _ h]; rewrite /clash /= .
have hs : (size k < size (ekey e))%N.
  by have := size_prefix h; rewrite size_rcons.
rewrite negb_or; apply/andP; split.
  by apply: contraTneq hs => ->; rewrite ltnn.
rewrite negb_and; apply/orP; right; apply/negP => /size_prefix.
by rewrite leqNgt hs.
Qed.

Lemma safe_draw k : safe k [:: Draw k].
Proof. by rewrite /safe /= prefix_refl. Qed.

Lemma loop_safe (f : key -> key * seq event) :
  (forall k tr', safe (f k).1 tr' -> safe k ((f k).2 ++ tr')) ->
  forall n k tr', safe (loop f n k).1 tr' -> safe k ((loop f n k).2 ++ tr').
Proof.
move=> h n k; elim: n => [|n IH] tr' //.
rewrite /loop iterS -/(loop f n k) /turn.
have := h (loop f n k).1 tr'.
by case: (f _) => k' t /= H /H s; rewrite -catA; exact: IH.
Qed.

Lemma safe_nil k : safe k [::].
Proof. by []. Qed.

(* what the theorems say of a loop: all keys it consumes come from its first key and are used
   once, also together with every such use of the key it leaves *)
Definition disciplined (run : key -> key * seq event) : Prop :=
  forall k later, all (fun e => prefix (run k).1 (ekey e)) later -> used_once later ->
    all (fun e => prefix k (ekey e)) ((run k).2 ++ later) /\ used_once ((run k).2 ++ later).

Lemma disciplinedP run :
  (forall k tr', safe (run k).1 tr' -> safe k ((run k).2 ++ tr')) <-> disciplined run.
Proof.
split=> h k tr'; first by move=> a u; have /andP[] := h k tr' (introT andP (conj a u)).
by move=> /andP[a u]; have [a' u'] := h k tr' a u; rewrite /safe a' u'.
Qed.

Definition rule_disciplined (rule : nat -> key -> seq event) : Prop :=
  forall n k, all (fun e => prefix k (ekey e)) (rule n k) /\ used_once (rule n k).

Lemma hop_safe k : safe k (hop_events k).
Proof.
apply: (@safe_split _ [:: (4, 2); (4, 0); (4, 1); (4, 3)]%N).
rewrite -[[:: Draw _; _; _; _]]/([:: Draw (child 4 2 k)] ++ ([:: Draw (child 4 0 k)] ++
  ([:: Draw (child 4 1 k)] ++ [:: Draw (child 4 3 k)])))%N.
rewrite -[X in kids k X]/([:: (4, 2)] ++ ([:: (4, 0)] ++ ([:: (4, 1)] ++ [:: (4, 3)])))%N.
by do !apply: kids_cat => //; apply: kids1; apply: safe_draw.
Qed.

(* C126: both transition rules *)
Theorem C126_hopping_rule : rule_disciplined hopping_events.
Proof.
move=> n k; apply/andP; apply: (@safe_split _ [seq (n, i) | i <- iota 0 n]).
by apply: kids_flatten; [exact: iota_uniq | move=> i _; exact: hop_safe].
Qed.

Theorem C126_exchange_rule : rule_disciplined exchange_events.
Proof. by move=> n k; apply/andP; exact: safe_draw. Qed.

(* C126: the Metropolis sampler with any such rule, any number of chains, steps and calls *)
Theorem C126_metropolis rule n_chains sweep_size calls : rule_disciplined rule ->
  disciplined (sample_keys rule n_chains sweep_size calls).
Proof.
move=> hr; apply/disciplinedP; apply: loop_safe => k tr' h.
apply: (@safe_split _ ([:: (2, 1)] ++ [:: (2, 0)])%N); apply: kids_cat => //; last exact: kids1.
apply: kids1; rewrite -[X in safe _ X]cats0; apply: loop_safe => //.
move=> k2 t2 h2; rewrite /body_keys /= -!catA /=.
apply: (@safe_split _ ([:: (3, 1)] ++ ([:: (3, 2)] ++ [:: (3, 0)]))%N).
apply: kids_cat => //.
  by apply: kids1; apply/andP; exact: hr.
rewrite -(cat1s (Draw _)); apply: kids_cat => //; last exact: kids1.
by apply: kids1; exact: safe_draw.
Qed.

(* C126: the direct sampler of autoregressive models *)
Theorem C126_autoreg n_sites calls : disciplined (ar_keys n_sites calls).
Proof.
apply/disciplinedP; apply: loop_safe => k tr' h; rewrite /ar_chain_keys /= -catA.
apply: (@safe_split _ ([:: (4, 1)] ++ ([:: (4, 2)] ++ ([:: (4, 3)] ++ [:: (4, 0)])))%N).
rewrite -(cat1s (Draw _)); apply: kids_cat => //; first by apply: kids1; exact: safe_draw.
apply: kids_cat => //; last first.
  apply: kids_cat => //; first by apply: kids1; exact: safe_draw.
  exact: kids1.
apply: kids1; rewrite -[X in safe _ X]cats0; apply: loop_safe => // k2 t2 h2.
apply: (@safe_split _ ([:: (2, 1)] ++ [:: (2, 0)])%N).
rewrite -(cat1s (Draw _)); apply: kids_cat => //; last exact: kids1.
by apply: kids1; exact: safe_draw.
Qed.

(* an example: two calls with two hopping chains and two steps consume 54 keys *)
Example C126_metropolis_ex :
  let r := sample_keys hopping_events 2 2 2 [::] in
  [/\ size r.2 = 54, used_once r.2 & r.1 = [:: (2, 0); (2, 0)]]%N.
Proof. by vm_compute. Qed.
Example C126_autoreg_ex :
  let r := ar_keys 3 2 [::] in [/\ size r.2 = 18, used_once r.2 & r.1 = [:: (4, 0); (4, 0)]]%N.
Proof. by vm_compute. Qed.

(* ------------------------------------------------------------------ *)
(* C126 fails for the random states of the fermionic Hilbert space: the key that draws the up
   positions of a sample is split for the next sample *)
Lemma loop_S (f : key -> key * seq event) n k :
  loop f n.+1 k = ((loop f n (f k).1).1, (f k).2 ++ (loop f n (f k).1).2).
Proof.
elim: n k => [|n IH] k; first by rewrite /loop /= /turn /=; case: (f k) => a b; rewrite /= cats0.
have e m q : loop f m.+1 q = turn f (loop f m q) by [].
rewrite e IH (e n (f k).1) /turn /=.
by case: (f _) => a b /=; rewrite catA.
Qed.

Theorem C126_random_state_reuses_keys n k : ~~ used_once (random_state_keys n.+2 k).2.
Proof.
by rewrite /random_state_keys !loop_S /used_once /= /clash /= eqxx !andbF.
Qed.

(* the same for the mini-batches of the fitting driver *)
Theorem C126_state_fitting_reuses_keys n k : ~~ used_once (fitting_keys n.+2 k).2.
Proof.
by rewrite /fitting_keys !loop_S /used_once /= /clash /= eqxx !andbF.
Qed.

Theorem C126_used_once_refuted :
  exists n k, ~~ used_once (random_state_keys n k).2 && ~~ used_once (fitting_keys n k).2.
Proof.
by exists 2%N, [::]; apply/andP; split; [exact: C126_random_state_reuses_keys | exact: C126_state_fitting_reuses_keys].
Qed.

(* what is left: no two draws use the same key *)
Definition draws (tr : seq event) : seq key := [seq ekey e | e <- tr & is_draw e].

Lemma path0 n (k : key) : iter n (child 2 0) k = k ++ nseq n (2, 0)%N.
Proof.
by elim: n => [|n IH] /=; rewrite ?cats0 // IH /child -cats1 -catA; congr cat; elim: {IH} n => //= n ->.
Qed.

Lemma fermion_draws n k :
  draws (random_state_keys n k).2 =
  flatten [seq [:: iter i.+1 (child 2 0) k; child 2 1 (iter i (child 2 0) k)] | i <- iota 0 n].
Proof.
rewrite /random_state_keys; elim: n k => [|n IH] k //.
rewrite loop_S /draws /= -/(draws _) IH; congr [:: _, _ & _].
rewrite (iotaDl 1 0 n) -map_comp; congr flatten.
by apply: eq_map => i /=; rewrite -!iterSr.
Qed.

Lemma uniq_interleave (T : eqType) (u d : nat -> T) n : injective u -> injective d ->
  (forall i j, u i != d j) -> uniq (flatten [seq [:: u i; d i] | i <- iota 0 n]).
Proof.
move=> iu id ud; elim: n 0%N => [|n IH] m //=; rewrite !inE negb_or ud /= IH andbT.
apply/andP; split; apply/flatten_mapP => -[j]; rewrite mem_iota => /andP[lt _];
  rewrite !inE ?(negbTE (ud _ _)) ?(eq_sym (d m)) ?(negbTE (ud _ _)) ?orbF ?orFb => /eqP.
- by move/iu=> e; rewrite e ltnn in lt.
- by move/id=> e; rewrite e ltnn in lt.
Qed.

Theorem C126_random_state_partial n k : uniq (draws (random_state_keys n k).2).
Proof.
have up_inj i j : iter i (child 2 0) k = iter j (child 2 0) k -> i = j.
  by move=> /(congr1 size); rewrite !path0 !size_cat !size_nseq => /addnI.
rewrite fermion_draws; apply: uniq_interleave.
- by move=> i j /up_inj [].
- by move=> i j /rcons_inj [/up_inj].
- move=> i j; rewrite iterS /child; apply/negP => /eqP /(congr1 (last (0, 0)%N)).
  by rewrite !last_rcons.
Qed.

Lemma fitting_draws n k :
  draws (fitting_keys n k).2 = [seq iter i.+1 (child 2 0) k | i <- iota 0 n].
Proof.
rewrite /fitting_keys; elim: n k => [|n IH] k //.
rewrite loop_S /draws /= -/(draws _) IH; congr cons.
rewrite (iotaDl 1 0 n) -map_comp.
by apply: eq_map => i /=; rewrite -!iterSr.
Qed.

Theorem C126_state_fitting_partial n k : uniq (draws (fitting_keys n k).2).
Proof.
rewrite fitting_draws map_inj_uniq ?iota_uniq // => i j /(congr1 size).
by rewrite !path0 !size_cat !size_nseq => /addnI [].
Qed.

(* the keys above are those the sampler of Metropolis_Model uses: its [loop_body] splits the key
   of the loop in three, [sample_next] the random state in two *)
Theorem C126_keys_of_sampler (F : realFieldType) (T : Type) (d : T) (Cache : Type) expf uniform
    transition full fast mp sweep_size n_chains rule (st : sstate T key) :
  let split3 k := (child 3 0 k, child 3 1 k, child 3 2 k) in
  let split2 k := (child 2 0 k, child 2 1 k) in
  (forall i, ls_key (iter i (@loop_body F T d Cache key expf split3 uniform transition fast mp)
                          (init_loop split2 full mp st))
             = (loop (body_keys rule n_chains) i (child 2 1 (st_rng st))).1) /\
  st_rng (@sample_next F T d Cache key expf split3 split2 uniform transition full fast mp
            sweep_size n_chains st)
  = (next_keys rule n_chains sweep_size (st_rng st)).1.
Proof.
split=> // i; elim: i => [|i IH] //.
rewrite iterS /loop_body; case: (transition _ _) => [[confp corr] sites] /=.
by rewrite IH /turn.
Qed.

(* ------------------------------------------------------------------ *)
Section C127.
Variable positions : nat -> nat -> key -> seq nat.
Variables (h : hilbert) (n_up n_down : nat).
Let cand := norm_candidates positions h n_up n_down.
Let smp := norm_samples positions h n_up n_down.
Let strm (rng : key) (j : nat) := fermion_sample positions h n_up n_down (iter j.+2 (child 2 0) rng).

Lemma random_stateE n k : random_state positions h n_up n_down n k =
  [seq fermion_sample positions h n_up n_down (iter i (child 2 0) k) | i <- iota 0 n].
Proof.
elim: n k => [|n IH] k //; rewrite /= IH; congr cons.
by rewrite (iotaDl 1 0 n) -map_comp; apply: eq_map => i; rewrite /comp -iterSr.
Qed.

Lemma cand0 n rng : cand 0 n rng = [::]. Proof. by []. Qed.
Lemma candS r n rng : cand r.+1 n rng = [seq strm rng i | i <- iota 0 n] ++ cand r n (child 2 0 rng).
Proof.
rewrite /cand /norm_candidates /= random_stateE; congr cat.
by apply: eq_map => i; rewrite /strm -!iterSr.
Qed.

Lemma size_cand r n rng : size (cand r n rng) = (r * n)%N.
Proof. by elim: r rng => [|r IH] rng //; rewrite candS size_cat size_map size_iota IH mulSn. Qed.

Lemma nth_cand R n rng r i : (r < R)%N -> (i < n)%N ->
  nth [::] (cand R n rng) (r * n + i) = strm rng (r + i).
Proof.
elim: R r rng => [|R IH] [|r] rng // rR ilt; rewrite candS nth_cat size_map size_iota.
  by rewrite mul0n !add0n ilt (nth_map 0%N) ?size_iota // nth_iota.
rewrite mulSn -addnA ltnNge leq_addr /= addnC addnK IH //.
by rewrite /strm addSn -iterSr.
Qed.

(* C127, what happens: candidate i of a turn of the while loop is candidate i + 1 of the turn
   before, for every generator *)
Theorem C127_candidates_shift rounds n rng r i : (r.+1 < rounds)%N -> (i.+1 < n)%N ->
  nth [::] (cand rounds n rng) (r.+1 * n + i) = nth [::] (cand rounds n rng) (r * n + i.+1).
Proof.
move=> hr hi; rewrite !nth_cand ?addSnnS //; first exact: ltnW.
exact: ltnW.
Qed.

(* C127 fails: if the first candidate is in the deterministic set and the others are not, the
   sample that is missing is filled up with a copy of the first sample found *)
Theorem C127_top_up_copies det n rng : (1 < n)%N ->
  nth [::] (cand 1 n rng) 0 \in det ->
  (forall i, (0 < i < n)%N -> nth [::] (cand 1 n rng) i \notin det) ->
  smp det 2 n rng =
    Some (rcons [seq nth [::] (cand 1 n rng) i | i <- iota 1 n.-1] (nth [::] (cand 1 n rng) 1)).
Proof.
case: n => [|[|n]] // _.
have e i : (i < n.+2)%N -> nth [::] (cand 1 n.+2 rng) i = strm rng i.
  by move=> hi; have := @nth_cand 1 n.+2 rng 0 i isT hi.
rewrite e // => h0 hi.
have {}hi i : (0 < i < n.+2)%N -> strm rng i \notin det.
  by move=> /[dup] hh /andP[_ lt]; rewrite -e // hi.
rewrite /smp /norm_samples /random_samples -/(cand 2 n.+2 rng) candS candS cand0 cats0.
have -> : [seq strm (child 2 0 rng) i | i <- iota 0 n.+2] = [seq strm rng i | i <- iota 1 n.+2].
  by rewrite (iotaDl 1 0 n.+2) -map_comp; apply: eq_map => i; rewrite /strm /comp -iterSr.
set A := [seq strm rng i | i <- iota 1 n.+1].
have -> : [seq strm rng i | i <- iota 0 n.+2] = strm rng 0 :: A by [].
have -> : [seq strm rng i | i <- iota 1 n.+2] = A ++ [:: strm rng n.+2].
  by rewrite /A -[n.+2 in LHS]addn1 iotaD map_cat add1n.
have allA : all (fun x => x \notin det) A.
  by apply/allP => x /mapP[i]; rewrite mem_iota add1n => hh ->; exact: hi.
have sA : size A = n.+1 by rewrite size_map size_iota.
have fA : filter (fun c => c \notin det) (strm rng 0 :: A) = A.
  by rewrite -[RHS](all_filterP allA) -cat1s filter_cat /= h0.
rewrite filter_cat fA filter_cat (all_filterP allA); set B := filter _ _.
have -> : (n.+2 <= size (A ++ A ++ B))%N.
  by rewrite !size_cat sA -addn1 leq_add2l addSn.
have -> : take n.+2 (A ++ A ++ B) = rcons A (strm rng 1).
  by rewrite take_cat sA ltnNge leqnSn -[n.+2]addn1 addKn /= take0 cats1.
rewrite e //; congr (Some (rcons _ _)).
by apply/eq_in_map => i; rewrite mem_iota add1n => /andP[_ b]; rewrite e.
Qed.

(* C127 fails: the samples of the next evaluation, after [a] steps of the sampler, repeat those
   of this one *)
Theorem C127_evaluations_overlap rule n_chains sweep_size det n a rng : (a <= n)%N ->
  let rng' := (sample_keys rule n_chains sweep_size a rng).1 in
  (forall i, (i < n)%N -> nth [::] (cand 1 n rng) i \notin det) ->
  (forall i, (i < n)%N -> nth [::] (cand 1 n rng') i \notin det) ->
  exists l l', [/\ smp det 1 n rng = Some l, smp det 1 n rng' = Some l' & take (n - a) l' = drop a l].
Proof.
move=> an rng' hl hl'.
have er : rng' = iter a (child 2 0) rng.
  rewrite /rng' /sample_keys; elim: {an rng' hl'} a => [|a IH] //.
  by rewrite iterS -IH.
have all1 q : (forall i, (i < n)%N -> nth [::] (cand 1 n q) i \notin det) ->
    smp det 1 n q = Some [seq strm q i | i <- iota 0 n].
  move=> hq; rewrite /smp /norm_samples /random_samples -/(cand 1 n q).
  have /all_filterP -> : all (fun c => c \notin det) (cand 1 n q).
    by apply/(all_nthP [::]) => i; rewrite size_cand mul1n; apply: hq.
  rewrite size_cand mul1n leqnn candS cand0 cats0.
  by rewrite take_oversize // size_map size_iota.
exists [seq strm rng i | i <- iota 0 n], [seq strm rng' i | i <- iota 0 n].
split; [exact: all1 | exact: all1 |].
apply: (@eq_from_nth _ [::]).
  by rewrite size_take size_drop !size_map !size_iota; case: ltngtP (leq_subr a n).
rewrite size_take size_map size_iota => i hi.
have {}hi : (i < n - a)%N by move: hi; case: (ltngtP (n - a) n) (leq_subr a n) => // ->.
rewrite nth_take // nth_drop.
have i1 : (i < n)%N by exact: leq_trans hi (leq_subr _ _).
have i2 : (a + i < n)%N by rewrite addnC -ltn_subRL ltn_subRL addnC -ltn_subRL.
rewrite !(nth_map 0%N) ?size_iota // !nth_iota // !add0n /strm er.
by rewrite -iterD addnC !addnS addnC.
Qed.

(* what is left: the right number of samples, all of them candidates outside the deterministic
   set *)
Theorem C127_samples_partial det rounds n rng l : smp det rounds n rng = Some l ->
  size l = n /\ forall x, x \in l -> x \notin det /\ x \in cand rounds n rng.
Proof.
rewrite /smp /norm_samples /random_samples -/(cand rounds n rng).
case: leqP => // hn [<-]; split; first by rewrite size_takel.
by move=> x /mem_take; rewrite mem_filter => /andP[].
Qed.
End C127.

(* C126 fails for stratified sampling: it draws random states with keys that the sampler splits
   for its steps *)
Theorem C126_stratified_reuses_keys rule n_chains m n r rng :
  has (fun a => is_draw a &&
         has (fun b => ekey b == ekey a) (sample_keys rule n_chains m.+1 3 rng).2)
      (norm_events r.+1 n.+1 rng).
Proof.
set q := child 2 0 (child 2 0 rng); set P := fun a => _.
have hP : P (Draw (child 2 1 q)).
  have hn k : (next_keys rule n_chains m.+1 k).1 = child 2 0 k by [].
  have hq : has (fun b => ekey b == child 2 1 q) (next_keys rule n_chains m.+1 q).2.
    rewrite -[(next_keys _ _ _ _).2]/(Split q 2 :: (loop (body_keys rule n_chains) m.+1 (child 2 1 q)).2).
    by rewrite loop_S [has _ _]/= eqxx orbT.
  by rewrite /P /sample_keys !loop_S !hn !has_cat -/q hq !orbT.
have -> : norm_events r.+1 n.+1 rng = [:: Split rng 2; Split (child 2 0 rng) 2] ++
    ((loop fermion_keys n.+1 q).2 ++ rounds_events r n.+1 q) by [].
by rewrite loop_S !has_cat [has P (fermion_keys q).2]/= hP !orbT.
Qed.

(* an example: three orbitals, one electron of each spin, a generator that gives the next site for
   every further split.  The first candidate is in the deterministic set, the second is taken
   twice. *)
Definition pos_ex (n k : nat) (q : key) : seq nat := take k (rot ((size q - 3) %% n) (iota 0 n)).
Definition hilb_ex := Hilbert 3 (Some (1, 1)%N).

Example C127_top_up_ex :
  norm_samples pos_ex hilb_ex 1 1 [:: [:: 3; 0; 0]] 2 2 [::] = Some [:: [:: 0; 3; 0]; [:: 0; 3; 0]]%N
  /\ norm_candidates pos_ex hilb_ex 1 1 2 2 [::]
     = [:: [:: 3; 0; 0]; [:: 0; 3; 0]; [:: 0; 3; 0]; [:: 0; 0; 3]]%N.
Proof. by vm_compute. Qed.

Example C127_overlap_ex :
  norm_samples pos_ex hilb_ex 1 1 [::] 1 3 [::] = Some [:: [:: 3; 0; 0]; [:: 0; 3; 0]; [:: 0; 0; 3]]%N
  /\ norm_samples pos_ex hilb_ex 1 1 [::] 1 3 (sample_keys hopping_events 1 1 1 [::]).1
     = Some [:: [:: 0; 3; 0]; [:: 0; 0; 3]; [:: 3; 0; 0]]%N.
Proof. by vm_compute. Qed.

(* with independent draws every row of random_samples could be any configuration of the
   complement; here the second row is always the first *)
Theorem C127_independent_refuted : exists positions h n_up n_down det rng l,
  [/\ norm_samples positions h n_up n_down det 2 2 rng = Some l,
      nth [::] l 0 = nth [::] l 1,
      (forall positions' l', nth [::] (norm_candidates positions' h n_up n_down 1 2 rng) 0 \in det ->
         nth [::] (norm_candidates positions' h n_up n_down 1 2 rng) 1 \notin det ->
         norm_samples positions' h n_up n_down det 2 2 rng = Some l' -> nth [::] l' 0 = nth [::] l' 1) &
      nth [::] (norm_candidates positions h n_up n_down 1 3 rng) 2
        \notin [:: nth [::] l 0; nth [::] l 1] ++ det].
Proof.
exists pos_ex, hilb_ex, 1%N, 1%N, [:: [:: 3; 0; 0]]%N, [::], [:: [:: 0; 3; 0]; [:: 0; 3; 0]]%N.
split; [exact: (proj1 C127_top_up_ex) | by [] | | by vm_compute].
move=> pos' l' h0 h1; rewrite C127_top_up_copies //; first by case=> <-.
by case=> [|[|i]].
Qed.
