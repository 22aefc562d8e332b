(* C104: check-pointed optimisation of the ab-initio scripts. *)
From Verif Require Import Base Ckpt_Model.
Import Num.Theory Order.TTheory.
Local Open Scope ring_scope.

Section Argmin.
Variable R : realDomainType.
Implicit Type l : seq R.
Lemma has_min l : l != [::] -> has (fun v => all (fun w => v <= w) l) l.
Proof.
suff H : forall m : seq R, m != [::] -> exists2 v, v \in m & all (fun w => v <= w) m.
  by move=> /H[v Hv Ha]; apply/hasP; exists v.
elim=> // a m IH _; case: (m =P [::]) => [->|/eqP/IH[v Hv Ha]]; first by exists a; rewrite ?mem_head //= lexx.
case: (leP a v) => Hav.
  exists a; first exact: mem_head.
  by rewrite /= lexx; apply/allP => w Hw; apply: le_trans Hav _; apply: (allP Ha).
by exists v; [rewrite inE Hv orbT|rewrite /= (ltW Hav) Ha].
Qed.
Lemma argmin_lt l : l != [::] -> (argmin l < size l)%N.
Proof. by move=> /has_min; rewrite has_find. Qed.
Lemma argmin_le l w : w \in l -> nth 0 l (argmin l) <= w.
Proof.
move=> Hw; have Hl : l != [::] by case: (l) Hw.
by have /allP := nth_find 0 (has_min Hl); apply.
Qed.
Lemma argmin_first l j : (j < argmin l)%N -> nth 0 l (argmin l) < nth 0 l j.
Proof.
move=> Hj; have Hjs : (j < size l)%N by apply: leq_trans Hj (find_size _ _).
have := @before_find _ 0 (fun v => all (fun w => v <= w) l) l j Hj; move/negbT/allPn => [w Hw]; rewrite -ltNge.
by apply: le_lt_trans; apply: argmin_le.
Qed.
Lemma argmin_unique l k : (k < size l)%N -> (forall w, w \in l -> nth 0 l k <= w) ->
  (forall j, (j < k)%N -> nth 0 l k < nth 0 l j) -> argmin l = k.
Proof.
move=> Hk Hm Hf; have Hl : l != [::] by case: (l) Hk.
case: (ltngtP (argmin l) k) => // H.
  by have := Hf _ H; rewrite ltNge argmin_le ?mem_nth.
by have := argmin_first H; rewrite ltNge Hm ?mem_nth // argmin_lt.
Qed.
Lemma argmin_rcons l v : l != [::] ->
  argmin (rcons l v) = if v < nth 0 l (argmin l) then size l else argmin l.
Proof.
move=> Hl; have Ha := argmin_lt Hl; apply: argmin_unique; rewrite ?size_rcons.
- by case: ifP => _ //; rewrite ltnS ltnW.
- move=> w; rewrite mem_rcons inE; case: ltP => H.
    by rewrite nth_rcons ltnn eqxx => /predU1P[->//|/argmin_le H2]; apply: ltW (lt_le_trans H H2).
  by rewrite nth_rcons Ha => /predU1P[->//|/argmin_le].
- case: ltP => H j Hj; rewrite !nth_rcons ?ltnn ?eqxx.
    by rewrite Hj; apply: lt_le_trans H _; apply: argmin_le; apply: mem_nth.
  by rewrite Ha (ltn_trans Hj Ha); apply: argmin_first.
Qed.
End Argmin.

Section Claim.
Variables (P : Type) (R : realDomainType).
Local Notation st := (st P R).
Local Notation oracle := (oracle P R).

(* the process is killed during the evaluation of the energy: only parameters.pickle has been written *)
Definition killed (s : st) : st := St (par s) (best s) (cnt s) (gcnt s) (Some (par s)) (f_best s) (f_out s).

(* all executions of H2O.py and H50_1D.py with any number of interruptions between or within iterations; the trace holds
   the parameters and the variance of every iteration whose line has been written *)
Inductive reach (mx : nat) : st -> seq (P * R) -> Prop :=
| r_start p0 : reach mx (start R p0) [::]
| r_iteration s tr (o : oracle) : reach mx s tr -> (cnt s < mx)%N -> reach mx (iteration 0 mx o s) (rcons tr (par s, (o (par s)).1))
| r_restart s tr s' : reach mx s tr -> restart s = Some s' -> reach mx s' tr
| r_killed s tr s' : reach mx s tr -> (cnt s < mx)%N -> restart (killed s) = Some s' -> reach mx s' tr.

Definition consistent (s : st) (tr : seq (P * R)) : Prop :=
  f_out s = [seq x.2 | x <- tr] /\
  if tr is x0 :: _ then
    best s = Some (nth 0 (f_out s) (argmin (f_out s))) /\ f_best s = (nth x0 tr (argmin (f_out s))).1
  else best s = None /\ f_best s = par s /\ (f_par s = None \/ f_par s = Some (par s)).

Lemma reach_consistent mx s tr : reach mx s tr -> consistent s tr.
Proof.
have Hr s0 s' tr0 : consistent s0 tr0 -> restart s0 = Some s' -> consistent s' tr0.
  rewrite /consistent /restart; case=> Eo Hb.
  case Ep: (f_par s0) => [p|//]; rewrite Eo; case: tr0 Eo Hb => [|x0 [|x1 tr']] Eo //.
    move=> [Hb [Hf Hp]] [<-] /=; split=> //; split=> //; split; last by right.
    by rewrite Hf; case: Hp; rewrite Ep // => -[].
  by rewrite Eo => -[_ Hf] [<-].
elim=> {s tr} [p0|s tr o _ [Eo Hb] Hc|s tr s' _ H|s tr s' _ H _].
- by split=> //; split=> //; split=> //; left.
- rewrite /consistent /iteration; case Eov: (o (par s)) => [v p'] /=.
  case: tr Eo Hb => [|x0 tr] Eo.
    move=> [-> [Hf _]] /=; rewrite Eo; split=> //; split; last by rewrite /argmin /= lexx.
    by rewrite /argmin /= lexx.
  have Hne : f_out s != [::] by rewrite Eo.
  case=> -> Hf; case: ifP => Hv /=.
    split; first by rewrite Eo map_rcons.
    rewrite argmin_rcons // Hv nth_rcons ltnn eqxx; split=> //.
    by rewrite -rcons_cons nth_rcons Eo size_map ltnn eqxx.
  split; first by rewrite Eo map_rcons.
  have Ha := argmin_lt Hne.
  rewrite argmin_rcons // Hv nth_rcons Ha; split=> //.
  by rewrite -rcons_cons nth_rcons -(size_map snd) -Eo Ha.
- exact: Hr.
- apply: Hr; move: H => [Eo Hb]; split=> //=; case: tr Eo Hb => // Eo [Hb [Hf Hp]].
  by split=> //; split=> //; right.
Qed.

(* best_pars.pickle holds the parameters of an iteration of smallest variance among all lines of out.txt, best_var is
   that variance *)
Theorem C104_best_parameters mx s tr : reach mx s tr -> (0 < size tr)%N ->
  f_out s = [seq x.2 | x <- tr] /\
  exists p v, List.In (p, v) tr /\ f_best s = p /\ best s = Some v /\ forall w, w \in f_out s -> v <= w.
Proof.
move=> /reach_consistent[Eo]; case: tr Eo => // x0 tr Eo [Hb Hf] _; split=> //.
have Hne : f_out s != [::] by rewrite Eo.
have Ha := argmin_lt Hne; have Has : (argmin (f_out s) < size (x0 :: tr))%N by rewrite -(size_map snd) -Eo.
exists (nth x0 (x0 :: tr) (argmin (f_out s))).1, (nth 0 (f_out s) (argmin (f_out s))); split; last first.
  by split=> //; split=> // w; apply: argmin_le.
have -> : nth 0 (f_out s) (argmin (f_out s)) = (nth x0 (x0 :: tr) (argmin (f_out s))).2 by rewrite {1}Eo (nth_map x0).
rewrite -surjective_pairing; elim: (x0 :: tr) (argmin _) Has => // y l IH [|k] /=; first by left.
by move=> Hk; right; apply: IH.
Qed.

(* an uninterrupted run counts the iterations since the best one *)
Definition counted (s : st) : Prop := if f_out s == [::] then best s = None else
  [/\ cnt s = ((size (f_out s)).-1 - argmin (f_out s))%N, best s = Some (nth 0 (f_out s) (argmin (f_out s))) & f_par s <> None].
Lemma rcons_neq0 (l : seq R) v : (rcons l v == [::]) = false.
Proof. by case: l. Qed.
Lemma counted_iteration mx (o : oracle) s : counted s -> counted (iteration 0 mx o s).
Proof.
rewrite /counted /iteration; case: (o (par s)) => v p'.
case: eqP => [E ->|/eqP Hne [Hc -> Hp]] /=.
  by rewrite E /= /argmin /= lexx.
have Ha := argmin_lt Hne.
case Hv: (v < nth 0 (f_out s) (argmin (f_out s))) => /=; rewrite rcons_neq0 argmin_rcons // Hv nth_rcons size_rcons ?ltnn ?eqxx ?subnn ?Ha /=; split=> //.
by rewrite Hc; move: Ha; case: (size _) => // n; rewrite ltnS => Hn; rewrite subSn.
Qed.
Lemma counted_loop mx (os : seq oracle) s : counted s -> counted (loop 0 mx os s).
Proof. by elim: os s => // o os IH s Hs; rewrite [loop _ _ _ _]/=; case: ifP => // _; apply/IH/counted_iteration. Qed.
Lemma loop_count mx (os : seq oracle) p0 : let s := loop 0 mx os (start R p0) in
  f_out s != [::] -> [/\ cnt s = ((size (f_out s)).-1 - argmin (f_out s))%N,
  best s = Some (nth 0 (f_out s) (argmin (f_out s))) & f_par s <> None].
Proof. by move=> s Hs; have := @counted_loop mx os (start R p0) erefl; rewrite -/s /counted (negbTE Hs). Qed.

(* after a restart the best variance is the same but the counter is ahead by one; a single line cannot be read *)
Theorem C104_restart mx (os : seq oracle) p0 : let s := loop 0 mx os (start R p0) in (2 <= size (f_out s))%N ->
  exists s', [/\ restart s = Some s', best s' = best s, cnt s' = (cnt s).+1, f_best s' = f_best s & f_out s' = f_out s].
Proof.
move=> s Hs; have Hne : f_out s != [::] by case: (f_out s) Hs.
have [Hc Hb Hp] := loop_count Hne; rewrite -/s in Hc Hb Hp.
rewrite /restart; case Ep: (f_par s) Hp => [p|//] _; have Ha := argmin_lt Hne.
case E: (f_out s) Hs Hc Hb Ha => [|v1 [|v2 l]] // _ Hc Hb Ha.
eexists; split; [reflexivity| |rewrite /= Hc|by []|by []]; first by rewrite /= Hb.
by rewrite -subSn.
Qed.

(* the loop stops after max_count iterations in a row without a smaller variance *)
Theorem C104_patience mx (os : seq oracle) p0 : let s := loop 0 mx os (start R p0) in f_out s != [::] ->
  exists v, best s = Some v /\
  (forall k, (k < cnt s)%N -> v <= nth 0 (f_out s) ((size (f_out s)).-1 - k)) /\ nth 0 (f_out s) ((size (f_out s)).-1 - cnt s) = v.
Proof.
move=> s Hs; have [Hc Hb _] := loop_count Hs; rewrite -/s in Hc Hb; have Ha := argmin_lt Hs.
exists (nth 0 (f_out s) (argmin (f_out s))); split=> //; split=> [k Hk|].
  apply: argmin_le; apply: mem_nth; apply: leq_ltn_trans (leq_subr _ _) _.
  by rewrite prednK // (leq_ltn_trans _ Ha).
rewrite Hc subKn // -ltnS prednK //; exact: leq_ltn_trans Ha.
Qed.
(* a single line in out.txt *)
Theorem C104_single_line_refuted mx (o : oracle) p0 : (0 < mx)%N -> let s := loop 0 mx [:: o] (start R p0) in
  f_par s = Some p0 /\ size (f_out s) = 1%N /\ restart s = None.
Proof. by case: mx => // mx _ /=; rewrite /iteration /=; case: (o p0) => v p' /=. Qed.

(* H4x4x4.py without interruption *)
Inductive run (mg mx : nat) (p0 : P) : st -> seq (P * R) -> Prop :=
| u_start : run mg mx p0 (start R p0) [::]
| u_iteration s tr (o : oracle) : run mg mx p0 s tr -> (cnt s < mx)%N ->
    run mg mx p0 (iteration mg mx o s) (rcons tr (par s, (o (par s)).1)).

Lemma run_inv mg mx p0 s tr : run mg mx p0 s tr ->
  [/\ f_out s = [seq x.2 | x <- tr], gcnt s = size tr, tr <> [::] -> f_par s <> None &
  let l := drop mg (f_out s) in if (size tr <= mg)%N then [/\ best s = None, f_best s = p0 & cnt s = 0%N] else
  [/\ best s = Some (nth 0 l (argmin l)), cnt s = ((size l).-1 - argmin l)%N &
      forall x0, f_best s = if argmin l == 0%N then p0 else (nth x0 tr (mg + argmin l)).1]].
Proof.
elim=> {s tr} [|s tr o _ [Eo Eg Ep Hi] Hc] //.
have Esz : size (f_out s) = size tr by rewrite Eo size_map.
rewrite /iteration; case Eov: (o (par s)) => [v p'].
case: (leqP (size tr) mg) Hi => [Hle [-> Hf Hn]|Hlt [-> Hn Hf]] /=.
  rewrite size_rcons Eg map_rcons Eo; split=> //.
  case: (ltngtP (size tr) mg) Hle => // Hm _.
  by rewrite -cats1 drop_cat size_map -Hm ltnn subnn drop0 /argmin /= lexx.
have Hg : (gcnt s < mg)%N = false by rewrite Eg ltnNge (ltnW Hlt).
rewrite Hg.
have Hne : drop mg (f_out s) != [::] by rewrite -size_eq0 size_drop Esz -lt0n subn_gt0.
have Edr : drop mg (rcons (f_out s) v) = rcons (drop mg (f_out s)) v by rewrite drop_rcons // Esz ltnW.
have Esd : size (drop mg (f_out s)) = (size tr - mg)%N by rewrite size_drop Esz.
have Ha := argmin_lt Hne.
case Hv: (v < _) => /=; split=> //; rewrite ?Eo ?map_rcons // ?Eg ?size_rcons //; rewrite -?Eo ?(leqNgt _ mg) ?ltnS ?(ltnW Hlt) /=.
all: rewrite Edr argmin_rcons // Hv size_rcons nth_rcons ?ltnn ?eqxx ?Ha ?subnn; split=> //.
- move=> x0; rewrite size_eq0 (negbTE Hne) Esd subnKC ?(ltnW Hlt) //.
  by rewrite nth_rcons ltnn eqxx.
- by rewrite Hn; move: Ha; case: (size (drop _ _)) => // n; rewrite ltnS => Hn'; rewrite subSn.
- move=> x0; rewrite (Hf x0); case: ifP => // _.
  by rewrite nth_rcons ifT // -ltn_subRL -Esd.
Qed.

(* best_pars.pickle of H4x4x4.py: the initial parameters until an iteration after the first min_global_count + 1 ones has
   a smaller variance than all those from number min_global_count on *)
Theorem C104_cubic_partial mg mx p0 s tr : run mg mx p0 s tr ->
  f_out s = [seq x.2 | x <- tr] /\
  (forall k x0, (mg < k < size tr)%N -> (forall j, (mg <= j < k)%N -> nth 0 (f_out s) k < nth 0 (f_out s) j) ->
     (forall j, (k <= j < size tr)%N -> nth 0 (f_out s) k <= nth 0 (f_out s) j) -> f_best s = (nth x0 tr k).1) /\
  ((forall j, (mg < j < size tr)%N -> nth 0 (f_out s) mg <= nth 0 (f_out s) j) -> f_best s = p0).
Proof.
move=> /run_inv[Eo Eg Ep Hi]; split=> //; have Esz : size (f_out s) = size tr by rewrite Eo size_map.
have Ed j : nth 0 (drop mg (f_out s)) j = nth 0 (f_out s) (mg + j) by rewrite nth_drop.
have Esd : size (drop mg (f_out s)) = (size tr - mg)%N by rewrite size_drop Esz.
split=> [k x0 /andP[Hk1 Hk2] H1 H2|H].
  move: Hi; rewrite leqNgt (ltn_trans Hk1 Hk2) => -[_ _ /(_ x0) ->].
  have -> : argmin (drop mg (f_out s)) = (k - mg)%N.
    apply: argmin_unique.
    - by rewrite Esd ltn_sub2r // (ltn_trans Hk1).
    - move=> w /(nthP 0)[j]; rewrite Esd => Hj <-; rewrite !Ed subnKC 1?ltnW //.
      have Hj' : (mg + j < size tr)%N by rewrite -ltn_subRL.
      case: (leqP k (mg + j)) => Hkj; first by apply: H2; rewrite Hkj.
      by apply: ltW; apply: H1; rewrite leq_addr.
    - by move=> j Hj; rewrite !Ed subnKC 1?ltnW //; apply: H1; rewrite leq_addr -ltn_subRL.
  by rewrite subn_eq0 leqNgt Hk1 /= subnKC // ltnW.
move: Hi; case: leqP => [_ []//|Hlt [_ _ Hf]].
pose x0 : P * R := (p0, 0).
rewrite (Hf x0) (@argmin_unique _ _ 0) //; first by rewrite Esd subn_gt0.
move=> w /(nthP 0)[j]; rewrite Esd => Hj <-; rewrite !Ed addn0.
case: j Hj => [|j] Hj; first by rewrite addn0.
by apply: H; rewrite -addSnnS leq_addr addSnnS -ltn_subRL.
Qed.
(* the best variance of a running calculation *)
Lemma cubic_best mg mx p0 s tr : run mg mx p0 s tr -> (mg < size tr)%N ->
  best s = Some (nth 0 (drop mg (f_out s)) (argmin (drop mg (f_out s)))).
Proof. by move=> /run_inv[_ _ _]; rewrite leqNgt => Hi Hlt; move: Hi; rewrite Hlt => -[]. Qed.

(* a restart of H4x4x4.py keeps the best variance only if the first min_global_count iterations, which a running
   calculation ignores, reach the same variance *)
Theorem C104_cubic_restart mg mx p0 s tr s' : run mg mx p0 s tr -> (0 < mg < size tr)%N -> restart_cubic mg s = Some s' ->
  best s' = best s <-> exists k j, [/\ (k < mg)%N, (mg <= j < size tr)%N, nth 0 (f_out s) k = nth 0 (f_out s) j &
    forall i, (i < size tr)%N -> nth 0 (f_out s) j <= nth 0 (f_out s) i].
Proof.
move=> Hr /andP[Hm Hlt]; rewrite (cubic_best Hr Hlt); have [Eo _ _ _] := run_inv Hr.
have Esz : size (f_out s) = size tr by rewrite Eo size_map.
rewrite /restart_cubic; case: (f_par s) => // p.
set l := f_out s in Esz *; set d := drop mg l.
have Hln : l != [::] by rewrite -size_eq0 Esz -lt0n (ltn_trans Hm).
have Esd : size d = (size tr - mg)%N by rewrite size_drop Esz.
have Hdn : d != [::] by rewrite -size_eq0 Esd -lt0n subn_gt0.
have Hal := argmin_lt Hln; have Had := argmin_lt Hdn.
have Ed j : nth 0 d j = nth 0 l (mg + j) by rewrite nth_drop.
have Hd : (mg + argmin d < size tr)%N by rewrite -ltn_subRL -Esd.
have Hs : (if (argmin l < mg)%N then Some (St p (Some (nth 0 l (argmin l))) (size l - argmin l) (size l) (Some p) (f_best s) l)
    else Some (St p None 0 (size l) (Some p) (f_best s) l)) = Some s' ->
  best s' = Some (nth 0 d (argmin d)) <-> exists k j, [/\ (k < mg)%N, (mg <= j < size tr)%N, nth 0 l k = nth 0 l j &
    forall i, (i < size tr)%N -> nth 0 l j <= nth 0 l i].
  case: ltnP => Ha [<-] /=; split=> //.
  - move=> [E]; exists (argmin l), (mg + argmin d)%N; rewrite -Ed -E leq_addr; split=> // i Hi.
    by apply: argmin_le; apply: mem_nth; rewrite Esz.
  - move=> [k [j [Hk /andP[Hj1 Hj2] E Hmin]]]; congr Some; apply: le_anti; apply/andP; split.
      by rewrite Ed; apply: argmin_le; apply: mem_nth; rewrite Esz.
    apply: (@le_trans _ _ (nth 0 l j)); last by apply: Hmin; rewrite -Esz.
    have -> : nth 0 l j = nth 0 d (j - mg) by rewrite Ed subnKC.
    by apply: argmin_le; apply: mem_nth; rewrite Esd ltn_sub2r.
  - move=> [k [j [Hk /andP[Hj1 Hj2] E Hmin]]]; exfalso.
    have := argmin_first (leq_trans Hk Ha); rewrite E ltNge Hmin //.
    by rewrite -Esz.
by move: Hs; case: (l) Hln Esz => [|v1 [|v2 l']].
Qed.
End Claim.

(* parameters counting the iterations, the variance of an iteration given by its number *)
Section Script.
Variable v : nat -> int.
Definition numbered : oracle nat [realDomainType of int] := fun p => (v p, p.+1).
Lemma run_numbered mg mx n : (0 < mx)%N ->
  (forall s tr, @run nat [realDomainType of int] mg mx 0%N s tr -> (size tr < n)%N -> (cnt s).+1 < mx)%N ->
  exists s, [/\ @run nat [realDomainType of int] mg mx 0%N s [seq (i, v i) | i <- iota 0 n], par s = n &
    f_out s = [seq v i | i <- iota 0 n]].
Proof.
move=> Hmx; elim: n => [|n IH] Hc; first by exists (start [realDomainType of int] 0%N); split=> //; constructor.
have [|s [Hr Ep Eo]] := IH _; first by move=> s tr Hr Hn; apply: (Hc s tr Hr); apply: ltnW.
have Hcs : ((cnt s).+1 < mx)%N by apply: (Hc _ _ Hr); rewrite size_map size_iota.
exists (iteration mg mx numbered s); split.
- rewrite -[X in iota 0 X]addn1 iotaD map_cat.
  by have := u_iteration numbered Hr (ltnW Hcs); rewrite Ep /= -cats1.
- rewrite /iteration /numbered Ep /=; case: (best s) => [b|] /=; last by rewrite Hmx.
  by case: ifP => _ /=; rewrite ?Hmx ?Hcs.
- rewrite -[X in iota 0 X]addn1 iotaD map_cat -Eo cats1.
  by rewrite /iteration /numbered Ep /=; case: (best s) => [b|] //=; case: ifP.
Qed.
End Script.

Lemma run_early v mg mx : (1 < mx)%N -> exists s, [/\ @run nat [realDomainType of int] mg mx 0%N s [seq (i, v i) | i <- iota 0 mg.+1],
  f_out s = [seq v i | i <- iota 0 mg.+1], cnt s = 0%N & f_best s = 0%N].
Proof.
move=> Hmx; have [//||s [Hr _ Eo]] := @run_numbered v mg mx mg.+1; first exact: ltnW.
  move=> s tr Hr; have [_ _ _ Hi] := run_inv Hr => Hs.
  by move: Hi; rewrite -ltnS Hs => -[_ _ ->].
exists s; split=> //.
  have [_ _ _] := run_inv Hr; rewrite size_map size_iota ltnn => -[_ -> _].
  by rewrite size_drop Eo size_map size_iota subSnn sub0n.
have [_ [_ ->]] // := C104_cubic_partial Hr.
by move=> j; rewrite size_map size_iota ltnS => /andP[H1 H2]; have := leq_trans H1 H2; rewrite ltnn.
Qed.

(* H4x4x4.py: an iteration of smallest variance of all is not the one in best_pars.pickle *)
Theorem C104_cubic_refuted mg mx : (0 < mg)%N -> (1 < mx)%N ->
  exists (s : st nat [realDomainType of int]) (tr : seq (nat * int)) (p : nat) (w : int), run mg mx 0%N s tr /\ (p, w) \in tr /\
  f_best s <> p /\ (forall q u, (q, u) \in tr -> q != p -> w < u).
Proof.
move=> Hmg Hmx; have [s [Hr _ _ Hb]] := run_early (fun i => if i == mg then 0 else 1) mg Hmx.
exists s, [seq (i, if i == mg then 0 else 1) | i <- iota 0 mg.+1], mg, 0; split=> //; split.
  by apply/mapP; exists mg; rewrite ?eqxx // mem_iota /= ltnSn.
split; first by rewrite Hb => E; rewrite -E in Hmg.
by move=> q u /mapP[i _ [-> ->]] /negbTE ->.
Qed.
(* a restart of H4x4x4.py ends a calculation that has just improved, because of a variance of the first iterations *)
Theorem C104_cubic_stop_refuted mg mx : (0 < mg)%N -> (1 < mx <= mg.+1)%N ->
  exists (s s' : st nat [realDomainType of int]) (tr : seq (nat * int)), run mg mx 0%N s tr /\ cnt s = 0%N /\
  restart_cubic mg s = Some s' /\ forall os, loop mg mx os s' = s'.
Proof.
move=> Hmg /andP[Hmx Hle]; have [s [Hr Eo Hc _]] := run_early (fun i => i%:Z) mg Hmx.
have [_ _ Hp _] := run_inv Hr; have Ha : argmin (f_out s) = 0%N.
  apply: argmin_unique; rewrite Eo ?size_map //.
  by move=> w /mapP[i _ ->].
case Ep: (f_par s) Hp => [p|]; last by case.
move=> _; have [s' Es] : exists s', restart_cubic mg s = Some s' /\ cnt s' = mg.+1.
  rewrite /restart_cubic Ep; move: Eo Ha; case: (mg) Hmg => // m _; case: (f_out s) => [|x [|y l]] //.
  move=> E Ha; rewrite Ha /=; eexists; split; first reflexivity.
  by have /(congr1 size) := E; rewrite size_map size_iota /= subn0.
exists s, s', [seq (i, i%:Z) | i <- iota 0 mg.+1]; split=> //; split=> //; case: Es => Es Ec; split=> //.
by case=> //= o os; rewrite Ec ltnNge Hle.
Qed.
(* and forgets a later one *)
Theorem C104_cubic_forget_refuted mg mx : (0 < mg)%N -> (1 < mx)%N ->
  exists (s s' : st nat [realDomainType of int]) (tr : seq (nat * int)), run mg mx 0%N s tr /\ best s = Some 0 /\
  restart_cubic mg s = Some s' /\ best s' = None.
Proof.
move=> Hmg Hmx; have [s [Hr Eo _ _]] := run_early (fun i => if i == mg then 0 else 1) mg Hmx.
have Hs : size (f_out s) = mg.+1 by rewrite Eo size_map size_iota.
have Hlast : nth 0 (f_out s) mg = 0 by rewrite Eo (nth_map 0%N) ?size_iota // nth_iota // eqxx.
have Hother j : (j < mg)%N -> nth 0 (f_out s) j = 1.
  by move=> Hj; rewrite Eo (nth_map 0%N) ?size_iota ?ltnS 1?ltnW // nth_iota ?ltnS 1?ltnW // ltn_eqF.
have Ha : argmin (f_out s) = mg.
  apply: argmin_unique; rewrite ?Hs // ?Hlast.
    by move=> w /(nthP 0)[j]; rewrite Hs ltnS leq_eqVlt => /predU1P[-> <-|/Hother -> <-]; rewrite ?Hlast.
  by move=> j Hj; rewrite Hother.
have [_ _ Hp _] := run_inv Hr.
have [s' [E1 E2]] : exists s', restart_cubic mg s = Some s' /\ best s' = None.
  rewrite /restart_cubic; case: (f_par s) Hp => [p|]; last by case.
  move: Ha Hs Hmg; case: (f_out s) => [|x [|y l]] // Ha Hs Hmg _; first by move: Hs Hmg => /= [<-].
  by rewrite Ha ltnn; eexists; split; first reflexivity.
exists s, s', [seq (i, if i == mg then 0 else 1) | i <- iota 0 mg.+1]; split=> //; split=> //.
rewrite (cubic_best Hr) ?size_map ?size_iota //; congr Some; rewrite nth_drop.
suff -> : argmin (drop mg (f_out s)) = 0%N by rewrite addn0.
apply: argmin_unique; rewrite ?size_drop ?Hs ?subSnn // nth_drop addn0 Hlast.
by move=> w /(nthP 0)[[|j]]; rewrite size_drop Hs subSnn // => _ <-; rewrite nth_drop addn0 Hlast.
Qed.
(* H2O.py: the restarted calculation is over although the running one is not *)
Theorem C104_count_refuted mx : (1 < mx)%N ->
  exists (s s' : st nat [realDomainType of int]) (tr : seq (nat * int)), run 0 mx 0%N s tr /\ (cnt s < mx)%N /\
  restart s = Some s' /\ forall os, loop 0 mx os s' = s'.
Proof.
move=> Hmx; have [//||s [Hr _ Eo]] := @run_numbered (fun=> 0) 0 mx mx; first exact: ltnW.
  move=> s tr Hr Hs; have [Eo _ _ Hi] := run_inv Hr; move: Hi; rewrite drop0.
  case: (leqP (size tr) 0) => [Hle [_ _ ->]//|Hlt [_ -> _]]; rewrite Eo size_map; move: Hlt Hs; case: (size tr) => // n _ Hs.
  by apply: leq_ltn_trans Hs; rewrite ltnS leq_subr.
have Hsz : size (f_out s) = mx by rewrite Eo size_map size_iota.
have Ha : argmin (f_out s) = 0%N.
  by apply: argmin_unique; rewrite ?Hsz ?(ltnW Hmx) // Eo => w /mapP[i _ ->]; case: (mx).
have [_ _ Hp Hi] := run_inv Hr.
have Hn : [seq (i, 0 : int) | i <- iota 0 mx] <> [::] by case: (mx) Hmx.
case Ep: (f_par s) (Hp Hn) => [p|//] _.
have [s' [E1 E2]] : exists s', restart s = Some s' /\ cnt s' = mx.
  rewrite /restart Ep; move: Hsz Ha; case: (f_out s) => [|x [|y l]] Hsz Ha; try by rewrite -Hsz in Hmx.
  by eexists; split; first reflexivity; rewrite /= Ha subn0.
exists s, s', [seq (i, 0) | i <- iota 0 mx]; split=> //; split.
  move: Hi; rewrite size_map size_iota leqNgt (ltnW Hmx) /= drop0 => -[_ -> _].
  by rewrite Hsz Ha subn0 prednK // ltnW.
by split=> // -[|o os] //=; rewrite E2 ltnn.
Qed.

(* killed between writing best_pars.pickle and the line of out.txt: the files afterwards *)
Definition killed_late (P : Type) (R : realDomainType) (mx : nat) (o : oracle P R) (s : st P R) : st P R :=
  let s' := iteration 0 mx o s in St (par s) (best s) (cnt s) (gcnt s) (f_par s') (f_best s') (f_out s).
(* best_pars.pickle then need not belong to a smallest line *)
Theorem C104_killed_late_refuted : exists (os : seq (oracle nat [realDomainType of int])) (o o' : oracle nat [realDomainType of int])
  (s' : st nat [realDomainType of int]), let s := loop 0 100 os (start _ 0%N) in
  restart (killed_late 100 o s) = Some s' /\
  let t := iteration 0 100 o' s' in
  f_best t = 2%N /\ [/\ f_out t = [:: 3; 2; 5], par s' = 2%N & best t = Some 2].
Proof.
exists [:: (fun p => (3, p.+1)); (fun p => (2, p.+1))], (fun p => (1, p.+1)), (fun p => (5, p.+1)).
by eexists; split; [reflexivity|split].
Qed.

(* five iterations, an interruption during the evaluation of the fourth *)
Example C104_example :
  let o (v : int) : oracle nat [realDomainType of int] := fun p => (v, p.+1) in
  let s := loop 0 200 [:: o 5; o 3; o 4] (start _ 0%N) in
  exists s', restart (killed s) = Some s' /\
  let t := loop 0 200 [:: o 2; o 6] s' in
  [/\ f_out t = [:: 5; 3; 4; 2; 6], f_best t = 3%N, best t = Some 2, cnt s = 1%N & cnt s' = 2%N].
Proof. by eexists; split; [reflexivity|split]. Qed.
