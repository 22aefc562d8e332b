(* The proposal rules of the code meet the contract of C24, and detailed balance (C60). *)
From Verif Require Import Base Fock_Spec Occ_Model Occ_Spec Choice_Model Rule_Model Rule_Proofs Rule_Lemmas Rule_Sym Rule_Props Metropolis_Model Metropolis_Spec Metropolis_Props.
Import Num.Theory Order.TTheory.
Local Open Scope ring_scope.

Section Rules.
Variable F : realFieldType.

(* update_sites of a pair as the list over which jnp.take runs *)
Definition site_list (p : nat * nat) : seq nat := [:: p.1; p.2].
Definition with_site_lists (T : Type) (r : seq (seq T) * option (seq F) * seq (nat * nat)) :=
  (r.1.1, r.1.2, map site_list r.2).

(* configurations of the sector with nu up and nd down electrons on L sites *)
Definition in_sector (L nu nd : nat) (x : cfg) : bool :=
  [&& valid x, size x == L, n_spin Up x == nu & n_spin Dn x == nd].

(* C24, contract of the hopping rule: for every function supplying one tuple of draws of
   non-zero probability per chain *)
Theorem C24_hopping_rule_contract (Key : Type) (draw : Key -> seq cfg -> seq draws) (hp : F) tp L nu nd n :
  (0 < nu + nd)%N ->
  (forall k xs, size xs = n -> size (draw k xs) = n) ->
  (forall k xs b, size xs = n -> (b < n)%N ->
     let: (e, a, s, t) := nth (false, 0, 0, 0)%N (draw k xs) b in
     [/\ (a < L)%N, (t < L)%N & move_prob hp tp (nth [::] xs b) (e, a, s, t) != 0]) ->
  forall k (xs : seq cfg), size xs = n -> all (in_sector L nu nd) xs ->
  let: (ys, corr, sites) := with_site_lists (transition_function F xs (draw k xs)) in
  [/\ size ys = n, all (in_sector L nu nd) ys, size sites = n, (forall cs, corr = Some cs -> size cs = n) &
   forall b, (b < n)%N ->
     let: (x, y, ss) := (nth [::] xs b, nth [::] ys b, nth [::] sites b) in
     [/\ size y = size x, (forall i, i \notin ss -> nth 0%N y i = nth 0%N x i),
         all (fun i => (i < size x)%N) ss & uniq ss \/ y = x]].
Proof.
move=> Hpos Hsz Hdr k xs Hn Hsec.
have Hb b (Hb : (b < n)%N) := @C22_hopping_batch F xs (draw k xs) b.
move: (Hb); rewrite /with_site_lists; case E : (transition_function F xs (draw k xs)) => [[ys corr] sites] H /=.
have Hys : size ys = n.
  by move: E => [<- _ _]; rewrite !size_map size_zip Hsz // Hn minnn.
have Hst : size sites = n.
  by move: E => [_ _ <-]; rewrite !size_map size_zip Hsz // Hn minnn.
have Hc : corr = None by move: E => [].
have Hone b : (b < n)%N -> in_sector L nu nd (nth [::] ys b) /\
     let: (x, y, ss) := (nth [::] xs b, nth [::] ys b, nth [::] (map site_list sites) b) in
     [/\ size y = size x, (forall i, i \notin ss -> nth 0%N y i = nth 0%N x i),
         all (fun i => (i < size x)%N) ss & uniq ss \/ y = x].
  move=> Hbn; have [] := H b Hbn; rewrite ?Hsz ?Hn // => _ _ _.
  have Hx : in_sector L nu nd (nth [::] xs b) by move/all_nthP: Hsec; apply; rewrite Hn.
  case/and4P: (Hx) => Hv /eqP HL /eqP Hu /eqP Hd.
  have := Hdr k xs b Hn Hbn.
  have := C22_hopping_update_sites (nth [::] xs b) (nth (false, 0%N, 0%N, 0%N) (draw k xs) b).
  rewrite (nth_map (0, 0)%N) ?Hst //.
  case: (nth _ (draw k xs) b) => [[[e a] s] t] H22 [Ha Ht Hm] [E1 E2 E3].
  have [] := @C19_hopping_sector_partial F hp tp _ e a s t Hv _ _ _ Hm; rewrite ?HL // ?Hu ?Hd ?Hpos //.
  move: H22 => /= [H22 _]; rewrite -E1 => V1 V2 V3 V4; split; last split.
  - by rewrite /in_sector V1 V2 V3 V4 !eqxx.
  - by rewrite V2.
  - by move=> i; rewrite /site_list E2 E3 !inE negb_or => /andP[H1 H2]; rewrite E1; exact: H22.
  - rewrite /site_list E2 E3 /= ?HL Ha andbT /=.
    by rewrite /real_target; case: ifP.
  - rewrite ?/site_list E2 E3 E1 /= inE andbT; apply: (move_distinct (hp := hp) (tp := tp)) => //; rewrite ?HL //.
    by rewrite Hu Hd Hpos.
split=> //; rewrite ?size_map //; last by move=> b /Hone[].
- by apply/(all_nthP [::]) => b; rewrite Hys => /Hone[].
- by rewrite Hc.
Qed.

(* C24, contract of the exchange rule on configurations over any alphabet *)
Theorem C24_exchange_rule_contract (Key : Type) (T : eqType) (d : T) (draw : Key -> seq nat)
  (clusters : seq (nat * nat)) L (w : seq T) n :
  size w = L -> all (fun c => (c.1 < L)%N && (c.2 < L)%N) clusters ->
  (forall k, size (draw k) = n) -> (forall k, all (fun c => (c < size clusters)%N) (draw k)) ->
  forall k (xs : seq (seq T)), size xs = n -> all (fun x => perm_eq x w) xs ->
  let: (ys, corr, sites) := with_site_lists (exchange_transition F d clusters xs (draw k)) in
  [/\ size ys = n, all (fun x => perm_eq x w) ys, size sites = n, (forall cs, corr = Some cs -> size cs = n) &
   forall b, (b < n)%N ->
     let: (x, y, ss) := (nth [::] xs b, nth [::] ys b, nth [::] sites b) in
     [/\ size y = size x, (forall i, i \notin ss -> nth d y i = nth d x i),
         all (fun i => (i < size x)%N) ss & uniq ss \/ y = x]].
Proof.
move=> HL Hcl Hdr Hrng k xs Hn Hw; rewrite /with_site_lists /exchange_transition; cbv zeta; cbn [fst snd].
set rs := [seq _ | _ <- zip _ _].
have Hrs : size rs = n by rewrite size_map size_zip Hdr Hn minnn.
have Hr b : (b < n)%N -> nth ([::], 0, 0)%N rs b = exchange_update d clusters (nth [::] xs b) (nth 0%N (draw k) b).
  by move=> Hb; rewrite (nth_map ([::], 0%N)) ?size_zip ?Hdr ?Hn ?minnn // nth_zip // Hdr.
have Hone b : (b < n)%N -> let y := nth [::] (map (fun r => r.1.1) rs) b in
   let ss := nth [::] (map site_list (map (fun r => (r.1.2, r.2)) rs)) b in
   let x := nth [::] xs b in
   perm_eq y x /\ [/\ size y = size x, (forall i, i \notin ss -> nth d y i = nth d x i),
         all (fun i => (i < size x)%N) ss & uniq ss \/ y = x].
  move=> Hb; cbv zeta; pose r0 : seq T * nat * nat := ([::], 0%N, 0%N).
  rewrite -map_comp (nth_map r0 [::] (fun r => r.1.1)) ?Hrs //.
  rewrite (nth_map r0) ?Hrs // Hr // /comp.
  have Hperm := perm_size (_ : perm_eq (nth [::] xs b) w).
  have HxL : size (nth [::] xs b) = L by rewrite Hperm ?HL //; move/all_nthP: Hw; apply; rewrite Hn.
  have Hc : (nth 0%N (draw k) b < size clusters)%N by move/all_nthP: (Hrng k); apply; rewrite Hdr.
  have /andP[H1 H2] : _ := allP Hcl _ (mem_nth (0, 0)%N Hc).
  rewrite -HxL in H1 H2.
  have [Hp _ _ _] := @C23_exchange_permutation T d clusters (nth [::] xs b) (nth 0%N (draw k) b) H1 H2.
  have [H22 _] := @C22_exchange_update_sites T d clusters (nth [::] xs b) (nth 0%N (draw k) b).
  split; first exact: Hp.
  have Hpsz := perm_size Hp; split; first exact: Hpsz.
  - by move=> i; rewrite /site_list !inE negb_or => /andP[]; exact: H22.
  - by rewrite /site_list /= H1 H2.
  - rewrite /site_list /= inE andbT; set c := nth _ clusters _.
    case: (altP (c.1 =P c.2)) => [E|_]; [right|by left].
    apply: (@eq_from_nth _ d); first exact: Hpsz.
    move=> i _; have := @nth_exchange T d clusters (nth [::] xs b) (nth 0%N (draw k) b) i => /= ->.
    by rewrite -/c E; case: (altP (i =P c.2)) => [->|].
have Hms (B : Type) (g : _ -> B) : size (map g rs) = n by rewrite size_map.
split; [exact: Hms| |by rewrite -map_comp; apply: Hms|by []|]; last first.
  by move=> b Hb; have [Hp Hoff] := Hone b Hb; exact: Hoff.
  apply/(all_nthP [::]) => b; rewrite Hms => Hb; have [Hp _] := Hone b Hb.
  by apply: perm_trans Hp _; move/all_nthP: Hw; apply; rewrite Hn.
Qed.

(* C60: detailed balance.  For positive weights w (|psi|^machine_pow) and a uniform draw
   u in [0,1), a proposal x -> y is accepted with probability min(1, w y / w x) (the length of
   { u in [0,1) | u < w y / w x }); the resulting transition probability of one step of the
   sampler with the hopping rule satisfies detailed balance with respect to w. *)
Definition accept_prob (r : F) : F := Num.min 1 r.
Definition metropolis_prob (hp : F) tp (w : cfg -> F) (x y : cfg) : F :=
  propose_prob hp tp x y * accept_prob (w y / w x).

Theorem C60_hopping_detailed_balance (hp : F) (w : cfg -> F) x y :
  (forall z, 0 < w z) -> valid x -> valid y -> size y = size x ->
  n_spin Up y = n_spin Up x -> n_spin Dn y = n_spin Dn x ->
  w x * metropolis_prob hp None w x y = w y * metropolis_prob hp None w y x.
Proof.
move=> Hw Hv Hvy Hs Hu Hd; rewrite /metropolis_prob (C20_hopping_symmetric hp Hv Hvy Hs Hu Hd).
rewrite mulrCA [RHS]mulrCA; congr (_ * _); rewrite /accept_prob.
have H (a b : F) : 0 < a -> a * Num.min 1 (b / a) = Num.min a b.
  move=> Ha; rewrite minEle [RHS]minEle ler_pdivl_mulr // mul1r; case: ifP => _; first by rewrite mulr1.
  by rewrite mulrC divfK // gt_eqF.
by rewrite !H // minC.
Qed.
End Rules.

Print Assumptions C24_hopping_rule_contract.
Print Assumptions C24_exchange_rule_contract.
Print Assumptions C60_hopping_detailed_balance.

(* a chain of two sites: log-amplitude = value at site 0, cache = the configuration, draws
   alternate between 1/2 and 3/2 (never accepted unless exp(..) > 3/2), expf z = 1 + z *)
Example C24_example :
  let full := fun x : seq nat => ((nth 0%N x 0)%:R : rat, x) in
  let fast := fun (c : seq nat) (vals : seq nat) (sites : seq nat) =>
    full (foldl (fun x iv => set_nth 0%N x iv.1 iv.2) c (zip sites vals)) in
  let st := SState 0%N [:: [:: 1; 3]%N] 0 0 in
  let st' := sample_next 0%N (fun z : rat => 1 + z) (fun k => (k.+1, k, k)) (fun k => (k.+1, k))
    (fun k => [:: if odd k then 3%:Q / 2%:Q else 1 / 2%:Q])
    (fun k xs => with_site_lists (exchange_transition [realFieldType of rat] 0%N [:: (0, 1)%N] xs [:: 0%N]))
    full fast 1 2 1 st in
  (st_rng st', st_conf st', st_acc st', st_steps st') = (1%N, [:: [:: 3; 1]%N], 1%N, 2%N).
Proof. by vm_compute. Qed.
