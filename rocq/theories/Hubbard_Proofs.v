From Verif Require Import Base Fock_Spec Fock_Proofs Occ_Model Occ_Spec Hopping_Model Hopping_Proofs.
From Verif Require Import Buffer_Proofs Hubbard_Model Update_Proto Fast_Contract.
Local Open Scope ring_scope.

Lemma cfg_ofK x : valid x -> cfg_of (fock_of x) = x.
Proof.
rewrite /cfg_of /fock_of /=; elim: x => //= o x IH /andP [Ho Hv]; rewrite IH //.
by congr cons; case: (lt4_cases Ho) => ->.
Qed.

Section Hub.
Variable R : comRingType.
Variables (U : R) (edges : seq (nat * nat)) (t : seq R).
Implicit Types (x : cfg).

Definition hub_edge_list x k : seq (cfg * R) :=
  let e := nth (0, 0)%N edges k in
  let en a c s := let r := apply_hopping a c x (spin_int s) (Some (cumcount (spin_int s) x)) in
                  (r.2, - nth 0 t k * (r.1)%:~R) in
  [:: en e.1 e.2 Up; en e.2 e.1 Up; en e.1 e.2 Dn; en e.2 e.1 Dn].

Definition hub_list x : seq (cfg * R) :=
  (x, U * (count (fun o => o == 3%N) x)%:R) :: flatten [seq hub_edge_list x k | k <- iota 0 (size edges)].

Lemma hub_edge_written x w k m :
  hub_edge U x edges t (cumcount 1 x) (cumcount 2 x) (written w (4 + m)) k
  = written (w ++ hub_edge_list x k) m.
Proof. by rewrite /hub_edge !ob_push_written /= -!cats1 -!catA. Qed.

Lemma size_hub_edges x l : size (flatten [seq hub_edge_list x k | k <- l]) = (size l * 4)%N.
Proof. by elim: l => //= a l ->; rewrite mulSn. Qed.

Lemma hub_sample_written x b w m secs : (b < size secs)%N ->
  hub_sample U edges t (written w ((1 + size edges * 4) + m), secs) (b, x)
  = (written (w ++ hub_list x) m,
     if edges is [::] then secs else set_nth 0%N secs b (size (w ++ hub_list x))).
Proof.
move=> Hb; rewrite /hub_sample /= add1n addSn ob_push_written.
rewrite /hub_list -cat_rcons.
set w0 := rcons _ _.
set f := (F in foldl F _ _).
have key l sc w1 : (b < size sc)%N ->
   foldl f (written w1 (size l * 4 + m), sc) l =
   let w2 := w1 ++ flatten [seq hub_edge_list x k | k <- l] in
   (written w2 m, if l is [::] then sc else set_nth 0%N sc b (size w2)).
  elim: l sc w1 => [|k l IH] sc w1 Hsc /=; first by rewrite cats0.
  rewrite {2}/f /= mulSn -addnA hub_edge_written IH ?size_set_nth; last by lia.
  rewrite /= -catA; congr pair; case: l {IH} => [|k' l] //=; last by rewrite set_set_nth eqxx.
have := key (iota 0 (size edges)) secs w0 Hb; rewrite size_iota => -> /=.
by congr pair; case: (edges).
Qed.

Lemma size_hub_list x : size (hub_list x) = (1 + size edges * 4)%N.
Proof. by rewrite /= size_hub_edges size_iota. Qed.

Lemma hub_loop b xs w m secs : (b + size xs <= size secs)%N ->
  foldl (hub_sample U edges t) (written w (size xs * (1 + size edges * 4) + m), secs)
        (zip (iota b (size xs)) xs)
  = (written (w ++ flatten (map hub_list xs)) m,
     if edges is [::] then secs else
     [seq if (b <= k < b + size xs)%N then (size w + (k.+1 - b) * (1 + size edges * 4))%N
          else nth 0%N secs k | k <- iota 0 (size secs)]).
Proof.
elim: xs b w secs => [|x xs IH] b w secs Hb /=.
  rewrite cats0; congr pair; case: (edges) => //= ? ?.
  apply: (@eq_from_nth _ 0%N) => [|k Hk]; first by rewrite size_map size_iota.
  rewrite (nth_map 0%N) ?size_iota // nth_iota // add0n addn0.
  by case: (ltnP k b) => H; rewrite ?andbF //; case: leqP => //; lia.
rewrite mulSn -addnA hub_sample_written; last by move: Hb => /=; lia.
set secs' := (S in foldl _ (_, S)).
have Hsz : size secs' = size secs.
  by rewrite /secs'; case: (edges) => // ? ?; rewrite size_set_nth; move: Hb => /=; lia.
rewrite IH; last by rewrite Hsz; move: Hb => /=; lia.
rewrite -catA; congr pair; rewrite {}/secs' in Hsz *.
rewrite !size_cat !size_hub_list in Hsz *.
case: edges Hsz => [|e es] // Hsz.
rewrite Hsz; apply/eq_in_map => k; rewrite mem_iota add0n /= => Hk.
rewrite nth_set_nth /=.
case: (ltngtP k b) => H; rewrite ?andbF //=.
- move: (1 + _)%N => n; rewrite addSnnS; case: ifP => // _.
  by rewrite subSS (subSn (ltnW H)) mulSn addnA.
- rewrite H; have -> : (b < b + (size xs).+1)%N by lia.
  by move: (1 + _)%N => n; rewrite subSnn mul1n.
Qed.

Lemma hub_conn_flattenedE xs secs : size secs = size xs ->
  hub_conn_flattened U edges t xs secs
  = (written (flatten (map hub_list xs)) 0,
     if edges is [::] then secs else
     [seq (k.+1 * (1 + size edges * 4))%N | k <- iota 0 (size xs)]).
Proof.
move=> Hs; rewrite /hub_conn_flattened ob_alloc_written -[(size xs * _)%N]addn0.
rewrite hub_loop ?Hs // cat0s; congr pair; case: (edges) => // e es.
apply/eq_in_map => k; rewrite mem_iota !add0n /= => ->.
by rewrite subn0.
Qed.


Definition edges_in (L : nat) := all (fun e => (e.1 < L)%N && (e.2 < L)%N) edges.

Lemma edges_in_nth L k : edges_in L -> (k < size edges)%N ->
  ((nth (0,0)%N edges k).1 < L)%N /\ ((nth (0,0)%N edges k).2 < L)%N.
Proof. by move=> /(all_nthP (0,0)%N) H /H /andP []. Qed.

Lemma hub_diag x (psi : fock -> R) : valid x ->
  \sum_(i < size x) number Up i (number Dn i psi) (fock_of x)
  = (count (fun o => o == 3%N) x)%:R * psi (fock_of x).
Proof.
move=> Hv; have HL := on_sites_fock x.
transitivity (\sum_(i < size x) (nth 0%N x i == 3%N)%:R * psi (fock_of x)).
  apply: eq_bigr => i _; rewrite /number.
  have := hop_same Up (number Dn i psi) HL (ltn_ord i); rewrite /hop /number => ->.
  have := hop_same Dn psi HL (ltn_ord i); rewrite /hop => ->.
  rewrite !occ_fock; case: (lt4_cases (valid_nth i Hv)) => -> /=;
    by rewrite ?mul1r ?mul0r.
rewrite -mulr_suml; congr (_ * _).
rewrite -sum1_count [RHS]natr_sum (big_nth 0%N) big_mkord [RHS]big_mkcond /=.
by apply: eq_bigr => i _; case: eqP.
Qed.

Lemma hub_list_action x (psi : fock -> R) : valid x -> edges_in (size x) -> size t = size edges ->
  \sum_(e <- hub_list x) e.2 * psi (fock_of e.1)
  = hubbard (size x) (zip edges t) U psi (fock_of x).
Proof.
move=> Hv He Ht; rewrite /hubbard /hub_list big_cons /= -mulrA -hub_diag // addrC; congr (_ + _).
rewrite big_flatten big_map /=.
rewrite (big_nth ((0,0)%N, 0)) size_zip Ht minnn -(subn0 (size edges)) -/(index_iota 0 _) subn0.
apply: eq_big_nat => k /andP [_ Hk].
have [H1 H2] := edges_in_nth He Hk.
rewrite nth_zip // /hub_edge_list !big_cons !big_nil /= !addr0.
have step a c s : (a < size x)%N -> (c < size x)%N ->
   - nth 0 t k * ((apply_hopping a c x (spin_int s) (Some (cumcount (spin_int s) x))).1)%:~R *
   psi (fock_of (apply_hopping a c x (spin_int s) (Some (cumcount (spin_int s) x))).2)
   = - nth 0 t k * hop s a c psi (fock_of x).
  by move=> Ha Hc; rewrite -mulrA (apply_hopping_correct s psi Hv Ha Hc).
have SU a c := step a c Up; have SD a c := step a c Dn.
by rewrite /= in SU SD; rewrite !SU // !SD // !mulrDr -!addrA.
Qed.

Lemma hub_list_wf x e : valid x -> edges_in (size x) -> e \in [seq p.1 | p <- hub_list x] ->
  [/\ valid e, size e = size x & forall s, n_spin s e = n_spin s x].
Proof.
move=> Hv He; rewrite /hub_list /= inE => /orP [/eqP -> //|].
move=> /mapP [p /flattenP [l /mapP [k]]]; rewrite mem_iota add0n => /andP [_ Hk] -> Hp ->.
have [H1 H2] := edges_in_nth He Hk.
move: Hp; rewrite !inE => /orP [/eqP ->|/orP [/eqP ->|/orP [/eqP ->|/eqP ->]]] /=.
- by have [] := apply_hopping_wf Up Hv H1 H2.
- by have [] := apply_hopping_wf Up Hv H2 H1.
- by have [] := apply_hopping_wf Dn Hv H1 H2.
- by have [] := apply_hopping_wf Dn Hv H2 H1.
Qed.
End Hub.

(* adjointness of ladder operators and symmetry of one-body terms *)
Section Adj.
Variable R : comRingType.
Definition delta (y : fock) : fock -> R := fun z => (z == y)%:R.

Lemma eq_setocc L s i (x y : fock) b : on_sites L x -> on_sites L y -> (i < L)%N ->
  occ s i x = ~~ b -> occ s i y = b -> (setocc s i b x == y) = (x == setocc s i (~~ b) y).
Proof.
move=> Hx Hy Hi Ox Oy; apply/eqP/eqP => [<-|->].
  by rewrite setocc_set -Ox setocc_id // (on_sites_species _ Hx).
by rewrite setocc_set -Oy setocc_id // (on_sites_species _ Hy).
Qed.

Lemma annih_creat_adj L s i (x y : fock) : on_sites L x -> on_sites L y -> (i < L)%N ->
  annih s i (delta y) x = creat s i (delta x) y.
Proof.
move=> Hx Hy Hi; rewrite /annih /creat /delta.
case Ox: (occ s i x); case Oy: (occ s i y) => //.
- case: eqP => [E|_]; last by rewrite mulr0.
  by move: Ox; rewrite -E occ_setocc !eqxx.
- rewrite (eq_setocc Hx Hy Hi) ?Ox ?Oy // [_ == x]eq_sym /=.
  case: eqP => [E|_]; last by rewrite !mulr0.
  by rewrite !mulr1 E (before_self _ _ Hy Hi).
- case: eqP => [E|_]; last by rewrite mulr0.
  by move: Oy; rewrite -E occ_setocc !eqxx.
Qed.

Lemma hop_adj L s a c (x y : fock) : on_sites L x -> on_sites L y -> (a < L)%N -> (c < L)%N ->
  hop s a c (delta y) x = hop s c a (delta x) y.
Proof.
move=> Hx Hy Ha Hc; rewrite /hop /creat.
have Hx' := on_sites_setocc s false Ha Hx; have Hy' := on_sites_setocc s false Hc Hy.
case Ox: (occ s a x); case Oy: (occ s c y) => //.
- rewrite (annih_creat_adj s Hx' Hy Hc) (annih_creat_adj s Hy' Hx Ha) /creat Ox Oy /delta.
  by rewrite mulrCA eq_sym.
- by rewrite (annih_creat_adj s Hx' Hy Hc) /creat Oy mulr0.
- by rewrite (annih_creat_adj s Hy' Hx Ha) /creat Ox mulr0.
Qed.

Lemma number2_delta L i (x y : fock) : on_sites L x -> (i < L)%N ->
  number Up i (number Dn i (delta y)) x = (occ Up i x && occ Dn i x)%:R * delta y x.
Proof.
move=> Hx Hi; have := hop_same Up (number Dn i (delta y)) Hx Hi; rewrite /hop /number => ->.
have := hop_same Dn (delta y) Hx Hi; rewrite /hop => ->.
by case: (occ Up i x); case: (occ Dn i x); rewrite ?mul1r ?mul0r.
Qed.

Lemma hubbard_symm L (edges : seq ((nat * nat) * R)) U (x y : fock) :
  on_sites L x -> on_sites L y -> all (fun e => (e.1.1 < L)%N && (e.1.2 < L)%N) edges ->
  hubbard L edges U (delta y) x = hubbard L edges U (delta x) y.
Proof.
move=> Hx Hy He; rewrite /hubbard; congr (_ + U * _).
  rewrite !big_seq; apply: eq_bigr => e /(allP He) /andP [H1 H2]; congr (_ * _).
  apply: eq_bigr => s _; rewrite addrC; congr (_ + _); exact: hop_adj Hx Hy _ _.
apply: eq_bigr => i _; rewrite (number2_delta y Hx) // (number2_delta x Hy) // /delta [y == x]eq_sym.
by case: eqP => [->|]; rewrite ?mulr0.
Qed.
End Adj.

Lemma fock_of_inj x y : valid x -> valid y -> (fock_of x == fock_of y) = (x == y).
Proof. by move=> Hx Hy; apply/eqP/eqP => [H|-> //]; rewrite -(cfg_ofK Hx) -(cfg_ofK Hy) H. Qed.

Section HubBatch.
Variable R : comRingType.
Variables (U : R) (edges : seq (nat * nat)) (t : seq R).
Let conn := hub_conn_flattened U edges t.

Lemma hub_single x s0 : (ob_buf (conn [:: x] [:: s0]).1) = map Some (hub_list U edges t x).
Proof. by rewrite /conn hub_conn_flattenedE //= cats0 /= cats0. Qed.

Lemma hub_batch_slice xs secs b : size secs = size xs -> edges != [::] -> (b < size xs)%N ->
  sec_slice (ob_buf (conn xs secs).1) (conn xs secs).2 b = map Some (hub_list U edges t (nth [::] xs b)).
Proof.
move=> Hs He Hb; rewrite /conn hub_conn_flattenedE //=.
set Lm := [seq (k.+1 * _)%N | k <- _].
have -> : (match edges with [::] => secs | _ :: _ => Lm end) = Lm by case: (edges) He.
rewrite {}/Lm cats0 map_flatten -map_comp.
rewrite sec_slice_flatten ?size_map //; last first.
  move=> c Hc; rewrite (nth_map 0%N) ?size_iota // nth_iota // add0n.
  rewrite -map_take size_flatten /shape -map_comp.
  have -> : map (size \o (map some \o hub_list U edges t)) (take c.+1 xs) = nseq c.+1 (1 + size edges * 4)%N.
    have E : size (take c.+1 xs) = c.+1 by apply: size_takel.
    rewrite -[in RHS]E.
    by elim: (take c.+1 xs) => //= y l ->; rewrite size_map size_hub_edges size_iota.
  by rewrite sumn_nseq mulnC.
by rewrite (nth_map [::]).
Qed.
End HubBatch.

Section HubOtf.
Variable F : fieldType.
Add Ring RF : (r_theory (GRing.Field.comRingType F)).
Variables (U : F) (edges : seq (nat * nat)) (t : seq F) (fast : option (seq nat -> seq nat -> F)) (psi : cfg -> F).

Lemma hub_ring (t0 a b c d p q r s : F) :
  - t0 * a * p + (- t0 * b * q + (- t0 * c * r + - t0 * d * s))
  = (a * p + b * q) * - t0 + (c * r + d * s) * - t0.
Proof. by mring (GRing.Field.comRingType F). Qed.

Lemma hub_otf_hopE s a c x : fast_ok_uniq fast psi x -> valid x -> (a < size x)%N -> (c < size x)%N -> a != c ->
  let r := apply_hopping a c x (spin_int s) (Some (cumcount (spin_int s) x)) in
  hub_otf_hop fast psi x (spin_int s) (cumcount (spin_int s) x) a c = (r.1)%:~R * (psi r.2 / psi x).
Proof.
move=> Hf Hv Ha Hc Hac /=; have [] := apply_hopping_wf s Hv Ha Hc.
rewrite /hub_otf_hop /apply_hopping [c == a]eq_sym (negbTE Hac).
case: (has _ _) => /=; last by rewrite mul0r.
case: (has _ _) => /=; first by rewrite mul0r.
rewrite /parity_multiplicator_hop /add_at nth_set_nth /= [c == a]eq_sym (negbTE Hac) => Vr _ Nr _.
move: Vr Nr; case: (odd _); rewrite [_ != 0]/=; cbv [fst snd] => Vr Nr;
  rewrite (fast_ok_uniqE Hf (denotes_two _ _ Ha Hc Hac) _ Vr Nr) /= ?inE ?Hac //;
  by rewrite /= ?mulr1n ?mul1r.
Qed.

Lemma hub_otfE x : fast_ok_uniq fast psi x -> valid x -> edges_in edges (size x) ->
  all (fun e => e.1 != e.2) edges -> psi x != 0 ->
  hub_otf U edges t fast psi x = \sum_(e <- hub_list U edges t x) e.2 * (psi e.1 / psi x).
Proof.
move=> Hf Hv He Hne Hx; rewrite /hub_otf /hub_list big_cons /= divff // mulr1.
rewrite big_flatten big_map -[iota 0 _]/(iota 0 (size edges)).
have -> : \sum_(j <- iota 0 (size edges)) \sum_(e <- hub_edge_list edges t x j) e.2 * (psi e.1 / psi x)
  = \sum_(0 <= k < size edges)
      (hub_otf_hop fast psi x 1 (cumcount 1 x) (nth (0,0)%N edges k).1 (nth (0,0)%N edges k).2
       + hub_otf_hop fast psi x 1 (cumcount 1 x) (nth (0,0)%N edges k).2 (nth (0,0)%N edges k).1)
      * - nth 0 t k
  + \sum_(0 <= k < size edges)
      (hub_otf_hop fast psi x 2 (cumcount 2 x) (nth (0,0)%N edges k).1 (nth (0,0)%N edges k).2
       + hub_otf_hop fast psi x 2 (cumcount 2 x) (nth (0,0)%N edges k).2 (nth (0,0)%N edges k).1)
      * - nth 0 t k.
  rewrite -big_split /= -{1}(subn0 (size edges)); apply: eq_big_nat => k /andP [_ Hk].
  have [H1 H2] := edges_in_nth He Hk.
  have Hd : (nth (0,0)%N edges k).1 != (nth (0,0)%N edges k).2 by apply: (all_nthP (0,0)%N Hne).
  have Hd' := Hd; rewrite eq_sym in Hd'.
  have EU := @hub_otf_hopE Up _ _ x Hf Hv; have ED := @hub_otf_hopE Dn _ _ x Hf Hv; rewrite /= in EU ED.
  rewrite !EU // !ED // /hub_edge_list !big_cons big_nil /= addr0.
  exact: hub_ring.
rewrite addrA; case: ltnP => //; rewrite leqn0 size_eq0 => /eqP ->.
by rewrite !big_geq // !addr0.
Qed.
End HubOtf.
