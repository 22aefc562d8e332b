(* C97: the density matrices of rdms.py. *)
From Verif Require Import Base Fock_Spec Fock_Proofs Occ_Model Occ_Spec Hopping_Model Hopping_Proofs Hubbard_Proofs Mol_Fock Mol_Row.
From Verif Require Import AbInitio_Model AbInitio_Lemmas AbInitioOtf_Model AbInitioOtf_RDM AbInitio_Lemmas2 Update_Proto Fast_Contract AbInitio_Props.
From Verif Require Import Spin_Algebra Spin_Singlet RDM_Model.
Local Open Scope ring_scope.

Section Local.
Variables (F : fieldType) (half : F) (n_elecs : nat * nat) (t : nat -> nat -> F) (eri : nat -> nat -> nat -> nat -> F).
Variables (fast : cfg -> option (seq nat -> seq nat -> F)) (psi : cfg -> F) (L : nat).
Hypothesis half2 : half + half = 1.
Notation Psi := (fun f => psi (cfg_of f)).
Add Ring RF : (r_theory (GRing.Field.comRingType F)).

(* a sample of the declared sector on which the model does not vanish and the cached evaluation is right *)
Definition good_sample (x : cfg) : Prop :=
  [/\ valid x, size x = L, n_elecs = (n_spin Up x, n_spin Dn x), psi x != 0 & fast_ok (fast x) psi x].

Lemma triple_elim (r : F * t2 F * t4 F) (P : F -> t2 F -> t4 F -> Prop) : (let: (en, T, E) := r in P en T E) -> P r.1.1 r.1.2 r.2.
Proof. by case: r => [[]]. Qed.
Lemma local_lin h' eri' x : good_sample x -> (0 < L)%N ->
  (forall p q r s, (p < L)%N -> (q < L)%N -> (r < L)%N -> (s < L)%N -> eri' p q r s = eri' r s p q) ->
  let T := (local_rdms half n_elecs t eri fast psi x).1 in
  let E := (local_rdms half n_elecs t eri fast psi x).2 in
  (\sum_(p < L) \sum_(q < L) t_mat half L h' eri' p q * T p q
   + \sum_(p < L) \sum_(q < L) \sum_(r < L) \sum_(s < L) eri' p q r s * E p q r s) * psi x
  = molecular L half h' eri' Psi (fock_of x).
Proof.
move=> [Hv Hs Hn H0 Hf] HL Hsym T E.
rewrite -(C10_ab_initio_on_the_fly_hamiltonian h' half2 Hf Hv Hs Hn H0 Hsym).
have Hp : (0 < size x)%N by rewrite Hs.
pose P en (T' : t2 F) (E' : t4 F) := [/\ en = \sum_(p < size x) \sum_(q < size x) t_mat half L h' eri' p q * T' p q
           + \sum_(p < size x) \sum_(q < size x) \sum_(r < size x) \sum_(s < size x) eri' p q r s * E' p q r s,
      en = ab_otf half n_elecs (t_mat half L h' eri') eri' (fast x) psi x &
      forall t' eri2, let r := ab_otf_rdm half n_elecs t' eri2 (fast x) psi x in r.1.2 = T' /\ r.2 = E'].
have [Hen Hen2 Hind] := @triple_elim (ab_otf_rdm half n_elecs (t_mat half L h' eri') eri' (fast x) psi x) P
  (C11_local_rdms half n_elecs (t_mat half L h' eri') eri' (fast x) psi Hp).
have [HT HE] := Hind t eri.
rewrite -Hen2 Hen Hs -HT -HE //.
Qed.

Lemma sum_pick2' (f : nat -> nat -> F) a b : (a < L)%N -> (b < L)%N ->
  \sum_(p < L) \sum_(q < L) (if ((p : nat) == a) && ((q : nat) == b) then f p q else 0) = f a b.
Proof.
move=> Ha Hb; rewrite -(sum_pick (fun p => f p b) Ha); apply: eq_bigr => p _.
by case: (_ == _); rewrite /= ?big1_eq //; exact: (sum_pick (f p) Hb).
Qed.

(* one entry of the local one-body density matrix: (E_pq psi)(x) / psi(x) *)
Lemma rdm1_local x p q : good_sample x -> (p < L)%N -> (q < L)%N ->
  (local_rdms half n_elecs t eri fast psi x).1 p q * psi x = E1 p q Psi (fock_of x).
Proof.
move=> Hg Hp Hq; have HL : (0 < L)%N by lia.
have := @local_lin (fun a b => if (a == p) && (b == q) then 1 else 0) (fun _ _ _ _ => 0) x Hg HL (fun _ _ _ _ _ _ _ _ => erefl).
case: (local_rdms _ _ _ _ _ _ _) => T E /=.
have -> : \sum_(p0 < L) \sum_(q0 < L) \sum_(r < L) \sum_(s < L) 0 * E p0 q0 r s = 0 by do 4 (rewrite big1 // => ? _); rewrite mul0r.
rewrite addr0 (eq_bigr (fun a : 'I_L => \sum_(b < L) (if ((a : nat) == p) && ((b : nat) == q) then T a b else 0))); last first.
  by move=> a _; apply: eq_bigr => b _; rewrite /t_mat big1_eq mulr0 subr0; case: ifP => _; rewrite ?mul1r ?mul0r.
rewrite sum_pick2' // => ->; rewrite /molecular.
have -> : \sum_(s <- [:: Up; Dn]) \sum_(s' <- [:: Up; Dn]) \sum_(p0 < L) \sum_(q0 < L) \sum_(r < L) \sum_(t0 < L)
      0 * creat s p0 (creat s' r (annih s' t0 (annih s q0 Psi))) (fock_of x) = 0.
  by do 6 (rewrite big1 // => ? _); rewrite mul0r.
rewrite mulr0 addr0 /E1; apply: eq_bigr => s _.
rewrite -(sum_pick2' (fun a b => exc s a s b Psi (fock_of x)) Hp Hq); apply: eq_bigr => a _; apply: eq_bigr => b _.
by case: ifP => _; rewrite ?mul1r ?mul0r.
Qed.

Lemma sum_pick4 (f : nat -> nat -> nat -> nat -> F) a b c d : (a < L)%N -> (b < L)%N -> (c < L)%N -> (d < L)%N ->
  \sum_(p < L) \sum_(q < L) \sum_(r < L) \sum_(s < L)
     (if (((p : nat) == a) && ((q : nat) == b)) && (((r : nat) == c) && ((s : nat) == d)) then f p q r s else 0) = f a b c d.
Proof.
move=> Ha Hb Hc Hd; rewrite -(sum_pick2' (fun p q => f p q c d) Ha Hb); apply: eq_bigr => p _; apply: eq_bigr => q _.
case: (_ && _); rewrite /=; last by rewrite big1 // => ? _; rewrite big1.
exact: (sum_pick2' (fun r s => f p q r s) Hc Hd).
Qed.

Definition ind4 (a b c d p q r s : nat) : F := if ((p == a) && (q == b)) && ((r == c) && (s == d)) then 1 else 0.

(* the sum of the two entries of the local two-body density matrix that belong to a pair of equal integrals *)
Lemma rdm2_local x p q r s : good_sample x -> (p < L)%N -> (q < L)%N -> (r < L)%N -> (s < L)%N ->
  let T := (local_rdms half n_elecs t eri fast psi x).1 in
  let E := (local_rdms half n_elecs t eri fast psi x).2 in
  (E p q r s + E r s p q) * psi x
  = G2 p q r s Psi (fock_of x) + half * ((if q == r then T p s else 0) + (if s == p then T r q else 0)) * psi x.
Proof.
move=> Hg Hp Hq Hr Hs; have HL : (0 < L)%N by lia.
have [Hv Hsz _ _ _] := Hg.
have Hon : on_sites L (fock_of x) by rewrite -Hsz; apply: on_sites_fock.
pose h' a b : F := half * ((if q == r then (if (a == p) && (b == s) then 1 else 0) else 0) + (if s == p then (if (a == r) && (b == q) then 1 else 0) else 0)).
pose e' a b c d : F := ind4 p q r s a b c d + ind4 r s p q a b c d.
have Hsym a b c d : (a < L)%N -> (b < L)%N -> (c < L)%N -> (d < L)%N -> e' a b c d = e' c d a b.
  by move=> _ _ _ _; rewrite /e' /ind4 addrC; congr (_ + _); rewrite andbC.
have := local_lin h' Hg HL Hsym.
have R1 := fun a b => @rdm1_local x a b Hg.
move: R1; case: (local_rdms _ _ _ _ _ _ _) => T E /= R1.
have t0 a b : (a < L)%N -> (b < L)%N -> t_mat half L h' e' a b = 0.
  move=> Ha Hb; rewrite /t_mat big_mkord /h' /e' big_split /=; apply/eqP; rewrite subr_eq0; apply/eqP; congr (half * (_ + _)).
    rewrite /ind4 (eq_bigr (fun k : 'I_L => if (k : nat) == q then (if (q == r) && ((a == p) && (b == s)) then 1 else 0) else 0)).
      by rewrite (sum_pick (fun _ => _) Hq); case: (q == r).
    by move=> k _; case: (@eqP _ (k : nat) q) => [->|_]; rewrite ?andbF //; case: (a == p); case: (b == s); case: (q == r).
  rewrite /ind4 (eq_bigr (fun k : 'I_L => if (k : nat) == s then (if (s == p) && ((a == r) && (b == q)) then 1 else 0) else 0)).
    by rewrite (sum_pick (fun _ => _) Hs); case: (s == p).
  by move=> k _; case: (@eqP _ (k : nat) s) => [->|_]; rewrite ?andbF //; case: (a == r); case: (b == q); case: (s == p).
rewrite [X in X + _]big1 ?add0r; last by move=> a _; rewrite big1 // => b _; rewrite t0 // mul0r.
have Ee : \sum_(a < L) \sum_(b < L) \sum_(c < L) \sum_(d < L) e' a b c d * E a b c d = E p q r s + E r s p q.
  rewrite -(sum_pick4 E Hp Hq Hr Hs) -(sum_pick4 E Hr Hs Hp Hq) -big_split; apply: eq_bigr => a _; rewrite -big_split; apply: eq_bigr => b _.
  rewrite -big_split; apply: eq_bigr => c _; rewrite -big_split; apply: eq_bigr => d _ /=.
  by rewrite /e' mulrDl /ind4; congr (_ + _); case: ifP => _; rewrite ?mul1r ?mul0r.
rewrite Ee => ->; rewrite /molecular addrC; congr (_ + _).
  rewrite (eq_bigr (fun u => \sum_(v <- [:: Up; Dn]) (two_body u p v r v s u q Psi (fock_of x) + two_body u r v p v q u s Psi (fock_of x)))); last first.
    move=> u _; apply: eq_bigr => v _.
    rewrite -(sum_pick4 (fun a b c d => two_body u a v c v d u b Psi (fock_of x)) Hp Hq Hr Hs) -(sum_pick4 (fun a b c d => two_body u a v c v d u b Psi (fock_of x)) Hr Hs Hp Hq) -big_split.
    apply: eq_bigr => a _; rewrite -big_split; apply: eq_bigr => b _.
    rewrite -big_split; apply: eq_bigr => c _; rewrite -big_split; apply: eq_bigr => d _ /=.
    by rewrite /e' mulrDl /ind4; congr (_ + _); case: ifP => _; rewrite ?mul1r ?mul0r.
  rewrite /G2 !big_cons !big_nil.
  rewrite (two_body_pairs Up Up Up Up _ Hon Hr Hs Hp Hq) (two_body_pairs Up Dn Dn Up _ Hon Hr Hs Hp Hq).
  rewrite (two_body_pairs Dn Up Up Dn _ Hon Hr Hs Hp Hq) (two_body_pairs Dn Dn Dn Dn _ Hon Hr Hs Hp Hq).
  set A := two_body Up _ Up _ _ _ _ _ _ _; set B := two_body Up _ Dn _ _ _ _ _ _ _.
  set C := two_body Dn _ Up _ _ _ _ _ _ _; set D := two_body Dn _ Dn _ _ _ _ _ _ _.
  have -> : half * (A + A + (B + C + 0) + (C + B + (D + D + 0) + 0)) = (half + half) * (A + (B + 0) + (C + (D + 0) + 0)) by mring (GRing.Field.comRingType F).
  by rewrite half2 mul1r.
have -> : half * ((if q == r then T p s else 0) + (if s == p then T r q else 0)) * psi x
   = half * ((if q == r then E1 p s Psi (fock_of x) else 0) + (if s == p then E1 r q Psi (fock_of x) else 0)).
  by rewrite -(R1 p s) // -(R1 r q) //; case: (q == r); case: (s == p); mring (GRing.Field.comRingType F).
rewrite (eq_bigr (fun u => half * ((if q == r then exc u p u s Psi (fock_of x) else 0) + (if s == p then exc u r u q Psi (fock_of x) else 0)))).
  by rewrite -mulr_sumr big_split /= /E1; congr (_ * (_ + _)); case: (_ == _); rewrite ?big1_eq.
move=> u _; rewrite mulrDr.
rewrite -(sum_pick2' (fun a b => exc u a u b Psi (fock_of x)) Hp Hs) -(sum_pick2' (fun a b => exc u a u b Psi (fock_of x)) Hr Hq).
rewrite (_ : (if q == r then _ else 0) = \sum_(a < L) \sum_(b < L) (if q == r then if ((a : nat) == p) && ((b : nat) == s) then exc u a u b Psi (fock_of x) else 0 else 0)); last first.
  by case: (q == r) => //; rewrite big1 // => ? _; rewrite big1.
rewrite (_ : (if s == p then _ else 0) = \sum_(a < L) \sum_(b < L) (if s == p then if ((a : nat) == r) && ((b : nat) == q) then exc u a u b Psi (fock_of x) else 0 else 0)); last first.
  by case: (s == p) => //; rewrite big1 // => ? _; rewrite big1.
rewrite -mulrDr -big_split mulr_sumr; apply: eq_bigr => a _; rewrite -big_split mulr_sumr; apply: eq_bigr => b _ /=.
rewrite /h' -mulrA; congr (_ * _); rewrite mulrDl /hop /exc.
by move: (((a : nat) == p) && ((b : nat) == s)) (((a : nat) == r) && ((b : nat) == q)) => [] []; case: (q == r); case: (s == p); rewrite ?mul1r ?mul0r.
Qed.

Lemma E1_trace x : good_sample x -> \sum_(p < L) E1 p p Psi (fock_of x) = (n_elecs.1 + n_elecs.2)%:R * psi x.
Proof.
move=> [Hv Hs Hn _ _]; have Hon : on_sites L (fock_of x) by rewrite -Hs; apply: on_sites_fock.
have C u : \sum_(p < L) exc u p u p Psi (fock_of x) = (n_spin u x)%:R * psi x.
  rewrite (eq_bigr (fun p : 'I_L => (has_spin u (nth 0%N x p))%:R * psi x)); last first.
    move=> p _; have := hop_same u Psi Hon (ltn_ord p); rewrite /hop /exc occ_fock cfg_ofK // => ->.
    by case: (has_spin _ _); rewrite ?mul1r ?mul0r.
  rewrite -mulr_suml /n_spin -sum1_count (big_nth 0%N) Hs big_mkord; congr (_ * _).
  by rewrite natr_sum [RHS]big_mkcond; apply: eq_bigr => i _; case: (has_spin _ _).
rewrite /E1 exchange_big !big_cons big_nil /= !C Hn addr0 natrD mulrDl //.
Qed.
End Local.

Lemma reorderE (F : fieldType) (norb : nat) (R1 : nat -> nat -> F) R2 p q r s : (q < norb)%N ->
  reorder norb R1 R2 p q r s = 2%:R * R2 p q r s - (if q == r then R1 s p else 0).
Proof.
rewrite /reorder; set z := fun p q r s => 2%:R * R2 p q r s.
have G (l : seq nat) w : uniq l -> foldl (subtract_k R1) w l p q r s = w p q r s - (if (q == r) && (q \in l) then R1 s p else 0).
  elim: l w => [|k l IH] w /=; first by rewrite andbF subr0.
  move=> /andP [Hk Hu]; rewrite IH // /subtract_k inE.
  have [E|N] := boolP (q == k); rewrite /=; last by [].
  move: Hk; rewrite -(eqP E) => /negbTE ->; rewrite andbF subr0 andbT eq_sym.
  by case: (_ == _); rewrite ?subr0.
by move=> Hq; rewrite G ?iota_uniq // mem_iota /= add0n Hq andbT.
Qed.

Section Global.
Variables (F : fieldType) (half : F) (n_elecs : nat * nat) (t : nat -> nat -> F) (eri : nat -> nat -> nat -> nat -> F).
Variables (fast : cfg -> option (seq nat -> seq nat -> F)) (psi : cfg -> F) (L : nat) (draw : nat -> nat -> nat -> seq cfg).
Variables (n_chains n_nodes n_samples chunk_size : nat).
Hypothesis half2 : half + half = 1.
Notation Psi := (fun f => psi (cfg_of f)).
Notation m := (samples_of_rank n_chains n_nodes chunk_size).
Add Ring RG : (r_theory (GRing.Field.comRingType F)).

(* all samples that are drawn: n_chunks = n_samples / n_nodes / chunk_size chunks on every rank *)
Definition drawn : seq cfg :=
  flatten [seq flatten [seq draw c r m | r <- iota 0 n_nodes] | c <- iota 1 (n_samples %/ n_nodes %/ chunk_size)].
Definition avg (f : cfg -> F) : F := (\sum_(x <- drawn) f x) / n_samples%:R.
Hypothesis Hdraw : forall x, x \in drawn -> good_sample n_elecs fast psi L x.
Variables (R1 : nat -> nat -> F) (R2 : nat -> nat -> nat -> nat -> F).
Hypothesis Hrun : rdms half n_elecs t eri fast psi L draw n_chains n_nodes n_samples chunk_size = Some (R1, R2).

Lemma accE (f : cfg -> F) : accumulate n_samples [seq chunk_samples draw n_chains n_nodes chunk_size c | c <- iota 1 (n_samples %/ n_nodes %/ chunk_size)] f = avg f.
Proof.
rewrite /accumulate /avg /drawn; congr (_ / _); rewrite big_flatten !big_map; apply: eq_bigr => c _.
by rewrite big_flatten.
Qed.
Lemma runE : R1 = (fun p q => accumulate n_samples [seq chunk_samples draw n_chains n_nodes chunk_size c | c <- iota 1 (n_samples %/ n_nodes %/ chunk_size)]
       (fun x => (local_rdms half n_elecs t eri fast psi x).1 p q))
  /\ R2 = reorder L R1 (fun p q r s => accumulate n_samples [seq chunk_samples draw n_chains n_nodes chunk_size c | c <- iota 1 (n_samples %/ n_nodes %/ chunk_size)]
       (fun x => (local_rdms half n_elecs t eri fast psi x).2 p q r s)).
Proof. by move: Hrun; rewrite /rdms; case: ifP => // _; case: ifP => // _ [<- <-]. Qed.

(* rdm1[p,q]: the estimate of <sum_s c+_ps c_qs> from the local values (O psi)(x) / psi(x) *)
Theorem C97_rdm1 p q : (p < L)%N -> (q < L)%N ->
  R1 p q = avg (fun x => E1 p q Psi (fock_of x) / psi x).
Proof.
move=> Hp Hq; rewrite (proj1 runE) accE /avg; congr (_ / _); apply: eq_big_seq => x /Hdraw Hg.
by rewrite -(rdm1_local t eri half2 Hg) // mulfK //; case: Hg.
Qed.

Lemma avg_comb (T1 T2 E1' E2' G : cfg -> F) (b1 b2 : bool) :
  (forall x, x \in drawn -> E1' x + E2' x = G x + half * ((if b1 then T1 x else 0) + (if b2 then T2 x else 0))) ->
  2%:R * avg E1' + 2%:R * avg E2' = 2%:R * avg G + ((if b1 then avg T1 else 0) + (if b2 then avg T2 else 0)).
Proof.
move=> H; rewrite /avg.
have -> : (if b1 then (\sum_(x <- drawn) T1 x) / n_samples%:R else 0) + (if b2 then (\sum_(x <- drawn) T2 x) / n_samples%:R else 0)
     = (\sum_(x <- drawn) ((if b1 then T1 x else 0) + (if b2 then T2 x else 0))) / n_samples%:R.
  by rewrite big_split mulrDl /=; case: (b1); case: (b2); rewrite ?big1_eq ?mul0r.
rewrite !mulrA -!mulrDl; congr (_ / _); rewrite -mulrDr -big_split /= (eq_big_seq _ H) big_split mulrDr /= -mulr_sumr; congr (_ + _).
have {1}-> : 2%:R = 1 + 1 :> F by [].
by rewrite mulrA mulrDl mul1r half2 mul1r.
Qed.

(* rdm2: only the sum of the entries [p,q,r,s] and [r,s,p,q] is the estimate, and only if rdm1 is symmetric *)
Theorem C97_rdm2_partial p q r s : (p < L)%N -> (q < L)%N -> (r < L)%N -> (s < L)%N ->
  (forall a b, (a < L)%N -> (b < L)%N -> R1 a b = R1 b a) ->
  R2 p q r s + R2 r s p q = 2%:R * avg (fun x => G2 p q r s Psi (fock_of x) / psi x).
Proof.
move=> Hp Hq Hr Hs Hsym; rewrite (proj2 runE) !reorderE // !accE (Hsym s p) // (Hsym q r) //.
have A : 2%:R * avg (fun x => (local_rdms half n_elecs t eri fast psi x).2 p q r s)
   + 2%:R * avg (fun x => (local_rdms half n_elecs t eri fast psi x).2 r s p q)
   = 2%:R * avg (fun x => G2 p q r s Psi (fock_of x) / psi x)
     + ((if q == r then R1 p s else 0) + (if s == p then R1 r q else 0)).
  rewrite (proj1 runE) !accE; apply: avg_comb => x /Hdraw Hg; have H0 : psi x != 0 by case: Hg.
  apply: (mulIf H0); rewrite (rdm2_local t eri half2 Hg) // mulrDl divfK //.
set a := 2%:R * avg _ in A *; set b := 2%:R * avg _ in A *.
have -> : (a - (if q == r then R1 p s else 0)) + (b - (if s == p then R1 r q else 0)) = (a + b) - ((if q == r then R1 p s else 0) + (if s == p then R1 r q else 0)) by mring (GRing.Field.comRingType F).
by rewrite A addrK.
Qed.

(* the trace of rdm1: every drawn sample contributes the number of electrons *)
Theorem C97_trace : \sum_(p < L) R1 p p = (n_elecs.1 + n_elecs.2)%:R * (size drawn)%:R / n_samples%:R.
Proof.
rewrite (eq_bigr (fun p : 'I_L => avg (fun x => E1 p p Psi (fock_of x) / psi x))); last by move=> p _; apply: C97_rdm1.
rewrite /avg -mulr_suml exchange_big; congr (_ / _).
rewrite (eq_big_seq (fun _ => (n_elecs.1 + n_elecs.2)%:R)); last first.
  by move=> x /Hdraw Hg; rewrite -mulr_suml (E1_trace Hg) mulfK //; case: Hg.
by rewrite big_const_seq count_predT iter_addr_0 mulr_natr.
Qed.

(* on one rank, with a chunk size that is a multiple of the number of chains, it is the number of electrons *)
Theorem C97_trace_partial : (forall c r n, size (draw c r n) = n) -> n_samples%:R != 0 :> F ->
  n_nodes = 1%N -> (n_chains %| chunk_size)%N -> (0 < n_chains)%N ->
  \sum_(p < L) R1 p p = (n_elecs.1 + n_elecs.2)%:R.
Proof.
move=> Hsz H0 H1 Hd Hc; rewrite C97_trace.
suff -> : size drawn = n_samples by rewrite mulfK.
have Hm : m = chunk_size.
  rewrite /samples_of_rank H1 muln1; case/dvdnP: Hd => k ->.
  by rewrite divnMDl // divn_small ?addn0 1?mulnC // ltn_predL.
have [D1 D2] : (n_samples %% n_nodes = 0)%N /\ (n_samples %/ n_nodes %% chunk_size = 0)%N.
  by move: Hrun; rewrite /rdms; case: eqP => // -> ; case: eqP => // ->.
rewrite /drawn Hm H1 divn1 size_flatten /shape -map_comp (eq_map (f2 := fun _ => chunk_size)); last first.
  by move=> c /=; rewrite cats0 Hsz.
rewrite sumnE big_map big_const_seq count_predT size_iota iter_addn_0 mulnC.
by rewrite divnK // /dvdn -{1}[n_samples]divn1 -H1 D2.
Qed.
End Global.

Definition one_cfg : cfg := [:: 1; 2]%N.
Definition one_draw (c r n : nat) : seq cfg := nseq n one_cfg.
(* one electron of each spin on two sites; the state is the single configuration [1;2] *)
Definition one_psi (x : cfg) : rat := if x == one_cfg then 1 else 0.
Definition zero2 (p q : nat) : rat := 0.
Definition zero4 (p q r s : nat) : rat := 0.
Lemma one_good : good_sample (1, 1)%N (fun _ => None) one_psi 2 one_cfg.
Proof. by split. Qed.

(* two ranks: the sums are divided by twice the number of samples *)
Theorem C97_trace_refuted : exists (psi : cfg -> rat) (draw : nat -> nat -> nat -> seq cfg) R1 R2,
  [/\ forall c r n, size (draw c r n) = n,
      forall x, x \in drawn draw 1 2 4 2 -> good_sample (1, 1)%N (fun _ => None) psi 2 x,
      rdms 2%:R^-1 (1, 1)%N zero2 zero4 (fun _ => None) psi 2 draw 1 2 4 2 = Some (R1, R2) &
      \sum_(p < 2) R1 p p = 1].
Proof.
exists one_psi, one_draw; case E: (rdms _ _ _ _ _ _ _ _ _ _ _ _) => [[R1 R2]|]; last by move: E; rewrite /rdms.
exists R1, R2.
have Hd x : x \in drawn one_draw 1 2 4 2 -> good_sample (1, 1)%N (fun _ => None) one_psi 2 x.
  rewrite /drawn /one_draw /samples_of_rank /= !inE !orbb => /eqP ->; exact: one_good.
split=> //; first by move=> c r n; rewrite size_nseq.
have half2 : 2%:R^-1 + 2%:R^-1 = 1 :> rat by apply/eqP; vm_compute.
by rewrite (C97_trace half2 Hd E) /drawn /samples_of_rank /=; apply/eqP; vm_compute.
Qed.

(* single entries of rdm2 are wrong: in the state [1;2] <n_0 n_1> is 1, the code has 2 for [0,0,1,1] and 0 for [1,1,0,0] *)
Theorem C97_rdm2_refuted : exists (psi : cfg -> rat) (draw : nat -> nat -> nat -> seq cfg) R1 R2,
  [/\ forall x, x \in drawn draw 1 1 4 2 -> good_sample (1, 1)%N (fun _ => None) psi 2 x,
      rdms 2%:R^-1 (1, 1)%N zero2 zero4 (fun _ => None) psi 2 draw 1 1 4 2 = Some (R1, R2),
      avg draw 1 1 4 2 (fun x => G2 0 0 1 1 (fun f => psi (cfg_of f)) (fock_of x) / psi x) = 1 &
      R2 0%N 0%N 1%N 1%N = 2%:R /\ R2 1%N 1%N 0%N 0%N = 0].
Proof.
exists one_psi, one_draw; case E: (rdms _ _ _ _ _ _ _ _ _ _ _ _) => [[R1 R2]|]; last by move: E; rewrite /rdms.
exists R1, R2; split=> //.
- move=> x; rewrite /drawn /one_draw /samples_of_rank /= !inE !orbb => /eqP ->; exact: one_good.
- by rewrite /avg /drawn /samples_of_rank /G2 !unlock; apply/eqP; vm_compute.
have [H1 ->] := runE E; rewrite H1 !reorderE // !accE /avg /drawn /samples_of_rank /local_rdms.
rewrite /ab_otf_rdm /rdm_diag_t /rdm_diag_eri /rdm_ud /rdm_two /rdm_one /otf_diag /otf_value /loop4 /scat2 /scat4.
by rewrite /rdm_c1 /rdm_c2 /rdm_c3 /scat2 !unlock; split; apply/eqP; vm_compute.
Qed.

(* the uniform superposition of the four states of two electrons on two sites: <E_01> = 1 *)
Definition four_draw (c r n : nat) : seq cfg := take n [:: [:: 1; 2]; [:: 2; 1]; [:: 3; 0]; [:: 0; 3]]%N.
Example C97_ex : exists R1 R2,
  rdms 2%:R^-1 (1, 1)%N zero2 zero4 (fun _ => None) (fun _ => 1 : rat) 2 four_draw 1 1 4 4 = Some (R1, R2) /\ R1 0%N 1%N = 1.
Proof.
case E: (rdms _ _ _ _ _ _ _ _ _ _ _ _) => [[R1 R2]|]; last by move: E; rewrite /rdms.
exists R1, R2; split=> //.
have half2 : 2%:R^-1 + 2%:R^-1 = 1 :> rat by apply/eqP; vm_compute.
have Hd x : x \in drawn four_draw 1 1 4 4 -> good_sample (1, 1)%N (fun _ => None) (fun _ => 1 : rat) 2 x.
  by rewrite /drawn /four_draw /samples_of_rank /= !inE => /or4P [] /eqP ->.
rewrite (C97_rdm1 half2 Hd E) // /avg /drawn /samples_of_rank /E1 !unlock; apply/eqP; vm_compute; reflexivity.
Qed.
Print Assumptions C97_rdm1.
Print Assumptions C97_rdm2_partial.
Print Assumptions C97_rdm2_refuted.
Print Assumptions C97_trace.
Print Assumptions C97_trace_partial.
Print Assumptions C97_trace_refuted.
