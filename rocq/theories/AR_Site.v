From Verif Require Import Base Choice_Model QGPS_Model AR_Model AR_Sym AR_Proofs.
Import Num.Theory Order.TTheory.
Local Open Scope ring_scope.

(* triangular numbers *)
Lemma lower_indexS i : lower_index i.+1 = (lower_index i + i.+1)%N.
Proof.
rewrite /lower_index.
have -> : (i.+1 * (i.+1 + 1) = i.+1 * 2 + i * (i + 1))%N by lia.
by rewrite divnMDl // addnC.
Qed.
Lemma lower_mono i k : (i <= k)%N -> (lower_index i <= lower_index k)%N.
Proof.
move=> H; rewrite -(subnK H); elim: (k - i)%N => [|n IH] //.
by rewrite addSn lower_indexS; apply: leq_trans IH (leq_addr _ _).
Qed.
Lemma n_packedE L : n_packed L = lower_index L.
Proof. by []. Qed.
Lemma lower_bound L i : (i < L)%N -> (lower_index i + L <= n_packed L)%N.
Proof.
case: L => // L; rewrite ltnS n_packedE lower_indexS leq_add2r => H.
exact: lower_mono.
Qed.
Lemma slice_startE L i : (i < L)%N -> slice_start L (lower_index i) = lower_index i.
Proof. by move=> H; rewrite /slice_start (minn_idPl _) // leq_subRL; [rewrite addnC|]; have := lower_bound H; lia. Qed.

Section Models.
Variables (V : comRingType) (out : seq V -> V) (D M L : nat).
Local Notation c0 := (cache0 V D M).
Local Notation site := (model_site out D M L).
Local Notation carry md := (carry c0 (site md)).

(* what the masks of the plaquette model must satisfy *)
Definition model_ok (md : model V) : Prop :=
  if md is ARPlaq masks plaquettes _ then
    forall i j, (i < L)%N -> (j < L)%N -> masks i j -> (plaquettes i j < i)%N
  else True.

Definition ar_prods (eps : nat -> nat -> nat -> V) (x : seq nat) (i : nat) : seq (seq V) :=
  [seq [seq eps d m i * \prod_(j < i) eps (nth 0%N x j) m j | m <- iota 0 M] | d <- iota 0 D].

Lemma arq_prodsE (eps : nat -> nat -> nat -> V) x i : (i < L)%N -> okc D L x ->
  arq_prods D M eps (carry (ARq eps) x i) x i = ar_prods eps x i.
Proof.
move=> Hi Hx; have [/eqP Hs Ha] := andP Hx.
elim: i Hi => [|i IH] Hi.
  rewrite /= /arq_prods /ar_prods; apply: eq_map => d; apply/eq_in_map => m; rewrite mem_iota => Hm.
  have Hp : (prev_site x 0 < D)%N.
    by rewrite /prev_site; move/all_nthP: Ha; apply; rewrite Hs; case: (L) Hi => //.
  by rewrite big_ord0 nth_nseq Hp nth_nseq; case/andP: Hm => _; rewrite add0n => ->.
rewrite [carry _ _ _]/= /arq_prods -/(arq_prods D M eps _ x i) IH; last exact: ltnW.
rewrite /ar_prods; apply: eq_map => d; apply/eq_in_map => m; rewrite mem_iota add0n => /andP[_ Hm].
have Hp : (nth 0%N x i < D)%N by move/all_nthP: Ha; apply; rewrite Hs; apply: ltnW.
rewrite /prev_site (nth_map 0%N) ?size_iota // (nth_map 0%N) ?size_iota // !nth_iota // !add0n.
by rewrite big_ord_recr /= [eps (nth 0%N x i) m i * _]mulrC.
Qed.

Lemma full_contextE (eps : nat -> nat -> nat -> V) x i m : (i < L)%N ->
  full_context L eps x i m = \prod_(j < i) eps (nth 0%N x j) m (lower_index i + j)%N.
Proof.
move=> Hi; rewrite /full_context slice_startE // (big_ord_widen L (fun j => eps (nth 0%N x j) m (lower_index i + j)%N)) 1?ltnW //.
by rewrite [RHS]big_mkcond; apply: eq_bigr => j _; rewrite ltnNge; case: leqP.
Qed.
Lemma fulltuple_contextE (eps : nat -> nat -> nat -> nat -> V) x i m :
  \prod_(j < i.+1) (if (i <= j)%N then 1 else eps i (nth 0%N x j) m j) = \prod_(j < i) eps i (nth 0%N x j) m j.
Proof.
rewrite big_ord_recr /= leqnn mulr1; apply: eq_bigr => j _.
by rewrite leqNgt ltn_ord.
Qed.

Lemma model_site_causal md : model_ok md -> forall x y i, (i < L)%N -> okc D L x -> okc D L y -> agree i x y ->
  site md (carry md x i) x i = site md (carry md y i) y i.
Proof.
have Hc md' x i : (forall c z k, (site md' c z k).1 = c) -> carry md' x i = c0.
  by move=> H; elim: i => //= i ->; rewrite H.
case: md => [eps|eps|Ms eps|masks pl eps] Hok x y i Hi Hx Hy Ha.
- rewrite /site !arq_prodsE //.
  have -> : ar_prods eps x i = ar_prods eps y i.
    rewrite /ar_prods; apply: eq_map => d; apply: eq_map => m; congr (_ * _).
    by apply: eq_bigr => j _; rewrite Ha.
  by [].
- rewrite !Hc // /model_site; congr (_, map out _); rewrite /full_prods; apply: eq_map => d; apply: eq_map => m; congr (_ * _).
  by rewrite !full_contextE //; apply: eq_bigr => j _; rewrite Ha.
- rewrite !Hc // /model_site; congr (_, map out _); rewrite /fulltuple_prods; apply: eq_map => d; apply: eq_map => m; congr (_ * _).
  by rewrite !fulltuple_contextE; apply: eq_bigr => j _; rewrite Ha.
- rewrite !Hc // /model_site; congr (_, map out _); rewrite /plaq_prods; apply: eq_map => d; apply: eq_map => m; congr (_ * _).
  by apply: eq_bigr => j _; case: ifP => // Hm; rewrite Ha //; apply: Hok.
Qed.

Lemma size_model_site md c x i : size (site md c x i).2 = D.
Proof. by case: md => *; rewrite /= !size_map size_iota. Qed.
End Models.

Section Spins.
Variables (D L : nat) (count_spins : nat -> seq nat).
Hypothesis size_count : forall k, size (count_spins k) = D.

Lemma spinsE x i d : (d < D)%N ->
  nth 0%N (spin_step count_spins (spins D true count_spins x i) x i) d
  = (\sum_(j < i) nth 0%N (count_spins (nth 0%N x j)) d)%N.
Proof.
move=> Hd; elim: i => [|i IH]; first by rewrite /= nth_nseq Hd big_ord0.
rewrite big_ord_recr /= -IH {1}/spin_step /=.
set v := spin_step _ _ _ _; have Hv : size v = D by apply: (size_spin_step size_count); apply: size_spins.
rewrite (nth_map (0, 0)%N) ?size_zip ?size_count ?Hv ?minnn //.
by rewrite nth_zip ?size_count.
Qed.
Lemma spins_freeE x i d : (d < D)%N ->
  nth 0%N (spin_step count_spins (spins D false count_spins x i) x i) d
  = if i is i'.+1 then nth 0%N (count_spins (nth 0%N x i')) d else 0%N.
Proof.
move=> Hd; case: i => [|i] /=; first by rewrite nth_nseq Hd.
rewrite /spin_step /= (nth_map (0, 0)%N) ?size_zip ?size_count ?size_nseq ?minnn // nth_zip ?size_count ?size_nseq //=.
by rewrite nth_nseq Hd.
Qed.
End Spins.
