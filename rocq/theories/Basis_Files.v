(* Property theorem C115: integrals kept on disk belong to one orthonormal basis whatever the earlier runs were and
   wherever they were interrupted; the stored orbitals and exchange matrix belong to that basis; every rank gets the
   same integrals; the configuration of a restarted run is not looked at. *)
From Coq Require Import String.
From Verif Require Import Base Argps_Model Basis_Model Basis_Props.
Local Open Scope ring_scope.

(* the directories that can be met: a run may be interrupted after any of its saves *)
Inductive reachable (D R : Type) (start : D) (run : R -> D -> seq D) : D -> Prop :=
| reach_start : reachable start run start
| reach_step r d k d' : reachable start run d -> List.nth_error (run r d) k = Some d' -> reachable start run d'.

Section Files.
Variables (F : fieldType) (n : nat) (hcore S : nat -> nat -> F) (eri : nat -> nat -> nat -> nat -> F).
Variables (mo lowdin : nat -> nat -> F) (boys pm er : (nat -> nat -> F) -> nat -> nat -> F).
Variables (part : nat -> nat -> nat -> nat -> F) (keep : F -> F -> bool) (em : nat -> nat -> F).
Notation mat := (nat -> nat -> F).
Notation ten := (nat -> nat -> nat -> nat -> F).
Notation dir := (files F).
Notation h2o := (h2o_rank0 n hcore S eri mo lowdin boys part).
Notation cpd := (cpd_rank0 n hcore S eri mo lowdin boys pm er part keep em).
Notation basis_of := (cpd_basis n mo lowdin boys pm er part).

(* the files of H2O.py and H4x4x4.py; a run has numbers of electrons and a type of basis *)
Definition h2o_dirs := reachable (no_files F) (fun (r : nat * nat) f => (h2o r.1 r.2 f).1).
Definition h2o_ok (f : dir) : Prop :=
  (forall h, f_h1 f = Some h -> exists b, [/\ f_basis f = Some b, is_eye n b S & h = dot3 n b hcore]) /\
  (forall g, f_h2 f = Some g -> exists b, [/\ f_basis f = Some b, is_eye n b S & g = eri_in n b eri]).
Lemma h2o_keep r k f d : h2o_ok f -> List.nth_error (h2o r.1 r.2 f).1 k = Some d -> h2o_ok d.
Proof.
case: f => [fb h1 h2 hf fe] [/= O1 O2].
have new b x y : is_eye n b S -> (x = None \/ x = Some (dot3 n b hcore)) -> (y = None \/ y = Some (eri_in n b eri)) ->
    h2o_ok (Files (Some b) x y hf fe).
  by move=> Hb [->|->] [->|->]; split=> //= z [<-]; exists b.
have init b : h2o_ok (Files (Some b) None None hf fe) by split.
case: fb O1 O2 => [b|] O1 O2.
  have Hg : h2 = None \/ h2 = Some (eri_in n b eri).
    by case: h2 O2 => [g|] O2; [right; case: (O2 _ erefl) => c [[->] _ ->] | left].
  have Hh : h1 = None \/ h1 = Some (dot3 n b hcore).
    by case: h1 O1 => [h|] O1; [right; case: (O1 _ erefl) => c [[->] _ ->] | left].
  rewrite /h2o_rank0 /=; have [Hb|Hb] := boolP (is_eye n b S).
    by case: h1 h2 Hg Hh {O1 O2} => [h|] [g|] Hg Hh; case: k => [|[|[|k]]] //= [<-]; apply: new => //; right.
  by case: h1 h2 {Hg Hh O1 O2} => [h|] [g|]; case: k.
have E1 : h1 = None by case: h1 O1 => // h /(_ _ erefl) [b []].
have E2 : h2 = None by case: h2 O2 => // h /(_ _ erefl) [b []].
rewrite {}E1 {}E2 /h2o_rank0 /=; set b := h2o_basis _ _ _ _ _ _ _.
by case: ifP => Hb; case: k => [|[|[|[|k]]]] //= [<-]; first [exact: init | apply: new => //; first [by left | by right]].
Qed.
Lemma h2o_inv f : h2o_dirs f -> h2o_ok f.
Proof. by elim=> [|r d k d' _ IH]; [split | exact: h2o_keep]. Qed.
(* C115: a run that gets its integrals gets those of one orthonormal basis *)
Theorem C115_h2o_one_basis f nelec basis_type fs h g : h2o_dirs f -> h2o nelec basis_type f = (fs, Some (h, g)) ->
  exists b, [/\ orthonormal n S b, h = dot3 n b hcore & g = eri_in n b eri].
Proof.
move=> /h2o_inv; case: f => [fb h1 h2 hf fe] [/= O1 O2].
have [[b Eb]|Nb] : (exists b, fb = Some b) \/ fb = None by case: (fb) => [b|]; [left; exists b | right].
  rewrite {}Eb in O1 O2 *; case: h1 h2 O1 O2 => [h'|] [g'|] O1 O2; rewrite /h2o_rank0 /=.
    case=> _ <- <-; case: (O1 _ erefl) => c [[Ec] Hc ->]; case: (O2 _ erefl) => d [[Ed] Hd ->].
    by exists b; subst c d; split=> //; apply: is_eyeP.
  1-3: by case: ifP => // Hb' [_ <- <-]; exists b; split=> //; exact: is_eyeP Hb'.
have E1 : h1 = None by case: h1 O1 => // h' /(_ _ erefl) [b []]; rewrite Nb.
rewrite {}E1 Nb /h2o_rank0 /=; set b := h2o_basis _ _ _ _ _ _ _.
by case: ifP => // Hb' [_ <- <-]; exists b; split=> //; exact: is_eyeP Hb'.
Qed.
(* the next run, whatever its settings, gets the same integrals and writes nothing *)
Theorem C115_h2o_again f nelec basis_type fs h g nelec' basis_type' : h2o nelec basis_type f = (fs, Some (h, g)) ->
  h2o nelec' basis_type' (last f fs) = ([::], Some (h, g)).
Proof.
case: f => [[b|] [h1|] [h2|] hf fe]; rewrite /h2o_rank0 /=; try (by case=> <- <- <-); by case: ifP => // _ [<- <- <-].
Qed.

(* the files of cpd_backflow *)
Definition cpd_dirs := reachable (no_files F) (fun r f => (cpd r f).1).
(* everything in the directory comes from the run r with the basis b *)
Definition of_run (f : dir) (r : cpd_run F) (b : mat) : Prop :=
  [/\ basis_of (r_nelec r) (r_basis r) = Some b, is_eye n b S, f_basis f = Some b & f_hf f = Some (cpd_hf n S mo r b)] /\
  (f_h1 f = Some (prune1 keep (r_threshold r) (dot3 n b hcore)) /\
   f_h2 f = Some (prune2 keep (r_threshold r) (eri_in n b eri))).
Definition cpd_ok (f : dir) : Prop :=
  match f_hf f with Some _ => exists r b, of_run f r b | None => f_em f = None end.
Definition cpd_new (r : cpd_run F) (f : dir) : seq dir * option (mat * mat * ten * dir) :=
  if basis_of (r_nelec r) (r_basis r) is Some b then
    if is_eye n b S then
      let h := prune1 keep (r_threshold r) (dot3 n b hcore) in
      let g := prune2 keep (r_threshold r) (eri_in n b eri) in
      let f1 := save_basis b f in
      let f2 := save_h1 h f1 in
      let f3 := save_h2 g f2 in
      let f4 := save_hf (cpd_hf n S mo r b) f3 in
      ([:: f1; f2; f3; f4], Some (b, h, g, f4))
    else ([::], None)
  else ([::], None).
Lemma cpd_keep r k f d : cpd_ok f -> List.nth_error (cpd r f).1 k = Some d -> cpd_ok d.
Proof.
rewrite /cpd_ok; case Ef : (f_hf f) => [o|] H; rewrite /cpd_rank0 /cpd_integrals Ef -/(cpd_new r f).
  have [r0 [b0 [[B1 B2 B3 B4] [B5 B6]]]] := H; rewrite B3 B5 B6.
  case: (r_exchange r); last by case: k.
  case: (f_em f) => [x|]; first by case: k.
  by case: k => [|[|k]] //= [<-] /=; rewrite Ef; exists r0, b0.
have -> : (match f_basis f with
    | Some b => match f_h1 f with Some h => match f_h2 f with Some g => cpd_new r f | None => cpd_new r f end
      | None => cpd_new r f end | None => cpd_new r f end) = cpd_new r f.
  by case: (f_basis f) => // b; case: (f_h1 f) => // h; case: (f_h2 f).
rewrite /cpd_new; case Eb : (cpd_basis _ _ _ _ _ _ _ _ _) => [b|]; last by case: k.
case: ifP => Hb; last by case: k.
have new x : exists r0 b0, of_run (Files (Some b) (Some (prune1 keep (r_threshold r) (dot3 n b hcore)))
    (Some (prune2 keep (r_threshold r) (eri_in n b eri))) (Some (cpd_hf n S mo r b)) x) r0 b0.
  by exists r, b.
rewrite /= H; case: (r_exchange r); case: k => [|[|[|[|[|[|k]]]]]] //= [<-] //=; rewrite ?Ef //; exact: new.
Qed.
Lemma cpd_inv f : cpd_dirs f -> cpd_ok f.
Proof. by elim=> [|r d k d' _ IH]; [| exact: cpd_keep]. Qed.
(* C115: the integrals are those of the run that wrote the directory, in one orthonormal basis, which is the basis of
   the stored orbitals *)
Theorem C115_cpd_one_run f r fs h g : cpd_dirs f -> cpd r f = (fs, Some (h, g)) ->
  exists r' b, [/\ basis_of (r_nelec r') (r_basis r') = Some b, orthonormal n S b,
    h = prune1 keep (r_threshold r') (dot3 n b hcore), g = prune2 keep (r_threshold r') (eri_in n b eri) &
    f_basis (last f fs) = Some b /\ f_hf (last f fs) = Some (cpd_hf n S mo r' b)].
Proof.
move=> /cpd_inv; rewrite /cpd_ok /cpd_rank0; case Ef : (f_hf f) => [o|] H; rewrite /cpd_integrals Ef -/(cpd_new r f).
  have [r0 [b0 [[B1 B2 B3 B4] [B5 B6]]]] := H; rewrite B3 B5 B6 => E; exists r0, b0.
  have O := is_eyeP B2.
  move: E; case: (r_exchange r); first case: (f_em f) => [x|].
  - by case=> <- <- <-; split.
  - by case=> <- <- <-; split.
  - by case=> <- <- <-; split.
have -> : (match f_basis f with
    | Some b => match f_h1 f with Some h => match f_h2 f with Some g => cpd_new r f | None => cpd_new r f end
      | None => cpd_new r f end | None => cpd_new r f end) = cpd_new r f.
  by case: (f_basis f) => // b; case: (f_h1 f) => // h'; case: (f_h2 f).
rewrite /cpd_new; case Eb : (cpd_basis _ _ _ _ _ _ _ _ _) => [b|] //; case: ifP => // Hb.
have O := is_eyeP Hb.
by rewrite /= H; case: (r_exchange r) => -[<- <- <-]; exists r, b.
Qed.
(* in the basis of the run itself when the directory was not complete, whatever it contains otherwise *)
Theorem C115_cpd_fresh f r fs h g : f_hf f = None -> cpd r f = (fs, Some (h, g)) ->
  exists b, [/\ basis_of (r_nelec r) (r_basis r) = Some b,
    h = prune1 keep (r_threshold r) (dot3 n b hcore) & g = prune2 keep (r_threshold r) (eri_in n b eri)].
Proof.
move=> Ef; rewrite /cpd_rank0 /cpd_integrals Ef -/(cpd_new r f).
have -> : (match f_basis f with
    | Some b => match f_h1 f with Some h => match f_h2 f with Some g => cpd_new r f | None => cpd_new r f end
      | None => cpd_new r f end | None => cpd_new r f end) = cpd_new r f.
  by case: (f_basis f) => // b; case: (f_h1 f) => // h'; case: (f_h2 f).
rewrite /cpd_new; case Eb : (cpd_basis _ _ _ _ _ _ _ _ _) => [b|] //; case: ifP => // Hb.
by case: (r_exchange r) => /=; first case: (f_em f) => [x|]; case=> _ <- <-; exists b.
Qed.
(* the stored orbitals are the occupied molecular orbitals, written in the basis *)
Theorem C115_orbitals (b : mat) : orthonormal n S b -> forall m k, (m < n)%N ->
  \sum_(q < n) b m q * trafo n S mo b q k = mo m k.
Proof.
move=> Hb m k Hm.
pose B := \matrix_(i < n, j < n) b i j; pose T := \matrix_(i < n, j < n) S i j.
have E : B^T *m T *m B = 1%:M.
  apply/matrixP => i j; rewrite !mxE -(Hb i j (ltn_ord i) (ltn_ord j)) exchange_big; apply: eq_bigr => q _.
  by rewrite !mxE big_distrl; apply: eq_bigr => l _ /=; rewrite !mxE.
have {}E : B *m (B^T *m T) = 1%:M by apply: mulmx1C.
pose o := \col_(i < n) mo i k.
have : (B *m (B^T *m (T *m o))) (Ordinal Hm) 0 = mo m k by rewrite !mulmxA -(mulmxA B) E mul1mx mxE.
move=> <-; rewrite mxE; apply: eq_bigr => q _; rewrite !mxE; congr (_ * _); rewrite /trafo; apply: eq_bigr => i _.
by rewrite !mxE; congr (_ * _); apply: eq_bigr => l _; rewrite !mxE.
Qed.

(* the exchange matrix: all runs in local bases *)
Definition cpd_dirs_local := reachable (no_files F)
  (fun r f => if substring_of "local" (r_basis r) then (cpd r f).1 else [::]).
Lemma local_dirs f : cpd_dirs_local f -> cpd_dirs f.
Proof.
elim=> [|r d k d' _ IH]; first exact: reach_start.
by case: ifP => Hr Hk; [apply: (reach_step (r := r) IH Hk) | case: k Hk].
Qed.
Theorem C115_exchange f e : cpd_dirs_local f -> f_em f = Some e ->
  exists b, [/\ f_basis f = Some b, orthonormal n S b & e = dot3 n b em].
Proof.
move=> H; elim: H e => [//|r d k d' Hd IH Hk e He]; have Od := cpd_inv (local_dirs Hd).
move: Hk; case: ifP => Hr; last by case: k.
move: Od; rewrite /cpd_ok /cpd_rank0; case Ef : (f_hf d) => [o|] H; rewrite /cpd_integrals Ef -/(cpd_new r d).
  have [r0 [b0 [[B1 B2 B3 B4] [B5 B6]]]] := H; rewrite B3 B5 B6 Hr.
  case: (r_exchange r); last by case: k.
  case Ed : (f_em d) => [x|]; first by case: k.
  case: k => [|[|k]] //= [E]; move: He; rewrite -E /= => -[<-]; exists b0; split=> //; exact: is_eyeP.
have -> : (match f_basis d with
    | Some b => match f_h1 d with Some h => match f_h2 d with Some g => cpd_new r d | None => cpd_new r d end
      | None => cpd_new r d end | None => cpd_new r d end) = cpd_new r d.
  by case: (f_basis d) => // b; case: (f_h1 d) => // h'; case: (f_h2 d).
rewrite /cpd_new; case Eb : (cpd_basis _ _ _ _ _ _ _ _ _) => [b|] //=; last by case: k.
case: ifP => // Hb; last by case: k.
rewrite /= H Hr; case: (r_exchange r); case: k => [|[|[|[|[|[|k]]]]]] //= [E]; move: He; rewrite -E //= ?H // => -[<-].
by exists b; split=> //; exact: is_eyeP.
Qed.
End Files.

(* C115: after the slice-wise broadcast every rank has the array of rank 0 *)
Section Ranks.
Variables (T : Type) (n : nat).
Lemma foldl_bcast (l : seq (nat * nat)) (h2 : nat -> nat -> nat -> nat -> nat -> T) r p q :
  foldl (@bcast_step T) h2 l r p q = if (p, q) \in l then h2 0%N p q else h2 r p q.
Proof.
elim: l h2 => [//|[i j] l IH] h2; rewrite /= IH in_cons xpair_eqE /bcast_step /set_slice /=.
by case: (altP (p =P i)) => [->|] //=; case: (altP (q =P j)) => [->|] //=; case: ifP.
Qed.
Theorem C115_ranks (h2 : nat -> nat -> nat -> nat -> nat -> T) r p q : (p < n)%N -> (q < n)%N ->
  bcast_slices n h2 r p q = h2 0%N p q.
Proof.
move=> Hp Hq; rewrite /bcast_slices foldl_bcast ifT //.
by apply/allpairsP; exists (p, q); rewrite !mem_iota.
Qed.
End Ranks.

(* a restarted run with another basis gets the integrals of the earlier run: one orbital pair with energies 1 and 2,
   first the canonical basis and then, in the same directory, the basis with the orbitals exchanged *)
Section Stale.
Let eye (i j : nat) : rat := (i == j)%:R.
Let swap (i j : nat) : rat := (i + j == 1)%N%:R.
Let hc (i j : nat) : rat := if i == j then i.+1%:R else 0.
Let zero4 (i j k l : nat) : rat := 0.
Let first_run f := h2o_rank0 2 hc eye zero4 eye eye (fun _ => swap) (fun _ _ => eye) 2 1 f.
Let second_run f := h2o_rank0 2 hc eye zero4 eye eye (fun _ => swap) (fun _ _ => eye) 2 0 f.
Theorem C115_h2o_basis_type_refuted : exists f h g,
  [/\ (first_run (no_files _)).1 = [:: save_basis eye (no_files _); save_h1 (dot3 2 eye hc) (save_basis eye (no_files _)); f],
      second_run f = ([::], Some (h, g)) & h 0%N 0%N != dot3 2 (h2o_basis 2 eye eye (fun _ => swap) (fun _ _ => eye) 2 0) hc 0 0].
Proof.
rewrite /first_run /h2o_rank0 /=.
have -> : is_eye 2 eye eye by rewrite /is_eye /= /dot3 !big_ord_recl !big_ord0.
eexists; eexists; eexists; split; [by [] | by [] |].
by rewrite /dot3 !big_ord_recl !big_ord0.
Qed.
End Stale.

(* in the canonical basis the stored exchange matrix is not the one of the basis: atomic orbitals whose symmetric and
   antisymmetric combinations (3/5, 4/5), (-4/5, 3/5) are the molecular orbitals *)
Section Canonical.
Let eye (i j : nat) : rat := (i == j)%:R.
Let turn (i j : nat) : rat := if i == j then 3%:R / 5%:R else if (i < j)%N then - (4%:R / 5%:R) else 4%:R / 5%:R.
Let em (i j : nat) : rat := if i == j then i.+1%:R else 0.
Let zero4 (i j k l : nat) : rat := 0.
Let run f := cpd_rank0 2 em eye zero4 turn eye id id id (fun _ _ => eye) (fun _ _ => true) em
  (CpdRun "canonical" None true true 1 1) f.
Theorem C115_exchange_canonical_refuted : exists f b e,
  [/\ List.nth_error (run (no_files _)).1 4 = Some f, f_basis f = Some b, f_em f = Some e & e 0%N 1%N != dot3 2 b em 0 1].
Proof.
rewrite /run /cpd_rank0 /cpd_integrals /=.
have -> : is_eye 2 turn eye by rewrite /is_eye /= /dot3 !big_ord_recl !big_ord0.
eexists; eexists; eexists; split; [by [] | by [] | by [] |].
by rewrite /dot3 !big_ord_recl !big_ord0.
Qed.
End Canonical.
Print Assumptions C115_h2o_one_basis.
Print Assumptions C115_cpd_one_run.
Print Assumptions C115_orbitals.
Print Assumptions C115_exchange.
Print Assumptions C115_ranks.
