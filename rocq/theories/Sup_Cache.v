(* C51: the feature matrix of the supervised learner through any history of calls;
   C52: predictions do not depend on the reference sites. *)
From Verif Require Import Base Sup_Model.
Local Open Scope ring_scope.

Section Cache.
Variables (C : fieldType) (big : C -> bool) (D M l : nat).
Hypothesis big_neq0 : forall x, big x -> x != 0.
Notation site := 'I_l.+1.
Notation conf := (l.+1.-tuple 'I_D).
Notation confset := (seq (seq conf)).
Notation epsilons := {ffun 'I_D * 'I_M * site -> C}.
Notation refs := {ffun 'I_M -> site}.
Notation feats := {ffun 'I_M * 'I_D -> C}.
Notation learner := (learner C D M l).
Notation op := (op C D M l).

(* the feature matrix computed from scratch: one row per data point; feature (w, d) sums over the
   symmetry copies with occupancy d at the reference site of w the product over the other sites *)
Definition scratch (e : epsilons) (r : refs) (cs : confset) : seq feats :=
  [seq [ffun wd => \sum_(c <- (row : seq conf)) if tnth c (r wd.1) == wd.2
                   then \prod_(j < l.+1 | j != r wd.1) e (tnth c j, wd.1, j) else 0] | row <- cs].

Lemma map2_map (A B E : Type) (f : A -> B -> E) (g : A -> B) s : map2 f s (map g s) = [seq f x (g x) | x <- s].
Proof. by rewrite /map2; elim: s => //= x s ->. Qed.

Lemma update_entryE (e : epsilons) (r r_old : refs) (c : conf) :
  update_entry big e r r_old c (site_prod_of e r_old c) = site_prod_of e r c.
Proof.
apply/ffunP => w; rewrite !ffunE.
case: (altP (r w =P r_old w)) => [->|Hr] //=.
case: ifP => // /big_neq0 H0.
rewrite (bigD1 (r w)) //= [in RHS](bigD1 (r_old w)) 1?eq_sym //=.
rewrite [e _ * _]mulrC mulfK // mulrC; congr (_ * _); apply: eq_bigl => j; by rewrite andbC.
Qed.
Lemma update_site_prodE (e : epsilons) (r r_old : refs) (cs : confset) :
  update_site_prod_fast big e r r_old cs (compute_site_prod e r_old cs) = compute_site_prod e r cs.
Proof.
rewrite /update_site_prod_fast /compute_site_prod map2_map; apply: eq_map => row.
by rewrite map2_map; apply: eq_map => c; apply: update_entryE.
Qed.

Definition kernel (e : epsilons) (r : refs) (cs : confset) := kernel_mat_inner (compute_site_prod e r cs) cs r.

Definition consistent (st : learner) : Prop :=
  forall sp, site_prod st = Some sp ->
    exists cs, [/\ confs st = Some cs, sp = compute_site_prod (epsilon st) (site_prod_ref_sites st) cs &
                   K_per_sym st = Some (kernel (epsilon st) (site_prod_ref_sites st) cs)].

Lemma kernel_scratch (e : epsilons) (r : refs) cs :
  [seq [ffun wd => \sum_(p <- row) (p : feats) wd] | row <- kernel e r cs] = scratch e r cs.
Proof.
rewrite /kernel /kernel_mat_inner /compute_site_prod map2_map -map_comp; apply: eq_map => row /=.
apply/ffunP => wd; rewrite !ffunE map2_map big_map; apply: eq_bigr => c _.
by rewrite !ffunE.
Qed.

Lemma set_kernelP (st : learner) r cs : consistent st -> ref_sites st = Some r ->
  exists st', [/\ set_kernel_mat big st cs = Some st', consistent st', epsilon st' = epsilon st &
    ref_sites st' = Some r] /\ [/\ site_prod_ref_sites st' = r, confs st' = Some cs,
    site_prod st' = Some (compute_site_prod (epsilon st) r cs) & K_per_sym st' = Some (kernel (epsilon st) r cs)].
Proof.
move=> Hc Hr; rewrite /set_kernel_mat Hr.
set fresh := Learner (epsilon st) (Some r) (Some cs) (Some (compute_site_prod (epsilon st) r cs)) r None.
have Hf : exists st', [/\ Some (match K_per_sym fresh, site_prod fresh with
          | None, Some sp => Learner (epsilon fresh) (ref_sites fresh) (confs fresh) (site_prod fresh)
                               (site_prod_ref_sites fresh) (Some (kernel_mat_inner sp cs r))
          | _, _ => fresh
          end) = Some st', consistent st', epsilon st' = epsilon st & ref_sites st' = Some r] /\
    [/\ site_prod_ref_sites st' = r, confs st' = Some cs,
        site_prod st' = Some (compute_site_prod (epsilon st) r cs) & K_per_sym st' = Some (kernel (epsilon st) r cs)].
  eexists; split; split; first by reflexivity.
  all: rewrite //=.
  by move=> sp [<-]; exists cs.
case Ecs: (confs st) => [cs'|]; last exact: Hf.
case: eqP => [E|_]; last exact: Hf.
case Esp: (site_prod st) => [sp|]; last exact: Hf.
have [cs0 [H1 H2 H3]] := Hc _ Esp; move: H1; rewrite Ecs E => -[H1]; rewrite -{cs0}H1 in H2 H3.
case: eqP => [Er|_] /=.
  rewrite H3; exists st; split; split=> //.
  - by rewrite Ecs E.
  - by rewrite Esp H2 Er.
  by rewrite H3 Er.
eexists; split; split; first by reflexivity.
all: rewrite //= ?Ecs ?E // H2 update_site_prodE //.
move=> sp' [<-]; exists cs; by [].
Qed.

Lemma write_refs_prod (st : learner) (r : refs) v cs : ref_sites st = Some r ->
  compute_site_prod (epsilon (write_ref_sites st v)) r cs = compute_site_prod (epsilon st) r cs.
Proof.
move=> Hr; rewrite /write_ref_sites Hr /=; apply: eq_map => row; apply: eq_map => c.
apply/ffunP => w; rewrite !ffunE; apply: eq_bigr => j Hj; by rewrite ffunE /= (negPf Hj).
Qed.

Lemma run_opP (st : learner) (o : op) : consistent st -> exists st', run_op big st o = Some st' /\ consistent st'.
Proof.
move=> Hc; case: o => [r|cs|cs r v|e] /=.
- by exists (set_ref_sites st r).
- rewrite /set_up_prediction; case Er: (ref_sites st) => [r|].
    by have [st' [[H1 H2 _ _] _]] := set_kernelP cs Hc Er; exists st'.
  have Hc' : consistent (set_ref_sites st [ffun => ord0]) by [].
  by have [st' [[H1 H2 _ _] _]] := set_kernelP cs Hc' erefl; exists st'.
- have Hc' : consistent (set_ref_sites st r) by [].
  have [st' [[H1 H2 H3 H4] [H5 H6 H7 H8]]] := set_kernelP cs Hc' erefl.
  rewrite /fit_step H1; exists (write_ref_sites st' v); split=> // sp.
  have W := write_refs_prod v cs H4.
  rewrite {1}/write_ref_sites H4 /= H7 => -[<-]; exists cs.
  have Er : site_prod_ref_sites (write_ref_sites st' v) = r by rewrite /write_ref_sites H4.
  have Ek : K_per_sym (write_ref_sites st' v) = K_per_sym st' by rewrite /write_ref_sites H4.
  rewrite Er Ek /kernel W H3; split=> //.
  by rewrite /write_ref_sites H4.
by exists (set_epsilon st e).
Qed.

Lemma runP (st : learner) os : consistent st -> exists st', run big st os = Some st' /\ consistent st'.
Proof.
rewrite /run; elim: os st => [|o os IH] st Hc /=; first by exists st.
by have [st' [-> Hc']] := run_opP o Hc; apply: IH.
Qed.

(* No history of calls fails, and whatever the history, setting the reference sites and asking for
   the kernel matrix of a configuration set gives the one computed from scratch *)
Theorem C51_partial (e0 : epsilons) (os : seq op) (r : refs) (cs : confset) :
  exists st st', [/\ run big (init_learner e0) os = Some st,
    set_kernel_mat big (set_ref_sites st r) cs = Some st' &
    K_matrix st' = scratch (epsilon st) r cs].
Proof.
have [st [Hst Hc]] : exists st, run big (init_learner e0) os = Some st /\ consistent st by apply: runP.
have Hc' : consistent (set_ref_sites st r) by [].
have [st' [[H1 H2 H3 H4] [H5 H6 H7 H8]]] := set_kernelP cs Hc' erefl.
exists st, st'; split=> //.
by rewrite /K_matrix H8 kernel_scratch.
Qed.

(* --- C52 *)
(* log amplitude of a data point: sum over the symmetry copies and the support index of the product
   over all sites *)
Definition log_amplitude (e : epsilons) (row : seq conf) : C :=
  \sum_(c <- row) \sum_(w < M) \prod_(j < l.+1) e (tnth c j, w, j).

Lemma scratch_dot (e : epsilons) (r : refs) (row : seq conf) :
  \sum_(wd : 'I_M * 'I_D) (\sum_(c <- row) if tnth c (r wd.1) == wd.2
     then \prod_(j < l.+1 | j != r wd.1) e (tnth c j, wd.1, j) else 0) * e (wd.2, wd.1, r wd.1) =
  log_amplitude e row.
Proof.
under [LHS]eq_bigr => wd _ do rewrite mulr_suml.
rewrite exchange_big /log_amplitude /=; apply: eq_bigr => c _.
rewrite -(pair_bigA _ (fun w d => (if tnth c (r w) == d
     then \prod_(j < l.+1 | j != r w) e (tnth c j, w, j) else 0) * e (d, w, r w))) /=.
apply: eq_bigr => w _; rewrite (bigD1 (tnth c (r w))) //= eqxx [X in _ + X]big1 ?addr0; last first.
  by move=> d Hd; rewrite eq_sym (negPf Hd) mul0r.
by rewrite [RHS](bigD1 (r w)) //= mulrC.
Qed.

Theorem C52_predict (e0 : epsilons) (os : seq op) (cs : confset) (bias : C) :
  exists st, run big (init_learner e0) os = Some st /\
    predict big st bias cs = Some [seq log_amplitude (epsilon st) row + bias | row <- cs].
Proof.
have [st [Hst Hc]] : exists st, run big (init_learner e0) os = Some st /\ consistent st by apply: runP.
exists st; split=> //; rewrite /predict /set_up_prediction.
have [r [st1 [Hr1 He Hc1]]] : exists r st1, [/\ (if ref_sites st is None then set_ref_sites st [ffun => ord0] else st) = st1,
    epsilon st1 = epsilon st & consistent st1 /\ ref_sites st1 = Some r].
  case Er: (ref_sites st) => [r|].
    by exists r, st.
  by exists [ffun => ord0], (set_ref_sites st [ffun => ord0]).
case: Hc1 => Hc1 Er; rewrite Hr1.
have [st' [[-> H2 H3 H4] [H5 H6 H7 H8]]] := set_kernelP cs Hc1 Er.
rewrite H4 /K_matrix H8 kernel_scratch /scratch -map_comp; congr Some; apply: eq_map => row /=.
congr (_ + _); rewrite H3 He -(scratch_dot _ r); apply: eq_bigr => wd _; by rewrite ffunE.
Qed.
End Cache.

(* the prediction of a learner does not change when its reference sites are changed *)
Corollary C52_independent (C : fieldType) (big : C -> bool) (D M l : nat) :
  (forall x, big x -> x != 0) ->
  forall (e0 : {ffun 'I_D * 'I_M * 'I_l.+1 -> C}) os r (cs : seq (seq (l.+1.-tuple 'I_D))) bias,
  exists st, run big (init_learner e0) os = Some st /\
    predict big (set_ref_sites st r) bias cs = predict big st bias cs.
Proof.
move=> Hb e0 os r cs bias.
have [st [H1 H2]] := C52_predict Hb e0 os cs bias; exists st; split=> //.
have [st' [H3 H4]] := C52_predict Hb e0 (rcons os (OpSetRefs C D r)) cs bias.
move: H3 H4; rewrite /run foldl_rcons -/(run big (init_learner e0) os) H1 /= => -[<-] ->.
by rewrite H2.
Qed.

(* --- C51 beyond the public methods *)
Section Refuted.
Let Q := [fieldType of rat].
Definition q_big (x : Q) : bool := x != 0.
(* one occupancy, one support index, two sites with epsilon 2 and 3 *)
Definition q_eps : {ffun 'I_1 * 'I_1 * 'I_2 -> Q} := [ffun dwj => if dwj.2 == ord0 then 2%:R else 3%:R].
Definition q_confs : seq (seq (2.-tuple 'I_1)) := [:: [:: [tuple ord0; ord0]]].
Definition q_refs (j : 'I_2) : {ffun 'I_1 -> 'I_2} := [ffun => j].

Lemma eqI1 (a b : 'I_1) : (a == b) = true.
Proof. by rewrite [a]ord1 [b]ord1. Qed.

Lemma prod_ne0 (f : 'I_2 -> Q) : \prod_(j < 2 | j != ord0) f j = f (lift ord0 ord0).
Proof. by rewrite big_mkcond !big_ord_recl big_ord0 /= mul1r mulr1. Qed.
Lemma prod_ne1 (f : 'I_2 -> Q) : \prod_(j < 2 | j != lift ord0 ord0) f j = f ord0.
Proof. by rewrite big_mkcond !big_ord_recl big_ord0 /= !mulr1. Qed.

Let sp0 := compute_site_prod q_eps (q_refs ord0) q_confs.
Let st1 := Learner q_eps (Some (q_refs ord0)) (Some q_confs) (Some sp0) (q_refs ord0)
             (Some (kernel_mat_inner sp0 q_confs (q_refs ord0))).

Lemma q_run : run q_big (init_learner q_eps) [:: OpSetRefs _ _ (q_refs ord0); OpPredict _ _ q_confs] = Some st1.
Proof. by []. Qed.

(* the caller writes other sites into the array passed as ref_sites: the next kernel matrix is the
   old one *)
Theorem C51_alias_refuted :
  exists st r st', [/\ run q_big (init_learner q_eps) [:: OpSetRefs _ _ (q_refs ord0); OpPredict _ _ q_confs] = Some st,
    set_kernel_mat q_big (caller_writes_refs st r) q_confs = Some st' &
    K_matrix st' <> scratch q_eps r q_confs].
Proof.
exists st1, (q_refs (lift ord0 ord0)), (caller_writes_refs st1 (q_refs (lift ord0 ord0))); split=> //.
  by rewrite /set_kernel_mat /= eqxx.
rewrite /K_matrix [K_per_sym _]/= /scratch /= => -[].
move/ffunP/(_ (ord0, ord0)); rewrite !ffunE !big_seq1 !ffunE !eqI1 ?ffunE /=.
by rewrite prod_ne0 prod_ne1 !ffunE /= => /eqP; vm_compute.
Qed.

(* an update of epsilon at reference sites set after the last kernel matrix *)
Theorem C51_stale_refuted :
  exists st r v st', [/\ run q_big (init_learner q_eps) [:: OpSetRefs _ _ (q_refs ord0); OpPredict _ _ q_confs] = Some st,
    set_kernel_mat q_big (write_ref_sites (set_ref_sites st r) v) q_confs = Some st' &
    K_matrix st' <> scratch (epsilon (write_ref_sites (set_ref_sites st r) v)) r q_confs].
Proof.
pose r1 := q_refs (lift ord0 ord0); pose v : {ffun 'I_1 * 'I_1 -> Q} := [ffun => 5%:R].
pose st2 := write_ref_sites (set_ref_sites st1 r1) v.
have Hr : (q_refs ord0 == r1) = false by apply/eqP => /ffunP/(_ ord0); rewrite !ffunE.
pose sp2 := update_site_prod_fast q_big (epsilon st2) r1 (q_refs ord0) q_confs sp0.
exists st1, r1, v, (Learner (epsilon st2) (Some r1) (Some q_confs) (Some sp2) r1 (Some (kernel_mat_inner sp2 q_confs r1))).
split=> //.
  by rewrite /set_kernel_mat /= Hr /=.
rewrite /K_matrix [K_per_sym _]/= /scratch /= => -[].
move/ffunP/(_ (ord0, ord0)); rewrite !ffunE !big_seq1 !ffunE !eqI1 ?ffunE /=.
rewrite ?prod_ne0 ?prod_ne1 !ffunE /= ?ffunE /=.
by move/eqP; vm_compute.
Qed.
End Refuted.

Example C51_example :
  scratch q_eps (q_refs ord0) q_confs = [:: [ffun => 3%:R]] /\
  log_amplitude q_eps [:: [tuple ord0; ord0]] = 6%:R.
Proof.
split.
  congr [:: _]; apply/ffunP => wd; rewrite !ffunE big_seq1 eqI1.
  by rewrite prod_ne0 !ffunE.
rewrite /log_amplitude big_seq1 big_ord_recl big_ord0 !big_ord_recl big_ord0 !ffunE /=.
by apply/eqP; vm_compute.
Qed.
