(* C35: fast update of the CPD backflow. *)
From Verif Require Import Base Fock_Spec Occ_Model Occ_Spec AbInitioOtf_Model Elec_Model Update_Proto CPD_Model.
Local Open Scope ring_scope.

Section Props.
Variables (F : fieldType) (M L nu nd : nat) (fm restricted : bool) (eps : nat -> nat -> nat -> nat -> nat -> F).
Notation full := (cpd_full M L nu nd fm restricted eps None).
Notation fast := (cpd_fast M L nu nd fm restricted eps).

(* the factors divided out do not vanish *)
Definition nonvanishing (x : seq nat) : Prop := forall a b m k, (k < size x)%N -> eps a b (nth 0%N x k) m k != 0.
(* cache c holds the products of configuration x *)
Definition cache_of (x : seq nat) (c : cpd_cache F) : Prop :=
  cp_config c = x /\ forall a b m, cp_prods c a b m = \prod_(k < size x) eps a b (nth 0%N x k) m k.
(* changed sites occur once in the update list *)
Definition changes_once (x y sites : seq nat) : Prop := forall j, count_mem j sites != 1%N -> nth 0%N y j = nth 0%N x j.

Lemma cpd_det_ext orb orb' n : (forall a b, orb a b = orb' a b) -> cpd_det L nu nd fm restricted orb n = cpd_det L nu nd fm restricted orb' n :> F.
Proof.
move=> E; rewrite /cpd_det; case: fm; last by congr (\det _); apply/matrixP => i j; rewrite !mxE E.
by congr (_ * _); congr (\det _); apply/matrixP => i j; rewrite !mxE E.
Qed.

Lemma fast_step x y sites occs c : denotes x y sites occs -> changes_once x y sites -> nonvanishing x -> cache_of x c ->
  cache_of y (fast c occs sites).2 /\ (fast c occs sites).1 = (full y).1.
Proof.
move=> Hd Ho Hn [Ec Ep]; have Ey : cpd_update_config x sites occs = y by exact: denotes_write Hd.
have [Hs _ Ha _ _] := Hd.
have Hd2 := denotes_once Hs Ha Ho.
have E a b m : cpd_with_cache eps (cp_prods c) [seq nth 0%N y i | i <- sites] [seq nth 0%N x i | i <- sites] sites a b m
    = \prod_(k < size y) eps a b (nth 0%N y k) m k.
  rewrite /cpd_with_cache Ep Hs (prod_proto (W := fun o k => eps a b o m k) Hd2) => [|k Hk]; last exact: Hn.
  congr (_ / _ * _); have -> : zip [seq nth 0%N x i | i <- sites] sites = [seq (nth 0%N x i, i) | i <- sites].
    by elim: (sites) => [//|s l IH] /=; rewrite IH.
  by rewrite big_map.
rewrite /cpd_fast Ec Ey; split; first by split.
by apply: cpd_det_ext => a b; apply: eq_bigr => m _; rewrite E.
Qed.

(* The cached products, configuration and returned value after an update list whose changed
   sites occur once are those of the updated configuration. *)
Theorem C35_cpd_fast_update_partial x y sites occs : denotes x y sites occs -> changes_once x y sites -> nonvanishing x ->
  let r := fast (full x).2 occs sites in
  [/\ r.1 = (full y).1, cp_config r.2 = y & forall a b m, cp_prods r.2 a b m = \prod_(k < size y) eps a b (nth 0%N y k) m k].
Proof.
move=> Hd Ho Hn r; have Hc : cache_of x (full x).2 by [].
by have [[H1 H2] H3] := fast_step Hd Ho Hn Hc.
Qed.

(* any number of cached updates *)
Fixpoint chain_ok (x : seq nat) (us : seq (seq nat * (seq nat * seq nat))) : Prop :=
  if us is u :: us' then [/\ nonvanishing x, denotes x u.1 u.2.1 u.2.2, changes_once x u.1 u.2.1 & chain_ok u.1 us'] else True.
Theorem C35_cpd_update_chain_partial x us y sites occs : chain_ok x (rcons us (y, (sites, occs))) ->
  (fast (foldl (fun c u => (fast c u.2.2 u.2.1).2) (full x).2 us) occs sites).1 = (full y).1.
Proof.
have H : forall us x c, cache_of x c -> chain_ok x (rcons us (y, (sites, occs))) ->
    (fast (foldl (fun c u => (fast c u.2.2 u.2.1).2) c us) occs sites).1 = (full y).1.
  elim=> [|[z [ss os]] l IH] x0 c Hc /= [Hn Hd Ho Hl]; first by have [] := fast_step Hd Ho Hn Hc.
  by apply: (IH z) => //; have [] := fast_step Hd Ho Hn Hc.
by move=> Hch; apply: (H us x) => //.
Qed.
End Props.

(* An update list of the ab-initio local energy in which a changed site occurs twice: the up
   electron of site 0 and the down electron of site 1 both move to site 2; the code reads the
   new occupancy of both occurrences from the updated configuration. *)
Theorem C35_repeated_site_refuted : exists (F : fieldType) M L nu nd eps x y sites occs,
  [/\ valid x /\ valid y, denotes x y sites occs, nonvanishing (F := F) eps x &
      (cpd_fast M L nu nd true true eps (cpd_full M L nu nd true true eps None x).2 occs sites).1
      <> (cpd_full M L nu nd true true eps None y).1].
Proof.
exists rat_fieldType, 1%N, 3%N, 1%N, 1%N, (fun a b o m k => if o == 3%N then 2%:R else 1), [:: 1; 2; 0]%N, [:: 0; 0; 3]%N, [:: 0; 2; 1; 2]%N, [:: 0; 3; 0; 0]%N.
split=> //.
- split=> // [[|[|[|[|k]]]]|[|[|[|j]]]] //; by rewrite !nth_default.
- by move=> a b m k _; case: ifP.
- rewrite /cpd_fast /cpd_full /cpd_det /= !det_mx11 !mxE /= /cpd_orbitals !big_ord_recl !big_ord0.
  rewrite /cpd_with_cache /cpd_site_prod /= !big_ord_recl !big_ord0 !big_cons !big_nil /=.
by [].
Qed.

(* a hop of the up electron from site 0 to site 2, two products per orbital *)
Example C35_example : let eps (a b o m k : nat) := if (o == 1%N) && (m == 0%N) then 2%:R else 1 : rat in
  (cpd_fast 2 3 1 1 true true eps (cpd_full 2 3 1 1 true true eps None [:: 1; 2; 0]%N).2 [:: 0; 1]%N [:: 0; 2]%N).1 = 9%:R.
Proof.
move=> eps; have [] := @C35_cpd_fast_update_partial rat_fieldType 2 3 1 1 true true eps [:: 1; 2; 0]%N [:: 0; 2; 1]%N [:: 0; 2]%N [:: 0; 1]%N.
- by split=> // [[|[|k]]|[|[|[|j]]]] //; rewrite !nth_default.
- by case=> [|[|[|j]]] //; rewrite /= !nth_default.
- by move=> a b m k _; rewrite /eps; case: ifP.
move=> -> _ _; rewrite /cpd_full /cpd_det /= !det_mx11 !mxE /= /cpd_orbitals !big_ord_recl !big_ord0.
rewrite /cpd_site_prod /= !big_ord_recl !big_ord0 /=.
by [].
Qed.
Print Assumptions C35_cpd_fast_update_partial.
