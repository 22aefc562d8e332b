(* C54: the Newton update of QGPSGenLinMod is never applied; C68: a second set-up erases the weights;
   C71: the caller's weightings are modified. *)
From Verif Require Import Base Sup_Glm_Model.
Local Open Scope ring_scope.

Section Glm.
Variable C : ringType.
Variables (cholesky : seq C -> bool) (direction : seq C -> seq C).
Implicit Types (h : heap C) (active : seq bool) (gamma : C) (w : seq C).

Lemma read_alloc h v : read (alloc h v).1 (alloc h v).2 = v.
Proof. by rewrite /read /= nth_rcons ltnn eqxx. Qed.
Lemma read_alloc_old h v a : (a < size h)%N -> read (alloc h v).1 a = read h a.
Proof. by move=> Ha; rewrite /read /= nth_rcons Ha. Qed.
Lemma read_write h a v : read (write h a v) a = v.
Proof. by rewrite /read /write nth_set_nth /= eqxx. Qed.
Lemma read_write_neq h a a' v : a' != a -> read (write h a v) a' = read h a'.
Proof. by move=> Ha; rewrite /read /write nth_set_nth /= (negPf Ha). Qed.

(* entries where the mask is off set to zero *)
Definition zero_inactive active w : seq C := [seq if p.1 then p.2 else 0 | p <- zip active w].

Lemma put_zero active w : size active = size w ->
  put active (nseq (size w) 0) (mask active w) = zero_inactive active w.
Proof. by elim: active w => [|[] m IH] [|x w] //= [Hs]; rewrite IH. Qed.

Lemma zero_no_active active w : size active = size w -> ~~ has id active -> zero_inactive active w = nseq (size w) 0.
Proof. by elim: active w => [|[] m IH] [|x w] //= [Hs] Hh; rewrite /zero_inactive /= -/(zero_inactive m w) IH. Qed.

(* In the first set-up after setup_fit the weights returned are the old ones (zero where inactive),
   whatever the Newton direction and the step length *)
Theorem C54_noop active gamma h w0 : size active = size w0 ->
  let r := newton cholesky direction active gamma h None w0 in
  read r.1 r.2 = zero_inactive active w0.
Proof.
move=> Hs; rewrite /newton /=.
set h1 := rcons h w0.
have R1 : read h1 (size h) = w0 by rewrite /read /h1 nth_rcons ltnn eqxx.
set h2 := (if _ && _ then _ else h1).
have R2 : read h2 (size h) = w0.
  rewrite /h2; case: ifP => // _; rewrite read_write_neq.
    by rewrite -[rcons h1 _]/(alloc h1 _).1 read_alloc_old // size_rcons.
  by rewrite size_rcons neq_ltn ltnSn.
have S2 : (size h < size h2)%N.
  rewrite /h2; case: ifP => _; last by rewrite size_rcons.
  by rewrite /write size_set_nth !size_rcons leq_max ltnS leqnSn.
rewrite R2 /=; set h3 := rcons h2 _.
have R3 : read h3 (size h) = w0 by rewrite -[h3]/(alloc h2 _).1 read_alloc_old.
have R3' : read h3 (size h2) = nseq (size w0) 0 by rewrite /read /h3 nth_rcons ltnn eqxx.
case: ifP => [_|/negbT Ha]; last by rewrite R3' zero_no_active.
by rewrite /bool_assign read_write R3 R3' put_zero.
Qed.

(* hence, with all elements active, a successful decomposition, a step length and a direction whose
   product does not vanish, the result is never the Newton update *)
Theorem C54_lost gamma h w0 : let active := nseq (size w0) true in
  size (direction w0) = size w0 -> cholesky w0 -> vscale gamma (direction w0) != nseq (size w0) 0 ->
  let r := newton cholesky direction active gamma h None w0 in
  read r.1 r.2 <> vadd w0 (vscale gamma (direction w0)).
Proof.
move=> active Hd _ Hne r; rewrite /r C54_noop ?size_nseq //.
have -> : zero_inactive active w0 = w0 by rewrite /active; elim: (w0) => //= x w IH; congr (_ :: _).
move=> E; case/negP: Hne; apply/eqP.
have Hz : size (vscale gamma (direction w0)) = size w0 by rewrite size_map.
elim: w0 (vscale _ _) Hz E {active r Hd} => [|x w IH] [|d ds] //= [Hz] [E1 E2].
by rewrite (IH ds) //; congr (_ :: _); apply: (addrI x); rewrite addr0 -E1.
Qed.

(* C68: called again (from opt_alpha_beta, L449) with self.weights set, the set-up returns zeros *)
Theorem C68_erased active gamma h a w0 : (a < size h)%N -> size active = size (read h a) ->
  let r := newton cholesky direction active gamma h (Some a) w0 in
  read r.1 r.2 = nseq (size active) 0.
Proof.
move=> Ha Hs; rewrite /newton.
set h2 := (if _ && _ then _ else h).
have R2 : read h2 a = read h a.
  rewrite /h2; case: ifP => // _; rewrite read_write_neq ?read_alloc_old //.
  by rewrite neq_ltn Ha.
rewrite R2 -Hs /=; set h3 := write h2 a _.
have R3 : read h3 a = nseq (size active) 0 by rewrite read_write.
case: ifP => [_|//]; rewrite /bool_assign read_write R3 /=.
have -> : mask active (nseq (size active) 0) = nseq (count id active) (0 : C).
  by elim: active {Hs h2 R2 h3 R3} => //= -[] m /= -> .
elim: active {Hs h2 R2 h3 R3} => //= -[] m /= IH; rewrite /= IH //.
Qed.
End Glm.

(* C71: weightings passed by the caller are multiplied in place by |prefactor|^2 *)
Section Weightings.
Variables (C : fieldType) (absq : C -> C).
Theorem C71_modified (h : heap C) t ws prefactor : (ws < size h)%N ->
  let r := setup_arrays absq h t (Some ws) prefactor in
  read r.1 ws = [seq p.1 * absq p.2 | p <- zip (read h ws) prefactor].
Proof.
move=> Hw; rewrite /setup_arrays /= read_write; congr [seq _ | _ <- zip _ _].
rewrite read_write_neq ?neq_ltn ?Hw // -[rcons _ _]/(alloc h (read h t)).1.
exact: read_alloc_old.
Qed.

(* unchanged exactly when the prior mean contributes factors of modulus one, e.g. for prior_mean = 0 *)
Theorem C71_partial (h : heap C) t ws prefactor : (ws < size h)%N -> size prefactor = size (read h ws) ->
  (forall p, p \in prefactor -> absq p = 1) ->
  let r := setup_arrays absq h t (Some ws) prefactor in read r.1 ws = read h ws.
Proof.
move=> Hw Hs Hp r; rewrite /r C71_modified //.
elim: (read h ws) prefactor Hs Hp {r} => [|x w IH] [|p ps] //= [Hs] Hp.
by rewrite (Hp p) ?inE ?eqxx // mulr1 IH // => q Hq; apply: Hp; rewrite inE Hq orbT.
Qed.
End Weightings.

Section Examples.
Let Q := [fieldType of rat].
Definition q_dir (w : seq Q) : seq Q := [seq - (x / 2%:R) | x <- w].
(* two active weights, one inactive *)
Theorem C54_refuted : exists (direction : seq rat -> seq rat) (w0 : seq rat) (gamma : rat),
  let r := newton (C := [ringType of rat]) (fun=> true) direction (nseq (size w0) true) gamma [::] None w0 in
  [/\ size (direction w0) = size w0, gamma != 0, direction w0 != nseq (size w0) 0 &
      read r.1 r.2 <> vadd (C := [ringType of rat]) w0 (vscale (C := [ringType of rat]) gamma (direction w0))].
Proof. by exists (fun=> [:: 1; 2%:R]), [:: 3%:R; 4%:R], 1. Qed.
Example C54_example :
  let r := newton (fun=> true) q_dir [:: true; false; true] 1 [::] None [:: 1; 2%:R; 4%:R] in
  read r.1 r.2 = [:: 1; 0; 4%:R].
Proof. by []. Qed.
(* a second set-up on the result *)
Theorem C68_refuted :
  exists h a, let r := newton (fun=> true) q_dir [:: true; true] 1 h (Some a) [::] in
  read h a = [:: 1; 2%:R] /\ read r.1 r.2 = [:: 0; 0].
Proof. by exists [:: [:: 1; 2%:R]], 0%N. Qed.
(* the weightings of the caller after two fits with the same prior mean: the factor 4 is applied twice *)
Theorem C71_refuted :
  exists (h : heap Q) t ws prefactor,
    let h1 := (setup_arrays (fun x => x * x) h t (Some ws) prefactor).1 in
    let h2 := (setup_arrays (fun x => x * x) h1 t (Some ws) prefactor).1 in
    [/\ read h ws = [:: 1], read h1 ws = [:: 4%:R] & read h2 ws = [:: 16%:R]].
Proof.
exists [:: [:: 3%:R]; [:: 1]], 0%N, 1%N, [:: 2%:R]; split=> //; rewrite /read /=; congr [:: _]; apply/eqP; by vm_compute.
Qed.
End Examples.
