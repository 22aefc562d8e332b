(* C48: for both RMSProp-regularised QGTs the matrix-vector product is the product with the dense
   matrix, and the two operators agree. *)
From Verif Require Import Base QGT_Model.
Import Num.Theory Order.TTheory.
Local Open Scope ring_scope.

Section DenseForm.
Variables (C : fieldType) (conj : {rmorphism C -> C}) (sqrt : C -> C) (P : nat).
Hypothesis conjK : involutive conj.

Theorem C48_dense (O : seq (seq 'rV[C]_P)) (shift eps : C) (ema v : 'cV[C]_P) :
  dense_mat_vec conj sqrt O shift eps ema v = dense_to_dense conj sqrt O shift eps ema *m v.
Proof.
apply/matrixP => b j; rewrite (ord1 j) !mxE.
under [RHS]eq_bigr do rewrite mxE mulrDl.
rewrite big_split /=; congr (_ + _).
  under [RHS]eq_bigr do rewrite -mulrA.
  rewrite -mulr_sumr; congr (_ * _).
  under [RHS]eq_bigr do rewrite mulr_suml.
  rewrite exchange_big /=; apply: eq_bigr => rk _.
  under [RHS]eq_bigr do rewrite mulr_suml.
  rewrite exchange_big /= rmorph_sum; apply: eq_bigr => o _.
  rewrite rmorphM conjK mulrC mulr_sumr; apply: eq_bigr => a _.
  by rewrite mulrA.
rewrite (bigD1 b) //= eqxx big1 ?addr0 // => a /negPf Ha.
by rewrite eq_sym Ha mulr0 mul0r.
Qed.
End DenseForm.

Section Linear.
Variables (C : fieldType) (conj : {rmorphism C -> C}) (sqrt : C -> C) (P : nat).
Variable re : {additive C -> C}.
Variables (J : seq (seq 'rV[C]_P)) (shift eps : C) (ema : 'cV[C]_P).

Lemma delta_expand (v : 'cV[C]_P) (b : 'I_P) : v b 0 = \sum_i v i 0 * (delta_mx i 0 : 'cV[C]_P) b 0.
Proof.
rewrite (bigD1 b) //= mxE !eqxx mulr1 big1 ?addr0 // => i Hi.
by rewrite mxE eq_sym (negPf Hi) mulr0.
Qed.
Lemma jvp_expand (j : 'rV[C]_P) (v : 'cV[C]_P) :
  \sum_a j 0 a * v a 0 = \sum_i v i 0 * (\sum_a j 0 a * (delta_mx i 0 : 'cV[C]_P) a 0).
Proof.
under eq_bigr do rewrite (delta_expand v) mulr_sumr.
rewrite exchange_big; apply: eq_bigr => i _; rewrite mulr_sumr; apply: eq_bigr => a _.
by rewrite mulrCA.
Qed.
Lemma w_mean_expand v : w_mean J v = \sum_i v i 0 * w_mean J (delta_mx i 0).
Proof.
rewrite /w_mean; under eq_bigr => rk _.
  rewrite /scaled_w /jvp !big_map; under eq_bigr do rewrite jvp_expand mulr_suml.
  rewrite exchange_big /=; over.
rewrite exchange_big /= mulr_suml; apply: eq_bigr => i _.
rewrite mulrA; congr (_ / _); rewrite mulr_sumr; apply: eq_bigr => rk _.
by rewrite /scaled_w /jvp !big_map mulr_sumr; apply: eq_bigr => j _; rewrite -mulrA.
Qed.
Lemma zip_map_self (A B : Type) (f : A -> B) (s : seq A) : zip (map f s) s = [seq (f x, x) | x <- s].
Proof. by elim: s => //= x s ->. Qed.
Lemma vjpE rk v b : vjp_conj conj re J rk v b =
  conj (re (\sum_(j <- rk) conj ((\sum_a j 0 a * v a 0) * (1 / (size rk * size J)%:R) - w_mean J v) * j 0 b)).
Proof.
rewrite /vjp_conj /centred_w /scaled_w /jvp -!map_comp zip_map_self // big_map.
by [].
Qed.

Lemma otf_linear (v : 'cV[C]_P) (b : 'I_P) :
  (forall i z, re (conj (v i 0) * z) = conj (v i 0) * re z) -> involutive conj ->
  otf_mat_vec conj sqrt re J shift eps ema v b 0 =
  \sum_i v i 0 * otf_mat_vec conj sqrt re J shift eps ema (delta_mx i 0) b 0.
Proof.
move=> Hre HK; rewrite mxE; under [RHS]eq_bigr do rewrite mxE mulrDr.
rewrite big_split /=; congr (_ + _); last first.
  rewrite {1}(delta_expand v b) mulr_sumr; apply: eq_bigr => i _; by rewrite mulrCA.
under [RHS]eq_bigr do rewrite mulrCA.
rewrite -mulr_sumr; congr (_ * _).
under [RHS]eq_bigr do rewrite mulr_sumr.
rewrite exchange_big; apply: eq_bigr => rk _; rewrite vjpE.
under eq_bigr => j _.
  rewrite jvp_expand w_mean_expand mulr_suml -sumrB rmorph_sum mulr_suml; over.
rewrite exchange_big /= raddf_sum rmorph_sum; apply: eq_bigr => i _.
rewrite vjpE -[v i 0 in RHS]HK -rmorphM -Hre mulr_sumr; congr (conj (re _)); apply: eq_bigr => j _.
by rewrite -[v i 0 * _ * _]mulrA -mulrBr rmorphM mulrA.
Qed.
End Linear.

(* complex parameters (mode "holomorphic"): the transposed array of columns *)
Theorem C48_onthefly_complex (C : fieldType) (conj : {rmorphism C -> C}) (sqrt : C -> C) (P : nat)
    (J : seq (seq 'rV[C]_P)) (shift eps : C) (ema v : 'cV[C]_P) :
  involutive conj ->
  otf_mat_vec conj sqrt id J shift eps ema v = otf_to_dense conj sqrt id J shift eps ema true *m v.
Proof.
move=> HK; apply/matrixP => b j; rewrite (ord1 j) (@otf_linear _ conj sqrt _ [additive of idfun]) //.
rewrite [RHS]mxE; apply: eq_bigr => i _; by rewrite [in RHS]mxE [in RHS]mxE mulrC.
Qed.

(* real parameters: the array of rows is not transposed, but symmetric *)
Section Real.
Variables (C : numFieldType) (conj : {rmorphism C -> C}) (sqrt : C -> C) (P : nat).
Hypothesis conjK : involutive conj.
Variable re : {additive C -> C}.
Hypothesis re_scalar : forall x z, conj x = x -> re (x * z) = x * re z.
Hypothesis re_real : forall z, conj (re z) = re z.
Hypothesis re_conj : forall z, re (conj z) = re z.
Variables (J : seq (seq 'rV[C]_P)) (shift eps : C) (ema : 'cV[C]_P) (n : nat).
Hypothesis Hn : all (fun rk => size rk == n) J.
Let N : C := (n * size J)%:R.
Let rows := flatten J.
Definition J_mean (a : 'I_P) : C := (\sum_(j <- rows) j 0 a) / N.

Lemma size_rows : (\sum_(rk <- J) size rk)%N = (n * size J)%N.
Proof.
elim: J Hn => [|rk l IH] /=; first by rewrite big_nil muln0.
by move=> /andP[/eqP H1 H2]; rewrite big_cons IH // H1 mulnS.
Qed.
Lemma big_rows (V : zmodType) (F : 'rV[C]_P -> V) : \sum_(j <- rows) F j = \sum_(rk <- J) \sum_(j <- rk) F j.
Proof. by rewrite /rows; elim: J => [|rk l IH] /=; rewrite ?big_nil // big_cat big_cons IH. Qed.
Lemma big_ranks (V : zmodType) (F G : seq 'rV[C]_P -> V) :
  (forall rk, size rk = n -> F rk = G rk) -> \sum_(rk <- J) F rk = \sum_(rk <- J) G rk.
Proof.
move=> H; elim: J Hn => [|rk l IH] /=; first by rewrite !big_nil.
by move=> /andP[/eqP /H H1 /IH H2]; rewrite !big_cons H1 H2.
Qed.
Lemma N_count : N = (size rows)%:R.
Proof. by rewrite /N -size_rows /rows size_flatten /shape sumnE big_map. Qed.

Lemma w_meanE v : w_mean J v = (\sum_a J_mean a * v a 0) / N.
Proof.
rewrite /w_mean size_rows -/N; congr (_ / _).
under [RHS]eq_bigr do rewrite /J_mean mulrAC mulr_suml.
rewrite -mulr_suml exchange_big /= mulr_suml big_rows.
apply: big_ranks => rk Hrk; rewrite /scaled_w /jvp !big_map; apply: eq_bigr => j _.
by rewrite Hrk -/N mul1r.
Qed.

(* the centred form *)
Lemma otf_centred (v : 'cV[C]_P) (b : 'I_P) : (forall i, conj (v i 0) = v i 0) ->
  \sum_(rk <- J) vjp_conj conj re J rk v b =
  re (\sum_(j <- rows) conj (\sum_a (j 0 a - J_mean a) * v a 0) * (j 0 b - J_mean b)) / N.
Proof.
move=> Hv; have HNc : conj N^-1 = N^-1 by rewrite fmorphV rmorph_nat.
transitivity (re (\sum_(j <- rows) conj (\sum_a (j 0 a - J_mean a) * v a 0) * j 0 b) / N).
  rewrite [RHS]mulrC -re_scalar // mulr_sumr raddf_sum big_rows.
  apply: big_ranks => rk Hrk; rewrite vjpE re_real raddf_sum; apply: eq_bigr => j _.
  congr (re _); rewrite Hrk -/N w_meanE mul1r -mulrBl -sumrB.
  under eq_bigr do rewrite -mulrBl.
  by rewrite rmorphM HNc (mulrC _ N^-1) mulrA.
congr (re _ / _).
under [RHS]eq_bigr do rewrite mulrBr.
rewrite sumrB -mulr_suml.
suff -> : \sum_(j <- rows) conj (\sum_a (j 0 a - J_mean a) * v a 0) = 0 by rewrite mul0r subr0.
rewrite -rmorph_sum exchange_big /= big1 ?rmorph0 // => a _; rewrite -mulr_suml sumrB.
rewrite big_const_seq count_predT iter_addr_0 -mulr_natr -N_count /J_mean.
case: (eqVneq N 0) => [HN|HN]; last by rewrite mulfVK // subrr mul0r.
move: N_count; rewrite HN => /esym/eqP; rewrite pnatr_eq0 => /eqP/size0nil ->.
by rewrite big_nil mul0r mulr0 subr0 mul0r.
Qed.

Lemma delta_real i k : conj ((delta_mx i 0 : 'cV[C]_P) k 0) = (delta_mx i 0 : 'cV[C]_P) k 0.
Proof. by rewrite mxE rmorph_nat. Qed.

Lemma otf_symmetric i b : otf_mat_vec conj sqrt re J shift eps ema (delta_mx i 0) b 0 =
                          otf_mat_vec conj sqrt re J shift eps ema (delta_mx b 0) i 0.
Proof.
rewrite !mxE; congr (_ * _ + _); last first.
  rewrite !eqxx !andbT eq_sym; case: eqP => [->|_] //; by rewrite !mulr0.
rewrite !otf_centred; try exact: delta_real.
congr (_ / _).
have E k (j : 'rV[C]_P) : \sum_a (j 0 a - J_mean a) * (delta_mx k 0 : 'cV[C]_P) a 0 = j 0 k - J_mean k.
  rewrite (bigD1 k) //= mxE !eqxx mulr1 big1 ?addr0 // => a Ha.
  by rewrite mxE (negPf Ha) mulr0.
under eq_bigr do rewrite E.
under [in RHS]eq_bigr do rewrite E.
rewrite -re_conj rmorph_sum; congr (re _); apply: eq_bigr => j _.
by rewrite rmorphM conjK mulrC.
Qed.

Theorem C48_onthefly_real (v : 'cV[C]_P) : (forall i, conj (v i 0) = v i 0) ->
  otf_mat_vec conj sqrt re J shift eps ema v = otf_to_dense conj sqrt re J shift eps ema false *m v.
Proof.
move=> Hv; apply/matrixP => b j; rewrite (ord1 j) otf_linear //; last first.
  by move=> i z; rewrite re_scalar // !Hv.
rewrite [RHS]mxE; apply: eq_bigr => i _; by rewrite [in RHS]mxE otf_symmetric mulrC.
Qed.
End Real.

(* Real parameters, complex amplitudes: the on-the-fly operator and the dense operator built from
   the centred jacobian over sqrt(N) (real and imaginary rows) are the same map on real vectors *)
Section Same.
Variables (C : numClosedFieldType) (sqrt : C -> C) (P : nat).
Variables (J : seq (seq 'rV[C]_P)) (shift eps : C) (ema : 'cV[C]_P) (n : nat).
Hypothesis Hn : all (fun rk => size rk == n) J.
Let N : C := (n * size J)%:R.
Definition re_im_rows : seq (seq 'rV[C]_P) :=
  [seq flatten [seq [:: \row_a ('Re ((j : 'rV[C]_P) 0 a - J_mean J n a) / sqrtC N);
                        \row_a ('Im (j 0 a - J_mean J n a) / sqrtC N)] | j <- rk] | rk <- J].

Lemma Re_scalar (x z : C) : conjC x = x -> 'Re (x * z) = x * 'Re z.
Proof. by move/CrealP => Hx; rewrite ReMl. Qed.
Lemma Re_real (z : C) : conjC ('Re z) = 'Re z.
Proof. by apply/CrealP; rewrite Creal_Re. Qed.
Lemma Re_conj_mul (x y : C) : 'Re (conjC x * y) = 'Re x * 'Re y + 'Im x * 'Im y.
Proof. by rewrite ReM Re_conj Im_conj mulNr opprK. Qed.

Theorem C48_same (v : 'cV[C]_P) : (forall i, conjC (v i 0) = v i 0) ->
  otf_mat_vec conjC sqrt (fun z => 'Re z) J shift eps ema v = dense_mat_vec conjC sqrt re_im_rows shift eps ema v.
Proof.
move=> Hv; apply/matrixP => b k; rewrite (ord1 k) !mxE; congr (_ * _ + _).
have Hvr i : v i 0 \is Num.real by apply/CrealP.
rewrite (@otf_centred C [rmorphism of @conjC C] P [additive of @Re C] Re_scalar Re_real J n Hn v b Hv).
have Hr : sqrtC N \is Num.real by rewrite ger0_real // sqrtC_ge0 ler0n.
have Hri : (sqrtC N)^-1 \is Num.real by rewrite realV.
rewrite -/N [re in re _]/= big_rows raddf_sum mulr_suml /re_im_rows big_map; apply: eq_bigr => rk _.
rewrite raddf_sum mulr_suml.
have E (l : seq 'rV[C]_P) : \sum_(o <- flatten [seq [:: \row_a ('Re ((j : 'rV[C]_P) 0 a - J_mean J n a) / sqrtC N);
       \row_a ('Im (j 0 a - J_mean J n a) / sqrtC N)] | j <- l]) conjC (\sum_a o 0 a * v a 0) * o 0 b =
   \sum_(j <- l) 'Re (conjC (\sum_a (j 0 a - J_mean J n a) * v a 0) * (j 0 b - J_mean J n b)) / N.
  elim: l => [|j l IH] /=; first by rewrite !big_nil.
  rewrite !big_cons IH addrA; congr (_ + _); rewrite !mxE Re_conj_mul mulrDl.
  have -> : N^-1 = (sqrtC N)^-1 * (sqrtC N)^-1 :> C by rewrite -invfM -expr2 sqrtCK.
  congr (_ + _).
    rewrite [RHS]mulrACA; congr (_ * _).
    rewrite [in RHS]raddf_sum mulr_suml rmorph_sum; apply: eq_bigr => a _; rewrite !mxE /= ReMr // [RHS]mulrAC.
    by apply/CrealP; rewrite !rpredM ?Creal_Re.
  rewrite [RHS]mulrACA; congr (_ * _).
  rewrite [in RHS]raddf_sum mulr_suml rmorph_sum; apply: eq_bigr => a _; rewrite !mxE /= ImMr // [RHS]mulrAC.
  by apply/CrealP; rewrite !rpredM ?Creal_Im.
rewrite E rmorph_sum; apply: eq_bigr => j _; apply/esym/CrealP.
by rewrite rpredM ?Creal_Re // realV realn.
Qed.
End Same.

(* samples with derivatives 1, 3, 1, 3: variance 1, both operators give
   (1 - 1/2) * 1 * 2 + 1/2 * (ema + eps) * 2 with ema = 2, eps = 1 and sqrt replaced by the identity *)
Example C48_example (r := fun x : rat => const_mx x : 'rV[rat]_1) (c := fun x : rat => const_mx x : 'cV[rat]_1) :
  let O := [:: [:: r (-1 / 2%:R); r (1 / 2%:R)]; [:: r (-1 / 2%:R); r (1 / 2%:R)]] in
  let J := [:: [:: r 1; r 3%:R]; [:: r 1; r 3%:R]] in
  (otf_mat_vec idfun idfun idfun J (1 / 2%:R) 1
    (c 2%:R) (c 2%:R) 0 0 = 4%:R) /\
  (dense_mat_vec idfun idfun O (1 / 2%:R) 1 (c 2%:R) (c 2%:R) 0 0 = 4%:R).
Proof.
rewrite /=; split.
  rewrite /otf_mat_vec mxE /vjp_conj /centred_w /scaled_w /jvp /w_mean /= !big_cons !big_nil.
  rewrite /scaled_w /jvp /= ?big_cons ?big_nil !big_ord_recl !big_ord0 !mxE.
  by rewrite /=; apply/eqP; vm_compute.
rewrite /dense_mat_vec mxE /= !big_cons !big_nil !big_ord_recl !big_ord0 !mxE /=.
by apply/eqP; vm_compute.
Qed.
