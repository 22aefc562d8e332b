(* GPSKet/supervised/supervised_qgps.py: the regularisation strengths, QGPSLearning.alpha_mat_ref_sites
   (L110-135), its index arrays feature_ids (L86-89) and _ref_sites_incr_dim (L104-108), and the layout
   of the weight vector (L472-482, L251-252, L1132-1136).  C55 and C69. *)
From Verif Require Import Base.

Section Layout.
Variables (R S : Type) (D M : nat) (x0 : R) (s0 : S).
Notation N := (M * D)%N.
(* [expand]: complex_expand and a complex epsilon; [bias]: include_bias *)
Variables (expand bias : bool).

(* np.tile(ref_sites, (D, 1)).T.flatten(): every site D times; tiled twice with expand (L104-108) *)
Definition incr_dim (refs : seq S) : seq S :=
  let r := flatten [seq nseq D s | s <- refs] in if expand then r ++ r else r.
(* L86-89 *)
Definition feature_ids : seq nat := iota 0 (if expand then 2 * N else N)%N.

(* the getter L110-118: alpha_mat[incr_dim, feature_ids], then alpha_bias (one entry, two with expand) *)
Definition alpha_get (alpha_mat : S -> nat -> R) (refs : seq S) (alpha_bias : seq R) : seq R :=
  [seq alpha_mat p.1 p.2 | p <- zip (incr_dim refs) feature_ids] ++ (if bias then alpha_bias else [::]).

(* --- the weights: entries (w, d) at w * D + d, then the bias (the column of ones of K); with expand the
   real parts of all of these, then the imaginary parts *)
Definition weight_index (im : bool) (w d : nat) : nat := im * (N + bias) + (w * D + d).
Definition bias_index (im : bool) : nat := im * (N + bias) + N.
End Layout.

Section C55.
Variables (R S : Type) (D M : nat) (x0 : R) (s0 : S).
Notation N := (M * D)%N.
Variables (alpha_mat : S -> nat -> R) (refs : seq S) (alpha_bias : seq R).
Hypothesis refs_size : size refs = M.

Lemma size_flat (r : seq S) : size (flatten [seq nseq D s | s <- r]) = (size r * D)%N.
Proof. by elim: r => //= s r IH; rewrite size_cat size_nseq IH mulSn. Qed.
Lemma nth_flat (r : seq S) w d : (w < size r)%N -> (d < D)%N ->
  nth s0 (flatten [seq nseq D s | s <- r]) (w * D + d) = nth s0 r w.
Proof.
elim: r w => [|s r IH] [|w] //= Hw Hd; rewrite nth_cat size_nseq.
  by rewrite mul0n add0n Hd nth_nseq Hd.
by rewrite ltnNge mulSn -addnA leq_addr /= addKn IH.
Qed.

(* the alpha meant for the real or imaginary part of (w, d): column im * N + w * D + d of alpha_mat at
   the reference site of w *)
Definition intended (im : bool) w d : R := alpha_mat (nth s0 refs w) (im * N + (w * D + d)).

Lemma idx_lt w d : (w < M)%N -> (d < D)%N -> (w * D + d < N)%N.
Proof.
move=> Hw Hd; apply: (@leq_trans (w.+1 * D)); last by rewrite leq_mul2r Hw orbT.
by rewrite mulSn addnC ltn_add2r.
Qed.

Lemma alpha_get_nth (expand bias im : bool) w d : (im -> expand) -> (w < M)%N -> (d < D)%N ->
  nth x0 (alpha_get D M expand bias alpha_mat refs alpha_bias) (im * N + (w * D + d)) = intended im w d.
Proof.
move=> Him Hw Hd; have Hlt := idx_lt Hw Hd.
have Hs1 : size (incr_dim D expand refs) = (if expand then 2 * N else N)%N.
  by rewrite /incr_dim; case: expand {Him}; rewrite ?size_cat !size_flat refs_size // mul2n addnn.
have Hs : (im * N + (w * D + d) < (if expand then 2 * N else N))%N.
  case: im Him => [->//|_]; first by rewrite mul1n mul2n -addnn ltn_add2l.
  by rewrite mul0n add0n; case: expand {Hs1} => //; rewrite mul2n -addnn ltn_addr.
rewrite /alpha_get nth_cat size_map size_zip Hs1 size_iota minnn Hs.
rewrite (nth_map (s0, 0%N)) ?size_zip ?Hs1 ?size_iota ?minnn //.
rewrite nth_zip ?Hs1 ?size_iota //= nth_iota // add0n /intended; congr (alpha_mat _ _).
rewrite /incr_dim; case: im Him Hs => [->//|_]; last first.
  rewrite mul0n add0n => _; case: expand {Hs1}; last by rewrite nth_flat ?refs_size.
  by rewrite nth_cat size_flat refs_size Hlt nth_flat ?refs_size.
rewrite nth_cat size_flat refs_size mul1n => _; rewrite ltnNge leq_addr /= addKn.
by rewrite nth_flat ?refs_size.
Qed.

(* Without a bias, or without complex_expand, every alpha sits at the index of the weight it belongs to *)
Theorem C55_partial (expand bias im : bool) w d : ~~ (expand && bias) -> (im -> expand) -> (w < M)%N -> (d < D)%N ->
  nth x0 (alpha_get D M expand bias alpha_mat refs alpha_bias) (weight_index D M bias im w d) = intended im w d.
Proof.
move=> Heb Him Hw Hd; rewrite /weight_index -(alpha_get_nth bias Him Hw Hd); congr nth.
case: im Him => [He|_]; last by rewrite !mul0n.
by move: Heb; rewrite He //= => /negPf ->; rewrite addn0.
Qed.
Theorem C55_bias_partial : nth x0 (alpha_get D M false true alpha_mat refs alpha_bias) (bias_index D M true false) = nth x0 alpha_bias 0.
Proof.
rewrite /alpha_get nth_cat size_map size_zip /incr_dim size_flat refs_size size_iota minnn.
by rewrite /bias_index mul0n add0n ltnn subnn.
Qed.

(* With both, the real parts are right but everything behind them is shifted by one: the real part of
   the bias gets the alpha of the first imaginary part, an imaginary part the alpha of the next one, the
   last one that of the real part of the bias *)
Theorem C55_shift :
  let al := alpha_get D M true true alpha_mat refs alpha_bias in
  [/\ forall w d, (w < M)%N -> (d < D)%N -> nth x0 al (weight_index D M true false w d) = intended false w d,
      (0 < M)%N -> (0 < D)%N -> nth x0 al (bias_index D M true false) = intended true 0 0,
      forall k w d, (w < M)%N -> (d < D)%N -> (k.+1 = w * D + d)%N ->
        nth x0 al (N + 1 + k) = intended true w d,
      (0 < N)%N -> nth x0 al (N + 1 + N.-1) = nth x0 alpha_bias 0 &
      nth x0 al (bias_index D M true true) = nth x0 alpha_bias 1].
Proof.
have Hb k : nth x0 (alpha_get D M true true alpha_mat refs alpha_bias) (N + N + k) = nth x0 alpha_bias k.
  rewrite /alpha_get nth_cat size_map size_zip /incr_dim size_cat !size_flat refs_size size_iota mul2n -addnn minnn.
  by rewrite ltnNge leq_addr /= addKn.
split.
- move=> w d Hw Hd; rewrite /weight_index mul0n add0n -[(w * D + d)%N]/(false * N + (w * D + d))%N.
  exact: alpha_get_nth.
- move=> HM HD; rewrite -(@alpha_get_nth true true true 0 0) // /bias_index; congr nth; lia.
- by move=> k w d Hw Hd Hk; rewrite -(@alpha_get_nth true true true w d) // -Hk mul1n -addnA add1n.
- move=> HN; have -> : (N + 1 + N.-1 = N + N + 0)%N by rewrite -addnA add1n prednK // addn0.
  exact: Hb.
rewrite -Hb /bias_index; congr nth; lia.
Qed.
End C55.

Section Setter.
Variables (R : Type) (S : eqType) (D M : nat) (x0 : R) (s0 : S).
Notation N := (M * D)%N.
Variables (expand bias : bool).
Notation nb := (if expand then 2 else 1)%N.
Notation ne := (if expand then 2 * N else N)%N.

(* alpha_mat and alpha_bias; with precomputed features alpha_mat is one-dimensional *)
Record alpha_state := AlphaState { alpha_mat : S -> nat -> R; alpha_flat : seq R; alpha_bias : seq R }.
Variables (precomputed : bool) (refs : seq S).

(* L110-118; [inr]: the array of self.alpha_mat itself (no copy is made without a bias), [inl]: a fresh
   array (fancy indexing and np.concatenate copy) *)
Definition getter (st : alpha_state) : seq R + seq R :=
  if precomputed then
    if bias then inl (alpha_flat st ++ alpha_bias st) else inr (alpha_flat st)
  else inl (alpha_get D M expand bias (alpha_mat st) refs (alpha_bias st)).
Definition getter_val (st : alpha_state) : seq R :=
  match getter st with inl a => a | inr a => a end.

(* L120-135; numpy's alpha_mat[incr_dim, feature_ids] = ... writes entry (incr_dim[k], k) for every k *)
Definition setter (alpha : seq R) (st : alpha_state) : alpha_state :=
  let k := (size alpha - nb)%N in
  let ab := if bias then drop k alpha else alpha_bias st in
  let ae := if bias then take k alpha else alpha in
  if precomputed then AlphaState (alpha_mat st) ae ab
  else AlphaState (fun s i => if (i < ne)%N && (nth s0 (incr_dim D expand refs) i == s)
                              then nth x0 ae i else alpha_mat st s i) (alpha_flat st) ab.

(* np.copyto(self.alpha_mat_ref_sites, alpha_init), L826, L835, L868: the property is read, and the
   values are written into the array it returns *)
Definition copyto_getter (alpha : seq R) (st : alpha_state) : alpha_state :=
  match getter st with
  | inl _ => st
  | inr _ => AlphaState (alpha_mat st) alpha (alpha_bias st)
  end.

Hypothesis refs_size : size refs = M.
Hypothesis refs_pos : (0 < D)%N.

Lemma size_incr : size (incr_dim D expand refs) = ne.
Proof. by rewrite /incr_dim; case: expand; rewrite ?size_cat !size_flat refs_size // mul2n addnn. Qed.

Lemma map_alpha_mat (f : S -> nat -> R) :
  [seq f p.1 p.2 | p <- zip (incr_dim D expand refs) (feature_ids D M expand)] =
  mkseq (fun i => f (nth s0 (incr_dim D expand refs) i) i) ne.
Proof.
apply: (@eq_from_nth _ x0); rewrite size_map size_zip size_incr size_iota minnn ?size_mkseq // => i Hi.
rewrite (nth_map (s0, 0%N)) ?size_zip ?size_incr ?size_iota ?minnn //.
by rewrite nth_zip ?size_incr ?size_iota //= nth_iota // add0n nth_mkseq.
Qed.

(* the values set are the values read back *)
Theorem C55_round_trip alpha st :
  size alpha = ((if precomputed then size (alpha_flat st) else ne) + bias * nb)%N ->
  getter_val (setter alpha st) = alpha.
Proof.
rewrite /getter_val /getter /setter /alpha_get; case: precomputed => Hs.
  by move: Hs; case: bias => //= Hs; rewrite cat_take_drop.
rewrite map_alpha_mat; move: Hs; case: bias => /= Hs.
  rewrite mul1n in Hs; rewrite -[RHS](cat_take_drop (size alpha - nb)); congr (_ ++ _).
  have Hk : (size alpha - nb = ne)%N by rewrite Hs addnK.
  rewrite Hk; apply: (@eq_from_nth _ x0); rewrite size_mkseq ?size_takel ?Hs ?leq_addr // => i Hi.
  by rewrite nth_mkseq // Hi eqxx.
rewrite cats0; rewrite mul0n addn0 in Hs.
apply: (@eq_from_nth _ x0); rewrite size_mkseq ?Hs // => i Hi.
by rewrite nth_mkseq // Hi eqxx.
Qed.

(* the alphas of sites that are not being fitted are left alone *)
Theorem C55_set_frame alpha st s i : s \notin refs -> alpha_mat (setter alpha st) s i = alpha_mat st s i.
Proof.
move=> Hs; rewrite /setter; case: precomputed => //=; case: ifP => // /andP[Hi /eqP Hn].
suff : s \in refs by rewrite (negPf Hs).
have : s \in incr_dim D expand refs by rewrite -Hn mem_nth // size_incr.
rewrite /incr_dim; have Hf : s \in flatten [seq nseq D s' | s' <- refs] -> s \in refs.
  by case/flattenP => l /mapP[s' Hs' ->]; rewrite mem_nseq => /andP[_ /eqP ->].
by case: expand => //; rewrite mem_cat orbb.
Qed.

(* C69: restoring alpha_init before each evaluation *)
Theorem C69_noop alpha st : ~~ (precomputed && ~~ bias) -> copyto_getter alpha st = st.
Proof. by rewrite /copyto_getter /getter; case: precomputed; case: bias. Qed.
Theorem C69_partial alpha st : precomputed -> ~~ bias -> getter_val (copyto_getter alpha st) = alpha.
Proof. by rewrite /getter_val /copyto_getter /getter => -> /negPf ->. Qed.
End Setter.

(* two support indices, two local states, complex_expand and a bias; site s has alpha 10 s + column *)
Section Examples.
Definition ex_alpha (s k : nat) : nat := (100 * s.+1 + k)%N.
Example C55_example :
  alpha_get 2 2 true true ex_alpha [:: 3; 5]%N [:: 7; 8]%N =
  [:: 400; 401; 602; 603; 404; 405; 606; 607; 7; 8]%N.
Proof. by []. Qed.
(* weights: re (0,0) (0,1) (1,0) (1,1), re bias, im (0,0) (0,1) (1,0) (1,1), im bias *)
Theorem C55_refuted :
  exists D M (alpha_mat : nat -> nat -> nat) refs ab w d,
    [/\ size refs = M, (w < M)%N, (d < D)%N &
     nth 0%N (alpha_get D M true true alpha_mat refs ab) (weight_index D M true true w d)
       <> intended D M 0%N alpha_mat refs true w d] /\
     nth 0%N (alpha_get D M true true alpha_mat refs ab) (bias_index D M true false) <> nth 0%N ab 0.
Proof. by exists 2%N, 2%N, ex_alpha, [:: 3; 5]%N, [:: 7; 8]%N, 0%N, 0%N. Qed.
Theorem C69_refuted :
  exists (st : alpha_state nat [eqType of nat]) refs alpha,
    let st' := setter 2 2 0%N 0%N false false false refs [:: 1; 1; 1; 1]%N st in
    [/\ alpha = getter_val 2 2 false false false refs st, st' <> st &
        getter_val 2 2 false false false refs (copyto_getter 2 2 false false false refs alpha st') <> alpha].
Proof.
exists (AlphaState ex_alpha [::] [::]), [:: 3; 5]%N, [:: 400; 401; 602; 603]%N; split=> // H.
by have := congr1 (fun s => alpha_mat s 3%N 0%N) H.
Qed.
End Examples.
