(* C42: the convolutions are causal for odd kernel sizes *)
From Verif Require Import Base Causal_Model.
Local Open Scope ring_scope.

Section C42.
Variable F : comRingType.
Notation image := (image F).

(* agreement of two images on a set of pixels *)
Definition agree (P : nat -> nat -> Prop) (x y : image) : Prop := forall r c ch, P r c -> x r c ch = y r c ch.
(* pixels before (r, c) in the raster order; rows above r (or r itself); earlier in the row *)
Definition before (r c r' c' : nat) : Prop := (r' < r)%N \/ r' = r /\ (c' < c)%N.

Lemma tap_odd size k d r a r' : odd k -> tap size k d r a = Some r' -> (r' + k %/ 2 * d = r + a * d)%N.
Proof.
move=> Hk; rewrite /tap /pad_low.
have E : (k = (k %/ 2).*2.+1)%N by rewrite -[LHS]odd_double_half Hk divn2 add1n.
have -> : ((k - 1) * d %/ 2 = k %/ 2 * d)%N.
  by rewrite {1}E subn1 /= -muln2 -mulnA [(2 * d)%N]mulnC mulnA mulnK.
by case: ifP => // /andP[H _] [<-]; rewrite subnK.
Qed.

Lemma tap_le size k d r a r' : odd k -> (a <= k %/ 2)%N -> tap size k d r a = Some r' -> (r' <= r)%N.
Proof.
move=> Hk Ha /(tap_odd Hk) E; rewrite -(leq_add2r (k %/ 2 * d)) E leq_add2l leq_mul2r Ha orbT //.
Qed.
Lemma tap_lt size k d r a r' : odd k -> (0 < d)%N -> (a < k %/ 2)%N -> tap size k d r a = Some r' -> (r' < r)%N.
Proof.
move=> Hk Hd Ha /(tap_odd Hk) E; rewrite -(ltn_add2r (k %/ 2 * d)) E ltn_add2l ltn_mul2r Hd Ha //.
Qed.
(* taps left by the masks *)
Lemma mask_tap size k d r a r' (mc : bool) : odd k -> (0 < d)%N ->
  (if (k %/ 2 + 1 <= a)%N then 0 else if mc && (a == k %/ 2)%N then 0 else 1 : F) <> 0 ->
  tap size k d r a = Some r' -> if mc then (r' < r)%N else (r' <= r)%N.
Proof.
move=> Hk Hd; case: (leqP (k %/ 2 + 1) a) => // Ha M Er.
have Ha' : (a <= k %/ 2)%N by move: Ha; rewrite addn1 ltnS.
case: mc M => M; last exact: (tap_le Hk Ha' Er).
apply: (tap_lt Hk Hd _ Er); rewrite ltn_neqAle Ha' andbT; apply/negP => /eqP E.
by apply: M; rewrite E eqxx.
Qed.
(* a single tap reads its own position *)
Lemma tap1 size d r r' : tap size 1 d r 0 = Some r' -> r' = r.
Proof. by move/(tap_odd (isT : odd 1)); rewrite divn_small // !mul0n !addn0. Qed.

Lemma conv_agree H W kh kw d cin mask w bias (x y : image) r c o :
  (forall a b r' c' ch, (a < kh)%N -> (b < kw)%N -> mask a b <> 0 -> tap H kh d r a = Some r' -> tap W kw d c b = Some c' ->
     x r' c' ch = y r' c' ch) ->
  conv H W kh kw d cin mask w bias x r c o = conv H W kh kw d cin mask w bias y r c o.
Proof.
move=> E; congr (_ + _); apply: eq_big_nat => a /andP[_ Ha]; apply: eq_big_nat => b /andP[_ Hb]; apply: eq_bigr => ch _.
have [M|/eqP M] := altP (mask a b =P 0); first by rewrite M !mulr0.
case Er: (tap H kh d r a) => [r'|//]; case Ec: (tap W kw d c b) => [c'|//].
by rewrite (E a b r' c').
Qed.

(* vertical stack: rows above (masked centre) or up to the own row *)
Theorem C42_vertical_partial H W k d cin mc w bias (x y : image) r c o : odd k -> (0 < d)%N ->
  agree (fun r' _ => if mc then (r' < r)%N else (r' <= r)%N) x y ->
  vertical_stack H W k d cin mc w bias x r c o = vertical_stack H W k d cin mc w bias y r c o.
Proof.
move=> Hk Hd E; apply: conv_agree => a b r' c' ch Ha Hb M Er Ec; apply: E.
exact: (mask_tap Hk Hd M Er).
Qed.

(* horizontal stack: earlier columns (masked centre) or up to the own column, same row *)
Theorem C42_horizontal_partial H W k d cin mc w bias (x y : image) r c o : odd k -> (0 < d)%N ->
  agree (fun r' c' => r' = r /\ if mc then (c' < c)%N else (c' <= c)%N) x y ->
  horizontal_stack H W k d cin mc w bias x r c o = horizontal_stack H W k d cin mc w bias y r c o.
Proof.
move=> Hk Hd E; apply: conv_agree => a b r' c' ch Ha Hb M Er Ec; apply: E; split.
  by move: Er; case: a Ha M => [|//] _ _; apply: tap1.
exact: (mask_tap Hk Hd M Ec).
Qed.

(* only pixels of the image are read *)
Lemma tap_size size k d r a r' : tap size k d r a = Some r' -> (r' < size)%N.
Proof. by rewrite /tap; case: ifP => // /andP[_ H] [<-]. Qed.
Lemma conv_ext H W kh kw d cin mask w bias (x y : image) r c o :
  (forall r' c' ch, (r' < H)%N -> (c' < W)%N -> x r' c' ch = y r' c' ch) ->
  conv H W kh kw d cin mask w bias x r c o = conv H W kh kw d cin mask w bias y r c o.
Proof.
by move=> E; apply: conv_agree => a b r' c' ch _ _ _ /tap_size Hr /tap_size Hc; apply: E.
Qed.

Lemma conv_1x1_agree H W cin w bias (x y : image) r c o : (forall ch, x r c ch = y r c ch) ->
  conv_1x1 H W cin w bias x r c o = conv_1x1 H W cin w bias y r c o.
Proof.
move=> E; apply: conv_agree => a b r' c' ch Ha Hb _ Er Ec.
case: a Ha Er => // _ /tap1 ->; case: b Hb Ec => // _ /tap1 ->; exact: E.
Qed.

(* a layer: if the vertical stack depends on rows above only and the horizontal stack on earlier
   pixels only, so do the outputs *)
Definition v_ok (v v' : image) (x y : image) : Prop :=
  forall r, agree (fun r' _ => (r' < r)%N) x y -> forall c o, v r c o = v' r c o.
Definition h_ok (h h' : image) (x y : image) : Prop :=
  forall r c, agree (before r c) x y -> forall o, h r c o = h' r c o.

Lemma agree_rows r r' (x y : image) : (r' <= r)%N -> agree (fun s _ => (s < r)%N) x y -> agree (fun s _ => (s < r')%N) x y.
Proof. by move=> Hr E s c ch Hs; apply: E; apply: leq_trans Hr. Qed.
Lemma before_rows r c (x y : image) : agree (before r c) x y -> agree (fun s _ => (s < r)%N) x y.
Proof. by move=> E s c' ch Hs; apply: E; left. Qed.
Lemma before_cols r c c' (x y : image) : (c' <= c)%N -> agree (before r c) x y -> agree (before r c') x y.
Proof.
move=> Hc E s c'' ch [Hs|[-> Hs]]; apply: E; [by left|right; split=> //]; exact: leq_trans Hc.
Qed.

Theorem C42_layer_partial H W k n act l (v v' h h' x y : image) : odd k ->
  v_ok v v' x y -> h_ok h h' x y ->
  v_ok (causal_layer H W k n act l (v, h)).1 (causal_layer H W k n act l (v', h')).1 x y /\
  h_ok (causal_layer H W k n act l (v, h)).2 (causal_layer H W k n act l (v', h')).2 x y.
Proof.
move=> Hk Hv Hh.
have V r : agree (fun r' _ => (r' < r)%N) x y -> forall c o,
    vertical_stack H W k 1 n false (ly_v l) (ly_vb l) v r c o = vertical_stack H W k 1 n false (ly_v l) (ly_vb l) v' r c o.
  move=> E c o; apply: C42_vertical_partial => // r' c' ch Hr; apply: Hv; exact: (agree_rows Hr).
split=> [r E c o|r c E o] /=; first by rewrite V.
rewrite (Hh r c E o); congr (_ + _); apply: conv_1x1_agree => ch; congr act; congr (_ + _).
  apply: C42_horizontal_partial => // r' c' ch' [-> Hc]; apply: Hh; exact: before_cols E.
apply: conv_1x1_agree => ch'; apply: V; exact: before_rows E.
Qed.

Lemma layers_ok L k n act (layers : seq (layer F)) (x y : image) (vh vh' : image * image) : odd k ->
  v_ok vh.1 vh'.1 x y -> h_ok vh.2 vh'.2 x y ->
  h_ok (foldl (fun vh l => causal_layer L L k n act l vh) vh layers).2
       (foldl (fun vh l => causal_layer L L k n act l vh) vh' layers).2 x y.
Proof.
move=> Hk; elim: layers vh vh' => [//|l ls IH] [v h] [v' h'] Hv Hh; rewrite [foldl _ _ (l :: ls)]/=.
have [A B] := C42_layer_partial L L n act l Hk Hv Hh.
by rewrite /=; apply: IH.
Qed.

(* the whole network: the conditional of site i depends on the sites before i only *)
Theorem C42_pixelcnn_partial L k n act wv bv wh bh (layers : seq (layer F)) wf bf normal (s t : nat -> F) i o :
  odd k -> (0 < L)%N ->
  (forall f g : nat -> F, (forall j, f j = g j) -> forall j, normal f j = normal g j) ->
  (forall j, (j < i)%N -> s j = t j) ->
  pixelcnn L k n act wv bv wh bh layers wf bf normal s i o = pixelcnn L k n act wv bv wh bh layers wf bf normal t i o.
Proof.
move=> Hk HL Hn E; rewrite /pixelcnn; apply: Hn => j.
pose img (u : nat -> F) : image := fun r c _ => if (c < L)%N then u (r * L + c)%N else 0.
have Hi (u : nat -> F) r' c' (ch : nat) : (r' < L)%N -> (c' < L)%N -> u (r' * L + c')%N = img u r' c' ch.
  by move=> _ Hc; rewrite /img Hc.
apply: conv_1x1_agree => ch; congr act.
apply: (@layers_ok L k n act layers (img s) (img t)) => //.
- move=> r A c o' /=.
  apply: etrans; first by apply: conv_ext; exact: (Hi s).
  apply: etrans; last by apply: esym; apply: conv_ext; exact: (Hi t).
  exact: C42_vertical_partial.
- move=> r c A o' /=.
  apply: etrans; first by apply: conv_ext; exact: (Hi s).
  apply: etrans; last by apply: esym; apply: conv_ext; exact: (Hi t).
  apply: C42_horizontal_partial => // r' c' ch' [-> Hc]; apply: A; right; by split.
move=> r c ch' Hb; rewrite /img; case: ifP => // Hc; apply: E; rewrite (divn_eq i L).
case: Hb => [Hr|[-> Hc']]; last by rewrite ltn_add2l.
apply: (@leq_trans (r.+1 * L)%N); first by rewrite mulSn [(L + _)%N]addnC ltn_add2l.
by apply: leq_trans (leq_addr _ _); rewrite leq_mul2r Hr orbT.
Qed.

(* every even kernel size: the 'SAME' padding shifts the window by one, and the layer with the
   masked centre reads its own site *)
Theorem C42_even_kernel_refuted k : ~~ odd k -> (0 < k)%N ->
  exists w bias (x y : image),
    agree (fun r' c' => r' = 0%N /\ (c' < 0)%N) x y /\
    horizontal_stack 1%N 1%N k 1%N 1%N true w bias x 0%N 0%N 0%N <> horizontal_stack 1%N 1%N k 1%N 1%N true w bias y 0%N 0%N 0%N.
Proof.
move=> Hk Hk0; have E : (k = (k %/ 2) * 2)%N by rewrite -[LHS]odd_double_half (negbTE Hk) divn2 -muln2 add0n.
have Hm : (0 < k %/ 2)%N by lia.
have Hp : pad_low k 1%N = (k %/ 2).-1 by rewrite /pad_low; lia.
have Hj : ((k %/ 2).-1 < k)%N by lia.
exists (fun _ b _ _ => if b == (k %/ 2).-1 then 1 else 0), (fun _ => 0), (fun _ _ _ => 1), (fun _ _ _ => 0).
split=> [r c ch [_ //]|]; rewrite /horizontal_stack /conv.
have V (v : F) : \sum_(0 <= a < 1) \sum_(0 <= b < k) \sum_(0 <= ch < 1)
    (if tap 1%N 1%N 1%N 0%N a is Some _ then if tap 1%N k 1%N 0%N b is Some _ then v else 0 else 0)
     * ((if (b : nat) == (k %/ 2).-1 then 1 else 0) * horizontal_mask F k true a b) + 0 = v.
  rewrite addr0 big_nat1 big_mkord (bigD1 (Ordinal Hj)) //= [X in _ + X]big1 => [|b Hb].
    rewrite big_nat1 addr0 eqxx /tap Hp /horizontal_mask /=.
    have -> : (k %/ 2 + 1 <= (k %/ 2).-1)%N = false by lia.
    have -> : ((k %/ 2).-1 == k %/ 2)%N = false by lia.
    have -> : ((k %/ 2).-1 <= 0 + (k %/ 2).-1 * 1)%N && (0 + (k %/ 2).-1 * 1 - (k %/ 2).-1 < 1)%N by lia.
    by rewrite /= !mulr1.
  rewrite big_nat1; case: ifP => [/eqP Eb|_]; last by rewrite mul0r mulr0.
  by move: Hb; rewrite -val_eqE /= Eb eqxx.
by rewrite !V; apply/eqP; exact: oner_neq0.
Qed.
End C42.

(* three by three image, kernel size 3, one layer, all weights one: the output of site 4 uses
   site 3, and not site 4 *)
Definition ones4 (_ _ _ _ : nat) : [comRingType of int] := 1.
Definition zeros1 (_ : nat) : [comRingType of int] := 0.
Definition ex_layer := Layer ones4 zeros1 ones4 zeros1 ones4 zeros1 ones4 zeros1.
Definition ex_net (s : nat -> [comRingType of int]) (i : nat) : int :=
  pixelcnn 3%N 3%N 1%N id ones4 zeros1 ones4 zeros1 [:: ex_layer] ones4 zeros1 (fun f => f) s i 0%N.
Example C42_example :
  [/\ ex_net (fun j => (j == 3%N)%:R) 4 <> 0, ex_net (fun j => (j == 4%N)%:R) 4 = 0 &
      ex_net (fun j => (j == 4%N)%:R) 5 <> 0].
Proof.
by split; rewrite /ex_net /pixelcnn /causal_layer /conv_1x1 /horizontal_stack /vertical_stack /conv_1x1 /conv unlock; vm_compute.
Qed.
