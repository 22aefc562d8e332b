(* nn/causal_conv.py and models/pixelcnn.py, one sample.  Images are functions of row, column and
   channel. *)
From Verif Require Import Base.
Local Open Scope ring_scope.

Section Conv.
Variable F : comRingType.
Definition image := nat -> nat -> nat -> F.

(* flax.linen.Conv with padding 'SAME', strides 1 and one kernel_dilation for both axes on an
   H x W image: a cross-correlation with zero padding; the low padding of an axis with k taps
   is ((k - 1) * dilation) // 2.  `mask` multiplies the kernel.  flax is not part of /repo: this
   is its documented behaviour, called from nn/causal_conv.py L33-41. *)
Definition pad_low (k d : nat) : nat := ((k - 1) * d) %/ 2.
(* input row (or column) read by tap a for output position r, None in the padding *)
Definition tap (size k d r a : nat) : option nat :=
  let s := (r + a * d)%N in
  if (pad_low k d <= s)%N && (s - pad_low k d < size)%N then Some (s - pad_low k d)%N else None.
Definition conv (H W kh kw d cin : nat) (mask : nat -> nat -> F) (w : nat -> nat -> nat -> nat -> F) (bias : nat -> F)
    (x : image) : image := fun r c o =>
  \sum_(0 <= a < kh) \sum_(0 <= b < kw) \sum_(0 <= ch < cin)
     (if tap H kh d r a is Some r' then if tap W kw d c b is Some c' then x r' c' ch else 0 else 0)
     * (w a b ch o * mask a b)
  + bias o.

(* VerticalStackConv.setup, nn/causal_conv.py L54-59, and HorizontalStackConv.setup, L82-87: the
   masks; MaskedConv2D, L27-31, repeats them over the channels *)
Definition vertical_mask (k : nat) (mask_center : bool) (a b : nat) : F :=
  if (k %/ 2 + 1 <= a)%N then 0 else if mask_center && (a == k %/ 2)%N then 0 else 1.
Definition horizontal_mask (k : nat) (mask_center : bool) (a b : nat) : F :=
  if (k %/ 2 + 1 <= b)%N then 0 else if mask_center && (b == k %/ 2)%N then 0 else 1.
(* VerticalStackConv, L45-70, and HorizontalStackConv, L73-98 *)
Definition vertical_stack (H W k d cin : nat) (mask_center : bool) w bias : image -> image :=
  conv H W k k d cin (vertical_mask k mask_center) w bias.
Definition horizontal_stack (H W k d cin : nat) (mask_center : bool) w bias : image -> image :=
  conv H W 1 k d cin (horizontal_mask k mask_center) w bias.
(* the 1 x 1 convolutions conv_v_to_h and conv_h_to_1x1, L127-142 *)
Definition conv_1x1 (H W cin : nat) w bias : image -> image := conv H W 1 1 1 cin (fun _ _ => 1) w bias.

(* weights of one CausalConv2d layer, L109-142: vertical, horizontal, v_to_h and h_to_1x1 *)
Record layer := Layer
  { ly_v : nat -> nat -> nat -> nat -> F; ly_vb : nat -> F;
    ly_h : nat -> nat -> nat -> nat -> F; ly_hb : nat -> F;
    ly_vh : nat -> nat -> nat -> nat -> F; ly_vhb : nat -> F;
    ly_1 : nat -> nat -> nat -> nat -> F; ly_1b : nat -> F }.

(* CausalConv2d.__call__, L144-155 (the dilation is left at its default 1, L111-126) *)
Definition causal_layer (H W k n : nat) (act : F -> F) (l : layer) (vh : image * image) : image * image :=
  let: (v_stack, h_stack) := vh in
  let v_features := vertical_stack H W k 1 n false (ly_v l) (ly_vb l) v_stack in
  let v_out : image := fun r c o => act (v_features r c o) in
  let h_features := horizontal_stack H W k 1 n false (ly_h l) (ly_hb l) h_stack in
  let vth := conv_1x1 H W n (ly_vh l) (ly_vhb l) v_features in
  let h_features : image := fun r c o => act (h_features r c o + vth r c o) in
  let h1 := conv_1x1 H W n (ly_1 l) (ly_1b l) h_features in
  (v_out, fun r c o => h_stack r c o + h1 r c o).

(* PixelCNN.conditionals_log_psi, models/pixelcnn.py L112-132, at site i and local state o;
   inputs[i] is the pixel (i // L, i % L) by the reshapes L115 and L121.  `normal` stands for
   _normalize (L131, netket), which acts on the D values of every site separately.  The final
   netket convolution (L102-110) has a 1 x 1 kernel with exclusive=False.  The
   gauge function (L124-127, off by default) is in Pixel_Model. *)
Definition pixelcnn (L k n : nat) (act : F -> F) wv bv wh bh (layers : seq layer) wf bf
    (normal : (nat -> F) -> nat -> F) (inputs : nat -> F) (i o : nat) : F :=
  let x : image := fun r c _ => inputs (r * L + c)%N in
  let v0 := vertical_stack L L k 1 1 true wv bv x in
  let h0 := horizontal_stack L L k 1 1 true wh bh x in
  let vh := foldl (fun vh l => causal_layer L L k n act l vh) (v0, h0) layers in
  let out : image := fun r c o => act (vh.2 r c o) in
  normal (conv_1x1 L L n wf bf out (i %/ L)%N (i %% L)%N) o.
End Conv.
