(* C25: batch_choice is inverse-CDF sampling. *)
From Verif Require Import Base Choice_Model Choice_Proofs.
Import Num.Theory Order.TTheory.
Local Open Scope ring_scope.

Section Props.
Variable F : realFieldType.

Lemma batch_index_lemma (p : seq F) (u : F) :
  all (fun x => 0 <= x) p -> 0 < \sum_(j <- p) j -> 0 < u -> u < 1 ->
  let k := batch_index p u in
  [/\ (k < size p)%N, 0 < nth 0 p k &
  forall i, (i < size p)%N ->
    (k = i <-> (\sum_(j <- take i p) j) / (\sum_(j <- p) j) < u
            /\ u <= (\sum_(j <- take i p) j + nth 0 p i) / (\sum_(j <- p) j))].
Proof.
move=> Hp HS Hu0 Hu1 k.
have H1 : 0 < (\sum_(j <- p) j) * u by rewrite mulr_gt0.
have H2 : (\sum_(j <- p) j) * u <= \sum_(j <- p) j.
  by apply: ler_pimulr; apply: ltW.
have [Hk Ha Hb] := count_index Hp H1 H2.
have Ek : k = count (fun c => c < (\sum_(j <- p) j) * u) (cumsum p).
  by rewrite /k /batch_index last_cumsum.
rewrite -Ek in Hk Ha Hb; split=> //.
  by rewrite psumS in Hb; rewrite -(ltr_addl (psum p k)); apply: lt_le_trans Ha Hb.
move=> i Hi; rewrite Ek (count_index_iff Hp H1 H2 Hi) psumS /psum.
by rewrite ltr_pdivr_mulr // ler_pdivl_mulr // ![u * _]mulrC.
Qed.

(* For every number of rows, every row of non-negative weights that do not all vanish, and
   every list of draws in (0,1): each output is a[k] for an index k in range with p_k > 0,
   and the draws selecting i are those of (P_i/S, P_(i+1)/S], an interval of length
   p_i / S.  Missing for the full C25: the draw u = 0 (next theorem). *)
Theorem C25_batch_choice_partial (T : Type) (d : T) (a : seq T) (ps : seq (seq F)) (us : seq F) (b : nat) :
  size us = size ps -> (b < size ps)%N ->
  let p := nth [::] ps b in
  let u := nth 0 us b in
  size p = size a -> all (fun x => 0 <= x) p -> 0 < \sum_(j <- p) j -> 0 < u -> u < 1 ->
  size (batch_choice d a ps us) = size ps /\
  exists k, [/\ nth d (batch_choice d a ps us) b = nth d a k, (k < size a)%N, 0 < nth 0 p k &
    forall i, (i < size a)%N ->
      (k = i <-> (\sum_(j <- take i p) j) / (\sum_(j <- p) j) < u
              /\ u <= (\sum_(j <- take i p) j + nth 0 p i) / (\sum_(j <- p) j))].
Proof.
move=> Hsz Hb p u Hpa Hp HS Hu0 Hu1.
have Hz : size (zip ps us) = size ps by rewrite size_zip Hsz minnn.
split; first by rewrite size_map.
have [Hk Hpos Hiff] := batch_index_lemma Hp HS Hu0 Hu1.
exists (batch_index p u); rewrite -Hpa; split=> //.
by rewrite (nth_map ([::], 0)) ?Hz // nth_zip.
Qed.

(* u = 0 is a possible draw of jax.random.uniform; it always selects index 0, also when
   p_0 = 0: "never selects an entry of probability zero" is false. *)
Theorem C25_zero_draw (p : seq F) : all (fun x => 0 <= x) p -> batch_index p 0 = 0%N.
Proof.
move=> Hp; rewrite /batch_index mulr0; apply/eqP; rewrite -leqn0 leqNgt -has_count.
apply/hasPn => c /(nthP 0) [i]; rewrite size_cumsum => Hi <-.
by rewrite nth_cumsum // -leNgt -(psum0 p); apply: psum_mono.
Qed.
End Props.

Theorem C25_zero_probability_refuted : exists (F : realFieldType) (p : seq F) (u : F),
  [/\ all (fun x => 0 <= x) p, 0 < \sum_(j <- p) j, 0 <= u /\ u < 1 & nth 0 p (batch_index p u) = 0].
Proof.
exists [realFieldType of rat], [:: 0; 1], 0; split=> //.
by rewrite !big_cons big_nil.
Qed.

(* weights 1,0,3 with draws 1/4 and 1/2 select indices 0 and 2 *)
Example C25_example :
  batch_choice 0%N [:: 5; 6; 7]%N [:: [:: 1; 0; 3%:Q]; [:: 1; 0; 3%:Q]] [:: 1 / 4%:Q; 1 / 2%:Q] = [:: 5; 7]%N.
Proof. by vm_compute. Qed.

Print Assumptions C25_batch_choice_partial.
Print Assumptions C25_zero_draw.
Print Assumptions C25_zero_probability_refuted.
