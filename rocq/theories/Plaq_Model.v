(* models/plaquetteqGPS.py (PlaquetteqGPS, L18-191), per sample: the code vmaps over the batch.
   epsilon[o, p, m, j] is [eps o p m j] with p the plaquette, j the position inside it.  The
   (P, M, T) array of products is a list over symmetry operations of lists over plaquettes of
   lists over the support dimension.  Symmetries are those of qGPS.py (QGPS_Model). *)
From Verif Require Import Base QGPS_Model.
Local Open Scope ring_scope.

(* setup, L59-63: inv_plaquette_ids[i, plaquettes[i, j]] = j for j = 0 .. K-1, starting from
   -1 (None) *)
Definition inv_plaquette (L : nat) (plaquette : seq nat) : seq (option nat) :=
  foldl (fun v j => set_nth None v (nth 0%N plaquette j) (Some j)) (nseq L None) (iota 0 (size plaquette)).

Section Plaq.
Variables (F : fieldType) (eps : nat -> nat -> nat -> nat -> F) (M L : nat).
Variable plaquettes : seq (seq nat).

(* L113-117 single_plaquette_eval: product over the plaquette, for each m *)
Definition plaquette_prod (p : nat) (y : seq nat) : seq F :=
  let pl := nth [::] plaquettes p in
  [seq \prod_(j < size pl) eps (nth 0%N y (nth 0%N pl j)) p m j | m <- iota 0 M].
(* L112-131: all plaquettes, for each symmetry copy *)
Definition plaq_site_prod (s : symset) (x : seq nat) : seq (seq (seq F)) :=
  [seq [seq plaquette_prod p y | p <- iota 0 (size plaquettes)] | y <- sym_copies s x].

(* L141-147, L148-152: epsi[occs, :, inv_plaquette[sites]] where the site lies in the
   plaquette, 1 elsewhere, product over the update list *)
Definition plaq_update_prod (p m : nat) (occs sites : seq nat) : F :=
  \prod_(q <- zip occs sites)
    if nth None (inv_plaquette L (nth [::] plaquettes p)) q.2 is Some j then eps q.1 p m j else 1.
(* L139-157 inner_site_product_update *)
Definition plaq_inner_update (old : seq (seq F)) (new_occs old_occs sites : seq nat) : seq (seq F) :=
  [seq [seq nth 0 (nth [::] old p) m * (plaq_update_prod p m new_occs sites / plaq_update_prod p m old_occs sites)
          | m <- iota 0 M] | p <- iota 0 (size plaquettes)].
(* L159-171 *)
Definition plaq_outer_update (s : symset) (old : seq (seq (seq F))) (sample_new sample_old sites : seq nat) :=
  [seq plaq_inner_update p.1 p.2.1.1 p.2.2.1 p.2.1.2
     | p <- zip old (zip (sym_inverse s sample_new sites) (sym_inverse s sample_old sites))].

Record plaq_cache := PlaqCache { pc_samples : seq nat; pc_prod : seq (seq (seq F)) }.

(* L181-182: saved_config.at[update_sites].set(occs); scatter applied in list order *)
Definition plaq_update_config (saved sites occs : seq nat) : seq nat :=
  foldl (fun x p => set_nth 0%N x p.1 p.2) saved (zip sites occs).

(* __call__ without (L110-131) and with update_sites (L132-175); cache L177-188.  The returned
   value is out_transformation of the products. *)
Definition plaq_full (s : symset) (x : seq nat) : plaq_cache := PlaqCache x (plaq_site_prod s x).
Definition plaq_fast (s : symset) (c : plaq_cache) (indices sites : seq nat) : plaq_cache :=
  let old_samples := [seq nth 0%N (pc_samples c) i | i <- sites] in
  PlaqCache (plaq_update_config (pc_samples c) sites indices)
            (plaq_outer_update s (pc_prod c) indices old_samples sites).
End Plaq.
