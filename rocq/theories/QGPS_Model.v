(* models/qGPS.py: symmetry helpers (L14-94) and the qGPS model (L141-238).
   Everything is per sample: the code vmaps over the batch axis.  Local indices are nat;
   epsilon[o, m, i] is [eps o m i].  The (M, T) array of site products of one sample is
   modelled as a list over symmetry operations of lists over the support dimension. *)
From Verif Require Import Base.
Local Open Scope ring_scope.

(* one permutation = one column of `syms` (L17: automorphisms().to_array().T); None: the
   branch without automorphisms (L56-82), a single copy *)
Record symset := SymSet { sy_perms : option (seq (seq nat)); sy_flip : bool }.

(* L18-21: inv_syms[syms[i, j], j] = i, one column, i = 0 .. L-1 *)
Definition inv_perm (p : seq nat) : seq nat :=
  foldl (fun v i => set_nth 0%N v (nth 0%N p i) i) (nseq (size p) 0%N) (iota 0 (size p)).

(* 1 - out on 0/1 occupancies.  (uint8/int arithmetic; only used for two local states) *)
Definition flip_occ (o : nat) : nat := (1 - o)%N.

(* symmetries(samples), L26-29, L45-47, L59-62, L75-77: list of transformed copies.
   jnp.take(samples, syms, axis=-1)[..., i, t] = samples[..., syms[i, t]] *)
Definition sym_copies (s : symset) (x : seq nat) : seq (seq nat) :=
  let out := if sy_perms s is Some ps then [seq [seq nth 0%N x j | j <- p] | p <- ps] else [:: x] in
  if sy_flip s then out ++ [seq [seq flip_occ o | o <- y] | y <- out] else out.

(* inv_symmetries(sample_at_indices, indices), L31-41, L49-54, L64-71, L79-82: per symmetry
   operation the transformed occupancies and sites *)
Definition sym_inverse (s : symset) (occs sites : seq nat) : seq (seq nat * seq nat) :=
  let inv_sites := if sy_perms s is Some ps
     then [seq [seq nth 0%N (inv_perm p) i | i <- sites] | p <- ps] else [:: sites] in
  if sy_flip s then [seq (occs, ss) | ss <- inv_sites] ++ [seq ([seq flip_occ o | o <- occs], ss) | ss <- inv_sites]
  else [seq (occs, ss) | ss <- inv_sites].

Section QGPS.
Variables (F : fieldType) (eps : nat -> nat -> nat -> F) (M : nat).

(* L197-207: evaluate_site_product for every copy *)
Definition site_prod (y : seq nat) : seq F :=
  [seq \prod_(i < size y) eps (nth 0%N y i) m i | m <- iota 0 M].
Definition get_site_prod (s : symset) (x : seq nat) : seq (seq F) := map site_prod (sym_copies s x).

(* prod over the update list of epsilon[occs, m, sites] (L171, L174) *)
Definition upd_prod (occs sites : seq nat) (m : nat) : F :=
  \prod_(p <- zip occs sites) eps p.1 m p.2.

(* L169-176: inner_site_product_update *)
Definition inner_update (old : seq F) (new_occs old_occs sites : seq nat) : seq F :=
  [seq nth 0 old m / upd_prod old_occs sites m * upd_prod new_occs sites m | m <- iota 0 M].

(* L178-189 *)
Definition outer_update (s : symset) (old : seq (seq F)) (sample_new sample_old sites : seq nat) : seq (seq F) :=
  [seq inner_update p.1 p.2.1.1 p.2.2.1 p.2.1.2
     | p <- zip old (zip (sym_inverse s sample_new sites) (sym_inverse s sample_old sites))].

(* cached intermediates: samples and site_prod (L156-161) *)
Record cache := Cache { ca_samples : seq nat; ca_prod : seq (seq F) }.

(* L219-228: update_fun, a scan with reverse=True *)
Definition update_config (saved sites occs : seq nat) : seq nat :=
  foldl (fun x k => set_nth 0%N x (nth 0%N sites k) (nth 0%N occs k)) saved (rev (iota 0 (size sites))).

(* __call__ without update_sites, caching (L195-213, L215-236) *)
Definition qgps_full (s : symset) (x : seq nat) : cache := Cache x (get_site_prod s x).
(* __call__ with update_sites (L163-194, L215-236); `indices` are the new occupancies at the
   update sites *)
Definition qgps_fast (s : symset) (c : cache) (indices sites : seq nat) : cache :=
  let old_samples := [seq nth 0%N (ca_samples c) i | i <- sites] in
  Cache (update_config (ca_samples c) sites indices)
        (outer_update s (ca_prod c) indices old_samples sites).
(* L238: the returned value is out_transformation(site_product), by default the sum over
   both axes (L119), interpreted as the log-amplitude *)
Definition default_out (prods : seq (seq F)) : F := \sum_(l <- prods) \sum_(v <- l) v.
End QGPS.
