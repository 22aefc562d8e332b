(* models/autoreg_qGPS_full.py: ARqGPSFull with cached intermediates and fast updates
   (L142-255, L258-343, L365-424); AR_Model.v has the model without them.
   Per sample; configurations are sequences of local indices, as in AR_Model.v.  The call
   returns, per symmetry copy, exp(machine_pow * Re log_psi) and the finite part of the
   un-normalised log_psi (whose imaginary part is that of log_psi, as _normalize subtracts a
   real number); L240-245 combine these lists.  Entries outside an array (jax clamps the index)
   only occur where the mask of L313 overwrites them. *)
From Verif Require Import Base QGPS_Model AR_Model.
Local Open Scope ring_scope.

Section ARFull.
Variables (F : fieldType) (R : realFieldType) (wexp : F -> R) (out : seq F -> F).
Variables (D M L : nat) (constrained normalize : bool).
Variables (count_spins : nat -> seq nat) (renorm : seq nat -> nat -> seq bool).

(* setup, L92-114: one packed array (D, M, L(L+1)/2), or a tuple with entry i of shape
   (D, Ms[i], i+1) *)
Inductive params : Type :=
| Packed of (nat -> nat -> nat -> F)
| PerSite of (nat -> nat) & (nat -> nat -> nat -> nat -> F).
Definition width (P : params) (i : nat) : nat := if P is PerSite Ms _ then Ms i else M.
(* L266-280 *)
Definition input_param (P : params) (i d m : nat) : F :=
  match P with
  | Packed eps => eps d m (lower_index i + i)%N
  | PerSite _ eps => eps i d m i
  end.

(* context_prod without update_args, L282-303 *)
Definition context_full (P : params) (x : seq nat) (i : nat) : seq F :=
  match P with
  | Packed eps => [seq full_context L eps x i m | m <- iota 0 M]
  | PerSite Ms eps =>
      [seq \prod_(j < i.+1) (if (i <= j)%N then 1 else eps i (nth 0%N x j) m j) | m <- iota 0 (Ms i)]
  end.

(* L306-311: epsilon[new] / epsilon[old] at one updated site *)
Definition update_ratio (P : params) (i m new old site : nat) : F :=
  match P with
  | Packed eps => eps new m (site + lower_index i)%N / eps old m (site + lower_index i)%N
  | PerSite _ eps => eps i new m site / eps i old m site
  end.
(* context_prod with update_args, L305-314 *)
Definition context_fast (P : params) (saved : seq F) (old_occ new_occ sites : seq nat) (i : nat) : seq F :=
  [seq (\prod_(q <- zip sites (zip new_occ old_occ))
          (if (i <= q.1)%N then 1 else update_ratio P i m q.2.1 q.2.2 q.1)) * nth 0 saved m
     | m <- iota 0 (width P i)].

(* L316-319 *)
Definition site_out (P : params) (ctx : seq F) (i : nat) : seq F :=
  [seq out [seq input_param P i d m * nth 0 ctx m | m <- iota 0 (width P i)] | d <- iota 0 D].

(* _conditionals, L365-424, given the context products of all sites; spin counts and masks of
   _compute_conditional L321-342 as in AR_Model *)
Definition conditionals_of (P : params) (ctxs : seq (seq F)) (x : seq nat) : seq (seq (F * bool)) :=
  log_conditionals D L constrained count_spins renorm tt
    (fun _ _ i => (tt, site_out P (nth [::] ctxs i) i)) x.

(* L230-238 for one symmetry copy *)
Definition copy_amp (lps : seq (seq (F * bool))) (x : seq nat) : R * F :=
  (\prod_(i < L) nth 0 ((if normalize then normalized (R := R) else id) (weights wexp (nth [::] lps i))) (nth 0%N x i),
   \sum_(i < L) (nth (0, false) (nth [::] lps i) (nth 0%N x i)).1).

(* the "intermediates_cache": samples and context products (copy, site, support index) *)
Record fcache := FCache { fc_samples : seq nat; fc_ctx : seq (seq (seq F)) }.

(* L194-238, L247-253 given the full configuration and the context products of its copies *)
Definition finish (P : params) (s : symset) (x : seq nat) (ctxs : seq (seq (seq F))) : seq (R * F) * fcache :=
  ([seq copy_amp (conditionals_of P q.2 q.1) q.1 | q <- zip (sym_copies s x) ctxs], FCache x ctxs).

(* __call__ without update_sites, L190-192, L224-229 *)
Definition arfull (P : params) (s : symset) (x : seq nat) : seq (R * F) * fcache :=
  finish P s x [seq [seq context_full P y i | i <- iota 0 L] | y <- sym_copies s x].

(* __call__ with update_sites, L149-189, L211-223; [occs]: the occupancies passed for the
   update sites *)
Definition arfull_fast (P : params) (s : symset) (c : fcache) (occs sites : seq nat) : seq (R * F) * fcache :=
  let prev := [seq nth 0%N (fc_samples c) i | i <- sites] in
  let ctxs := [seq [seq context_fast P (nth [::] q.1 i) q.2.1.1 q.2.2.1 q.2.2.2 i | i <- iota 0 L]
     | q <- zip (fc_ctx c) (zip (sym_inverse s prev sites) (sym_inverse s occs sites))] in
  finish P s (update_config (fc_samples c) sites occs) ctxs.

(* L240-243: exp(machine_pow * Re log_psi_symm) *)
Definition symm_prob (r : seq (R * F)) : R := (\sum_(a <- r) a.1) / (size r)%:R.
End ARFull.
