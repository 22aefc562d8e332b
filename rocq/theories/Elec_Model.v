(* models/slater.py L22-44: occupancies_to_electrons *)
From Verif Require Import Base Occ_Model AbInitioOtf_Model.

(* _, y = jnp.nonzero(mask, size=n) of a 2-dimensional array: column indices in row-major
   order, truncated or padded with 0 *)
Definition nonzero_cols (n : nat) (mask : nat -> bool) (xs : seq (seq nat)) : seq nat :=
  take n (flatten [seq [seq k <- iota 0 (size x) | mask (nth 0 x k)] | x <- xs] ++ nseq n 0).
(* jnp.reshape(y, (B, -1)) of B*n entries, row b *)
Definition reshape_row (n b : nat) (flat : seq nat) : seq nat := take n (drop (b * n) flat).

(* L37-44; `(x & 2) / 2` is non-zero iff `x & 2` is *)
Definition occupancies_to_electrons (xs : seq (seq nat)) (n_elec : nat * nat) : seq (seq nat) :=
  let B := size xs in
  let y_up := nonzero_cols (B * n_elec.1) (fun o => has o 1) xs in
  let y_down := nonzero_cols (B * n_elec.2) (fun o => has o 2) xs in
  [seq reshape_row n_elec.1 b y_up ++ reshape_row n_elec.2 b y_down | b <- iota 0 B].
