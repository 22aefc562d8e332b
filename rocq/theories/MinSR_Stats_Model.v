(* driver/minSR.py: _statistics (L235-257), the energy, its variance and its error that the minSR
   driver reports.  The error enters as its square.  Not modelled: the auto-correlation time and R_hat
   (L250-253). *)
From Verif Require Import Base MinSR_Model.
Import Num.Theory.
Local Open Scope ring_scope.

Section Stats.
Variable (C : numFieldType).

(* data = data.reshape((1, -1)) for one-dimensional data, L238-239; the driver passes the flattened
   local energies (L63-64), so this is always the case *)
Definition as_rows (data : seq C) : seq (seq C) := [:: data].

(* L244-248 with one pair (data, counts) per rank; counts of shape (N,) broadcast over the rows *)
Definition statistics (ranks : seq (seq C * seq C)) : C * C * C :=
  let rows := [seq (as_rows r.1, r.2) | r <- ranks] in
  let batch_size := (\sum_(r <- rows) size r.1)%N in
  let mean := \sum_(r <- rows) \sum_(row <- r.1) \sum_(p <- zip row r.2) p.1 * p.2 in
  let var := \sum_(r <- rows) \sum_(row <- r.1) \sum_(p <- zip row r.2) `|p.1 - mean| ^+ 2 * p.2 in
  (mean, var, var / batch_size%:R).

(* self._loss_stats = _statistics(loc_ens, counts), L63-64 *)
Definition loss_stats (T : Type) (eloc : T -> C) (transposed : bool) (ranks : seq (rank_state C T)) : C * C * C :=
  statistics [seq (loc_ens eloc transposed rk, counts rk) | rk <- ranks].
End Stats.
