(* Model of GPSKet/operator/fermion.py. *)
From Verif Require Import Base Occ_Model.
Local Open Scope ring_scope.

(* operator/fermion.py L11-47, apply_hopping.  The in-place update of x_prime is
   returned as second component.  The multiplicator is an integer.  Indices are
   assumed non-negative (the callers pass site indices).  The parity count is a
   difference of int64 counts; `& 1` on a two's complement integer is its parity. *)
Definition apply_hopping (annihilate_site create_site : nat) (x_prime : cfg)
    (spin_int : nat) (cummulative_count : option (seq nat)) : int * cfg :=
  let start_occ := nth 0%N x_prime annihilate_site in
  let final_occ := nth 0%N x_prime create_site in
  let multiplicator : int :=
    if ~~ has start_occ spin_int then 0
    else if create_site == annihilate_site then 1
    else if ~~ has final_occ spin_int then
      let left_limit := minn annihilate_site create_site in
      let right_limit := (maxn annihilate_site create_site).-1 in
      let parity_count : int :=
        match cummulative_count with
        | None => (count (fun o => has o spin_int)
                     (drop left_limit (take right_limit x_prime)))%:Z
        | Some cum => (nth 0%N cum right_limit)%:Z - (nth 0%N cum left_limit)%:Z
        end in
      if odd `|parity_count|%N then 1 * -1 else 1
    else 0 in
  if multiplicator != 0
  then (multiplicator,
        add_at (add_at x_prime annihilate_site (- spin_int%:Z)) create_site spin_int%:Z)
  else (multiplicator, x_prime).
