(* The tilted ASEP generator on a chain, acting on functions of configurations.  Rates:
   alpha/gamma fill/empty the left end, beta/delta fill/empty the right end, p/q hop to the
   right/left; right-moving events carry e^lambda = el, left-moving ones e^-lambda = em. *)
From Verif Require Import Base.
Local Open Scope ring_scope.

Definition binary (x : seq nat) := all (fun o => (o < 2)%N) x.
Definition swap_sites (x : seq nat) i j := set_nth 0%N (set_nth 0%N x i (nth 0%N x j)) j (nth 0%N x i).

Section Gen.
Variables (R : comRingType) (el em alpha beta gamma delta p q : R) (psi : seq nat -> R) (x : seq nat).
(* an event of rate r, weight w, that leads to y *)
Definition event (r w : R) (y : seq nat) : R := r * (w * psi y - psi x).
Definition asep_generator : R :=
  let last := (size x).-1 in
  (if nth 0%N x 0 == 0%N then event alpha el (set_nth 0%N x 0 1%N) else event gamma em (set_nth 0%N x 0 0%N))
  + (if nth 0%N x last == 0%N then event beta em (set_nth 0%N x last 1%N)
     else event delta el (set_nth 0%N x last 0%N))
  + \sum_(i < (size x).-1)
      (if (nth 0%N x i == 1%N) && (nth 0%N x i.+1 == 0%N) then event p el (swap_sites x i i.+1)
       else if (nth 0%N x i == 0%N) && (nth 0%N x i.+1 == 1%N) then event q em (swap_sites x i i.+1)
       else 0).
End Gen.
