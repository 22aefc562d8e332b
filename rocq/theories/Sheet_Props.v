(* C117: the geometry of hydrogen chains and sheets, and the radial correlations of the 6x6 sheet. *)
From Verif Require Import Base Sheet_Model.
Import Order.Theory Num.Theory.
Local Open Scope ring_scope.

(* the rounded root: |2 a - 2 sqrt n| < 1 *)
Lemma round_sqrt_fromP n a : (4 * n < (2 * a).+1 * (2 * a).+1)%N ->
  (4 * n < (2 * round_sqrt_from n a).+1 * (2 * round_sqrt_from n a).+1)%N /\
  (0 < round_sqrt_from n a -> (2 * round_sqrt_from n a).-1 * (2 * round_sqrt_from n a).-1 <= 4 * n)%N.
Proof.
elim: a => [|a IH] H; first by split.
rewrite /=; case: ifP => [Hle|Hle]; last by apply: IH; rewrite ltnNge Hle.
by split=> // _; rewrite mulnS /=.
Qed.
Theorem C117_round n : (0 < n)%N -> ((2 * round_sqrt n).-1 * (2 * round_sqrt n).-1 < 4 * n)%N /\
  (4 * n < (2 * round_sqrt n).+1 * (2 * round_sqrt n).+1)%N.
Proof.
move=> Hn; have [|H1 H2] := @round_sqrt_fromP n n; first by nia.
split=> //; rewrite -/(round_sqrt n) in H1 H2 *.
case Hz : (round_sqrt n) => [|a]; first by rewrite muln0 /=; lia.
move: H2; rewrite Hz => /(_ isT); rewrite mulnS /= => H2.
rewrite ltn_neqAle H2 andbT; apply/negP => /eqP E.
have : odd ((1 + 2 * a) * (1 + 2 * a)) by rewrite oddM oddD mul2n odd_double.
by rewrite E mulnC oddM andbF.
Qed.

Lemma divisor_belowP n a : (0 < a)%N -> exists2 d, divisor_below n a = Some d &
  [/\ (0 < d <= a)%N, (d %| n)%N & forall c, (c <= a)%N -> (0 < c)%N -> (c %| n)%N -> (c <= d)%N].
Proof.
elim: a => // a IH _; rewrite [divisor_below _ _]/=; case: ifP => H.
  case: a H IH => [|a] H IH; first by rewrite modn1 in H.
  have [//|d -> [Hd Hdn Hmax]] := IH; exists d => //; split=> //; first by lia.
  move=> c Hc Hc0 Hcn; apply: Hmax => //; move: Hc; rewrite leq_eqVlt => /orP [/eqP E|//].
  by move: Hcn; rewrite E /dvdn => /eqP E'; rewrite E' in H.
exists a.+1 => //; split=> //; first by lia.
by rewrite /dvdn; apply/eqP; lia.
Qed.

(* the factors are the closest ones, for every number of atoms; without atoms the division by zero is reached *)
Theorem C117_closest n : (0 < n)%N -> exists a b, [/\ closest_divisors n = Some (a, b), (a * b)%N = n, (a <= b)%N &
  forall c d, (c * d)%N = n -> (c <= d)%N -> (c <= a)%N /\ (b <= d)%N].
Proof.
move=> Hn; have [H1 H2] := C117_round Hn.
have H0 : (0 < round_sqrt n)%N by case: (round_sqrt n) H2 => //; lia.
have [d E [Hd Hdn Hmax]] := divisor_belowP n H0; exists d, (n %/ d)%N.
have Hdiv : (d * (n %/ d) = n)%N by rewrite mulnC divnK.
rewrite /closest_divisors E; split=> //.
  rewrite leqNgt; apply/negP => Hlt; move: (round_sqrt n) H1 H2 H0 Hd {Hmax E} => r H1 H2 H0 Hd.
  move: (n %/ d)%N Hdiv Hlt => b Hdiv Hlt; nia.
move=> c e Hce Hle; have Hc0 : (0 < c)%N by case: c Hce Hle => [|c]; lia.
have Hcd : (c <= d)%N.
  apply: Hmax => //; last by rewrite -Hce dvdn_mulr.
  move: (round_sqrt n) H2 => r H2; rewrite leqNgt; apply/negP => Hr; nia.
split=> //; have Ee : e = (n %/ c)%N by rewrite -Hce mulKn.
by rewrite Ee leq_div2l.
Qed.
Theorem C117_no_atoms (F : numFieldType) (dist : F) : closest_divisors 0 = None /\ sheet 0 dist = None.
Proof. by []. Qed.

Section Sheet.
Variable F : numFieldType.
Implicit Type dist : F.
Definition dist2 (p q : F * F * F) : F := (p.1.1 - q.1.1) ^+ 2 + (p.1.2 - q.1.2) ^+ 2 + (p.2 - q.2) ^+ 2.
Definition origin : F * F * F := (0, 0, 0).
Definition sq_gap (i j : nat) : nat := ((i - j) + (j - i)) ^ 2.

Lemma sq_gapE i j : (i%:R - j%:R) ^+ 2 = (sq_gap i j)%:R :> F.
Proof.
wlog H : i j / (j <= i)%N => [W|].
  case: (leqP j i) => H; first exact: W.
  by rewrite -sqrrN opprB W ?(ltnW H) // /sq_gap addnC.
by rewrite -natrB // /sq_gap natrX (eqP H) addn0.
Qed.
Lemma dist2_grid dist x y x' y' :
  dist2 (x%:R * dist, y%:R * dist, 0) (x'%:R * dist, y'%:R * dist, 0) = (sq_gap x x' + sq_gap y y')%:R * dist ^+ 2.
Proof. by rewrite /dist2 /= subrr expr0n addr0 -!mulrBl !exprMn !sq_gapE natrD mulrDl. Qed.

Lemma flatten_grid (T : Type) (x0 : T) (f : nat -> nat -> T) Lx Ly :
  size (flatten [seq [seq f x y | y <- iota 0 Ly] | x <- iota 0 Lx]) = (Lx * Ly)%N /\
  forall i, (i < Lx * Ly)%N -> nth x0 (flatten [seq [seq f x y | y <- iota 0 Ly] | x <- iota 0 Lx]) i = f (i %/ Ly)%N (i %% Ly)%N.
Proof.
suff H s : size (flatten [seq [seq f x y | y <- iota 0 Ly] | x <- iota s Lx]) = (Lx * Ly)%N /\
  forall i, (i < Lx * Ly)%N -> nth x0 (flatten [seq [seq f x y | y <- iota 0 Ly] | x <- iota s Lx]) i = f (s + i %/ Ly)%N (i %% Ly)%N.
  exact: H.
elim: Lx s => [|L IH] s; first by split.
have [IH1 IH2] := IH s.+1; rewrite /= size_cat IH1 size_map size_iota mulSn; split=> // i Hi.
rewrite nth_cat size_map size_iota; case: (ltnP i Ly) => H.
  by rewrite (nth_map 0%N) ?size_iota // nth_iota // divn_small // modn_small // addn0.
have H0 : (0 < Ly)%N by case: Ly H Hi {IH IH1 IH2} => //; rewrite muln0.
rewrite IH2; last by lia.
have -> : (i %/ Ly = ((i - Ly) %/ Ly).+1)%N by rewrite -{1}(subnK H) divnDr // divnn H0 addn1.
have -> : (i %% Ly = (i - Ly) %% Ly)%N by rewrite -{1}(subnK H) modnDr.
by rewrite addnS addSn.
Qed.

(* n atoms on an a x b grid with a b = n in row-major order *)
Theorem C117_sheet n dist : (0 < n)%N -> exists a b mol, [/\ sheet n dist = Some mol, closest_divisors n = Some (a, b),
  size mol = n & forall i, (i < n)%N -> nth origin mol i = ((i %/ b)%:R * dist, (i %% b)%:R * dist, 0)
                            /\ (i %/ b < a)%N /\ (i %% b < b)%N].
Proof.
move=> Hn; have [a [b [E Hab Hle _]]] := C117_closest Hn.
rewrite /sheet E; exists a, b; eexists; split=> //; first by rewrite (flatten_grid origin _ a b).1.
have Hb : (0 < b)%N by case: b Hab {E Hle} => //; lia.
move=> i Hi; rewrite (flatten_grid origin _ a b).2 ?Hab //; split=> //; split; last exact: ltn_pmod.
by rewrite ltn_divLR // Hab.
Qed.

(* the atoms do not coincide, and none are closer than the lattice constant *)
Theorem C117_spacing n dist mol i j : sheet n dist = Some mol -> (i < n)%N -> (j < n)%N -> i != j ->
  (exists k : nat, dist2 (nth origin mol i) (nth origin mol j) = k.+1%:R * dist ^+ 2).
Proof.
move=> E Hi Hj Hij; have Hn : (0 < n)%N by lia.
have [a [b [mol' [E' _ _ Hmol]]]] := C117_sheet dist Hn; move: E'; rewrite E => -[Em]; rewrite {}Em.
have [-> [_ Hb]] := Hmol i Hi; have [-> _] := Hmol j Hj; rewrite dist2_grid.
case K : (sq_gap _ _ + sq_gap _ _)%N => [|k]; last by exists k.
move: K => /eqP; rewrite addn_eq0 /sq_gap !expn_eq0 !addn_eq0 !subn_eq0 /= !andbT => /andP [/andP [K1 K2] /andP [K3 K4]].
case/eqP: Hij; rewrite (divn_eq i b) (divn_eq j b).
by congr (_ * _ + _)%N; apply/eqP; rewrite eqn_leq ?K1 ?K2 ?K3 ?K4.
Qed.
Theorem C117_chain n dist i j : size (chain n dist) = n /\ ((i < n)%N -> (j < n)%N ->
  dist2 (nth origin (chain n dist) i) (nth origin (chain n dist) j) = (sq_gap i j)%:R * dist ^+ 2).
Proof.
rewrite /chain size_map size_iota; split=> // Hi Hj.
rewrite !(nth_map 0%N) ?size_iota // !nth_iota // !add0n.
by rewrite /dist2 /= subrr expr0n /= !addr0 -mulrBl exprMn sq_gapE.
Qed.

(* the shells of the radial correlations are the atoms at the distances 1, sqrt 2 and 2 of the sheet of 36 atoms *)
Definition shell_sum (mol : seq (F * F * F)) dist (r2 : nat) (corr : nat -> nat -> F) (a : nat) : F :=
  \sum_(b < size mol | dist2 (nth origin mol a) (nth origin mol b) == r2%:R * dist ^+ 2) corr a b.
(* every lattice point within the distance 2 of the atom belongs to the sheet *)
Definition inner (mol : seq (F * F * F)) dist (p : F * F * F) : Prop := forall dx dy : int,
  (absz dx ^ 2 + absz dy ^ 2 <= 4)%N -> (p.1.1 + dx%:~R * dist, p.1.2 + dy%:~R * dist, p.2) \in mol.

Lemma at_radius dist (n m : nat) : dist != 0 -> (n%:R * dist ^+ 2 == m%:R * dist ^+ 2) = (n == m).
Proof. by move=> Hd; rewrite (inj_eq (mulIf (expf_neq0 2 Hd))) eqr_nat. Qed.

Lemma mem_grid Lx Ly dist (X Y : int) : dist != 0 ->
  ((X%:~R * dist, Y%:~R * dist, 0 : F) \in [seq (x%:R * dist, y%:R * dist, 0) | x <- iota 0 Lx, y <- iota 0 Ly])
  = (0 <= X < Posz Lx) && (0 <= Y < Posz Ly).
Proof.
move=> Hd; apply/allpairsP/andP => [[[x y]]|[HX HY]] /=.
  rewrite !mem_iota => -[Hx Hy [EX EY]].
  have inj (Z : int) (z : nat) : Z%:~R * dist = z%:R * dist -> Z = z.
    by move=> /(mulIf Hd) /eqP; rewrite -[z%:R]/((Posz z)%:~R) eqr_int => /eqP.
  by rewrite (inj _ _ EX) (inj _ _ EY); split; lia.
exists (absz X, absz Y); rewrite /= !mem_iota; split; [by lia|by lia|].
have pz (Z : int) : 0 <= Z -> (absz Z)%:R = Z%:~R :> F by move=> HZ; rewrite -[_%:R]/((Posz (absz Z))%:~R) gez0_abs.
by rewrite !pz //; lia.
Qed.

Lemma sheet36P mol dist : sheet 36 dist = Some mol -> [/\ size mol = 36%N,
  forall i, (i < 36)%N -> nth origin mol i = ((i %/ 6)%:R * dist, (i %% 6)%:R * dist, 0) &
  dist != 0 -> forall X Y : int, ((X%:~R * dist, Y%:~R * dist, 0) \in mol) = (0 <= X < 6) && (0 <= Y < 6)].
Proof.
have [Hs Hn] := flatten_grid origin (fun x y : nat => (x%:R * dist, y%:R * dist, 0 : F)) 6 6.
have Hg := @mem_grid 6 6 dist.
rewrite /sheet (_ : closest_divisors 36 = Some (6, 6)%N) //.
by move: (flatten _) Hs Hn Hg => m Hs Hn Hg [<-]; split=> // Hd X Y; rewrite Hg.
Qed.
Lemma shell_sumE mol dist r2 corr a : sheet 36 dist = Some mol -> dist != 0 -> (a < 36)%N ->
  shell_sum mol dist r2 corr a
  = \sum_(b <- iota 0 36 | (sq_gap (a %/ 6) (b %/ 6) + sq_gap (a %% 6) (b %% 6))%N == r2) corr a b.
Proof.
move=> /sheet36P [Hs Hn _] Hd Ha.
rewrite /shell_sum Hs -(big_mkord (fun b => dist2 _ (nth origin _ b) == _) (fun b => corr a b)) /index_iota subn0.
rewrite big_seq_cond [RHS]big_seq_cond; apply: eq_bigl => b; rewrite mem_iota leq0n andTb add0n.
by case: (ltnP b 36) => Hb; rewrite ?andFb // !andTb !Hn // dist2_grid at_radius.
Qed.

(* the sites of the bulk are those whose whole neighbourhood up to the distance 2 belongs to the sheet *)
Theorem C117_bulk mol dist a : sheet 36 dist = Some mol -> dist != 0 -> (a < 36)%N ->
  (a \in bulk) <-> inner mol dist (nth origin mol a).
Proof.
move=> /sheet36P [_ Hn Hm] Hd Ha; have {}Hm := Hm Hd; rewrite /inner Hn //.
have E (dx dy : int) : ((a %/ 6)%:R * dist + dx%:~R * dist, (a %% 6)%:R * dist + dy%:~R * dist, 0)
    = ((Posz (a %/ 6) + dx)%:~R * dist, (Posz (a %% 6) + dy)%:~R * dist, 0) :> F * F * F by rewrite !intrD !mulrDl.
have -> : (a \in bulk) = (2 <= a %/ 6 <= 3)%N && (2 <= a %% 6 <= 3)%N.
  by move: a Ha {E}; do 36 (case; first by []).
split=> [H dx dy Hxy|H].
  rewrite E Hm.
  have Hx : (absz dx <= 2)%N by nia.
  have Hy : (absz dy <= 2)%N by nia.
  by apply/andP; split; lia.
have P dx dy : (absz dx ^ 2 + absz dy ^ 2 <= 4)%N -> (0 <= Posz (a %/ 6) + dx < 6) && (0 <= Posz (a %% 6) + dy < 6).
  by move=> Hxy; have := H dx dy Hxy; rewrite E Hm.
have := P 2 0 isT; have := P (-2) 0 isT; have := P 0 2 isT; have := P 0 (-2) isT; lia.
Qed.

Definition near (r2 a : nat) : seq nat := [seq b <- iota 0 36 | (sq_gap (a %/ 6) (b %/ 6) + sq_gap (a %% 6) (b %% 6))%N == r2].
Lemma near_shells : [/\ all (fun a => perm_eq [:: a] (near 0 a)) bulk, all (fun a => perm_eq (shell_1 a) (near 1 a)) bulk,
  all (fun a => perm_eq (shell_sqrt2 a) (near 2 a)) bulk & all (fun a => perm_eq (shell_2 a) (near 4 a)) bulk].
Proof. by []. Qed.
Lemma accumulateE corr shell : accumulate corr shell = \sum_(a <- bulk) \sum_(b <- shell a) corr a b :> F.
Proof.
have inner_fold (g : nat -> F) c l : foldl (fun c b => c + g b) c l = c + \sum_(b <- l) g b.
  by elim: l c => [|b l IH] c; rewrite ?big_nil ?addr0 //= IH big_cons addrA.
suff H c l : foldl (fun c a => foldl (fun c b => c + corr a b) c (shell a)) c l = c + \sum_(a <- l) \sum_(b <- shell a) corr a b.
  by rewrite /accumulate H add0r.
by elim: l c => [|a l IH] c; rewrite ?big_nil ?addr0 //= IH inner_fold big_cons addrA.
Qed.
Theorem C117_radial mol dist corr : sheet 36 dist = Some mol -> dist != 0 ->
  radial_correlations corr = [seq (\sum_(a <- bulk) shell_sum mol dist r2 corr a) / 4%:R | r2 <- [:: 0; 1; 2; 4]%N].
Proof.
move=> Hm Hd; have [N0 N1 N2 N4] := near_shells.
have S r2 shell : all (fun a => perm_eq (shell a) (near r2 a)) bulk ->
    accumulate corr shell = \sum_(a <- bulk) shell_sum mol dist r2 corr a.
  move=> /allP H; rewrite accumulateE; apply: eq_big_seq => a Ha.
  have Ha36 : (a < 36)%N by move: Ha; rewrite !inE => /or4P [] /eqP ->.
  by rewrite (perm_big _ (H a Ha)) /near big_filter (shell_sumE _ _ Hm Hd Ha36).
rewrite /radial_correlations (S _ _ N1) (S _ _ N2) (S _ _ N4) [RHS]/= -(S _ _ N0) accumulateE.
by congr (_ / _ :: _); rewrite /bulk /= !big_cons !big_nil !addr0 add0r !addrA.
Qed.

(* the outer values are sums over four neighbours, not averages over pairs *)
Theorem C117_constant (c : F) : radial_correlations (fun _ _ => c) = [:: c; 4%:R * c; 4%:R * c; 4%:R * c].
Proof.
have n4 : 4%:R != 0 :> F by rewrite pnatr_eq0.
have E (x : F) : x + x + x + x = x * 4%:R by rewrite mulr_natr !mulrSr mulr0n add0r.
have E4 shell : (forall a, size (shell a) = 4%N) -> accumulate (fun _ _ => c) shell / 4%:R = 4%:R * c.
  move=> H; rewrite accumulateE.
  have E1 a : \sum_(b <- shell a) c = c * 4%:R by rewrite big_const_seq count_predT H iter_addr_0 mulr_natr.
  rewrite (eq_bigr _ (fun a _ => E1 a)) /bulk !big_cons !big_nil addr0 !addrA E mulfK // mulrC.
  by [].
by rewrite /radial_correlations !E4 //= add0r E mulfK.
Qed.
End Sheet.

(* six atoms: two rows of three; seven atoms: a single row; the atoms 14 and 20 are neighbours *)
Example C117_example : [/\ closest_divisors 12 = Some (3, 4)%N, closest_divisors 7 = Some (1, 7)%N, closest_divisors 36 = Some (6, 6)%N,
  sheet 6 (1 : rat) = Some [:: (0, 0, 0); (0, 1, 0); (0, 2%:R, 0); (1, 0, 0); (1, 1, 0); (1, 2%:R, 0)] &
  nth 0 (radial_correlations (fun a b => ((a == 14) && (b == 20))%N%:R : rat)) 1 = 1 / 4%:R].
Proof. by split. Qed.
Print Assumptions C117_closest.
Print Assumptions C117_spacing.
Print Assumptions C117_bulk.
Print Assumptions C117_radial.
Print Assumptions C117_constant.
