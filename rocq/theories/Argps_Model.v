(* scripts/ARGPS/argps/models.py: the choice of the model from the configuration (get_model, L27-120), its symmetry
   transformations (get_symmetry_transformation_spin, L123-220) and its filters (get_plaquettes_and_masks, L339-360).
   The groups of a NetKet graph (automorphisms, translation_group, point_group) are arrays of permutations. *)
From Coq Require Import String Ascii Reals.
From Verif Require Import Base Rstruct QGPS_Model AR_Model AR_Phase_Model.
Import Num.Theory Order.TTheory.
Local Open Scope ring_scope.
Local Notation RR := R_realFieldType.

(* str.split(",") *)
Fixpoint split_comma (s : string) : seq string :=
  match s with
  | EmptyString => [:: EmptyString]
  | String c s' => if Ascii.eqb c "," then EmptyString :: split_comma s' else
      if split_comma s' is w :: ws then String c w :: ws else [::]
  end.
(* sub in s, and s in a list *)
Definition substring_of (sub s : string) : bool := if String.index 0 sub s is Some _ then true else false.
Definition listed (s : string) (l : seq string) : bool := has (String.eqb s) l.

(* g.automorphisms(), g.translation_group(), g.point_group() with to_array(): one permutation per row; g.ndim == 2 and
   g.pbc.all() *)
Record graph := Graph { g_aut : seq (seq nat); g_trans : seq (seq nat); g_point : seq (seq nat); g_torus : bool }.

(* L17-24 *)
Definition model_names : seq string :=
  [:: "GPS"; "FilterGPS"; "ARGPS"; "MaskedGPS"; "ARFilterGPS"; "MaskedFilterGPS"]%string.
Definition is_gps (name : string) : bool := String.eqb name "GPS" || String.eqb name "FilterGPS".

(* L55-68 *)
Definition requested (which : string) (groups : seq string) : bool :=
  listed which groups || String.eqb (head EmptyString groups) "all" || String.eqb (head EmptyString groups) "automorphisms".
(* L143-150: the columns of syms; None without automorphisms *)
Definition sym_perms (translations point_symmetries : bool) (g : graph) : option (seq (seq nat)) :=
  if translations && point_symmetries then Some (g_aut g)
  else if translations then Some (g_trans g)
  else if point_symmetries then Some (g_point g) else None.
(* L157-160 *)
Definition inv_centre (name : string) : int := if is_gps name then 1 else 0.

(* symmetries(samples), L163-166, L182-184, L195-198, L211-213: one copy per operation *)
Definition symmetries (centre : int) (s : symset) (x : seq int) : seq (seq int) :=
  let out := if sy_perms s is Some ps then [seq [seq nth 0 x j | j <- p] | p <- ps] else [:: x] in
  if sy_flip s then out ++ [seq [seq centre - o | o <- y] | y <- out] else out.
(* inv_symmetries(sample_at_indices, indices), L168-178, L186-191, L200-207, L215-218: per operation the values and
   sites; inv_perm is the double loop L151-154 *)
Definition inv_symmetries (centre : int) (s : symset) (occs : seq int) (sites : seq nat) : seq (seq int * seq nat) :=
  let inv_sites := if sy_perms s is Some ps then [seq [seq nth 0%N (inv_perm p) i | i <- sites] | p <- ps] else [:: sites] in
  if sy_flip s then [seq (occs, ss) | ss <- inv_sites] ++ [seq ([seq centre - o | o <- occs], ss) | ss <- inv_sites]
  else [seq (occs, ss) | ss <- inv_sites].

(* get_plaquettes_and_masks L350-360 for hilbert.size = L; the rows are distinguished by their first entry *)
Definition get_plaquettes (L : nat) (g : option graph) (i j : nat) : nat :=
  match g with
  | Some gr => if g_torus gr then nth 0%N (nth [::] (sort (fun p q => (head 0%N p <= head 0%N q)%N) (g_trans gr)) i) j
               else circulant L i j
  | None => circulant L i j
  end.
Definition get_masks (L : nat) (g : option graph) (i j : nat) : bool := autoreg_masks (get_plaquettes L g) i j.

(* what get_model builds: class, support dimension, symmetries, normalize, filters *)
Inductive machine :=
| MGPS of nat & int & symset
| MARFull of nat & int & symset & bool
| MARPlaq of nat & int & symset & bool & (nat -> nat -> nat) & (nat -> nat -> bool).

(* get_model L43-120; None where it raises.  [chain]: nk.graph.Chain of the system (L106-107) *)
Definition get_model (name symmetries_option system_name : string) (M L : nat) (g : option graph) (chain : graph) : option machine :=
  if ~~ listed name model_names then None else
  let s := if g is Some gr then
      let groups := split_comma symmetries_option in
      SymSet (sym_perms (requested "translations" groups) (requested "point-symmetries" groups) gr) (requested "spin-flip" groups)
    else SymSet None false in
  if ~~ is_gps name then
    let normalize := substring_of "AR" name in
    if substring_of "Filter" name then Some (MARPlaq M (inv_centre name) s normalize (get_plaquettes L g) (get_masks L g))
    else Some (MARFull M (inv_centre name) s normalize)
  else if substring_of "Filter" name then
    let g' := if String.eqb system_name "Hubbard1d" then Some chain else g in
    if g' is Some gr then Some (MGPS M (inv_centre name) (SymSet (sym_perms true false gr) false)) else None
  else Some (MGPS (L * M) (inv_centre name) s).

(* the wave function.  V: log-amplitudes with wexp v = exp(2 Re v), im v = Im v; to_index: states_to_local_indices *)
Section Value.
Variables (V : fieldType) (wexp im : V -> RR) (carg : RR * RR -> RR) (to_index : int -> nat).
Variables (D L : nat) (constrained : bool) (count_spins : nat -> seq nat) (renorm : seq nat -> nat -> seq bool).
Variable eps : nat -> nat -> nat -> V.

(* the symmetrised __call__ of the autoregressive models (see AR_Model, AR_Phase_Model) with the option normalize;
   the copies of the input are made before they are converted into indices *)
Section AR.
Variables (md : model V) (M : nat) (normalize : bool).
Notation lc := (log_conditionals D L constrained count_spins renorm (cache0 V D M) (model_site (fun l => \sum_(v <- l) v) D M L md)).
Definition modulus_one (x : seq nat) : RR :=
  \prod_(i < L) nth 0 (nth [::] [seq (if normalize then normalized (weights wexp lp) else weights wexp lp) | lp <- lc x] i) (nth 0%N x i).
Definition phase_of (x : seq nat) : RR := \sum_(i < L) im (nth (0, true) (nth [::] (lc x) i) (nth 0%N x i)).1.
Definition ar_value (centre : int) (s : symset) (x : seq int) : RR * RR :=
  let copies := [seq map to_index y | y <- symmetries centre s x] in
  amplitude ((\sum_(y <- copies) modulus_one y) / (size copies)%:R)
    (carg (\sum_(y <- copies) (cos (phase_of y) : RR), \sum_(y <- copies) (sin (phase_of y) : RR))).
End AR.

(* qGPS: the indices are transformed; log-amplitude *)
Definition gps_value (M : nat) (centre : int) (s : symset) (x : seq int) : V :=
  default_out [seq site_prod eps M (map absz y) | y <- symmetries centre s [seq (to_index o)%:Z | o <- x]].

Definition value (m : machine) (x : seq int) : V + RR * RR :=
  match m with
  | MGPS M c s => inl (gps_value M c s x)
  | MARFull M c s n => inr (ar_value (ARFull eps) M n c s x)
  | MARPlaq M c s n plaquettes masks => inr (ar_value (ARPlaq masks plaquettes eps) M n c s x)
  end.
End Value.
