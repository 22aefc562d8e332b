(* supervised/supervised_qgps.py: QGPSLearning with computed features (precomputed_features False):
   the cached site products and kernel matrices (L80-108, L137-259, L453-457), the in-place update
   of epsilon at the reference sites (L493-513) as far as the cache is concerned, and the
   predictions (L539-558, L1090-1107).
   epsilon has shape (D, M, L), L = l + 1 sites.  A data point of confs (shape (n, L, T)) is the
   list of its T symmetry-transformed configurations.  The floating point test
   abs(x) > 100 * machine epsilon (L163, L170) is the predicate [big].
   numpy arrays are values; where the code keeps a reference to an array of the caller
   (L103, L195, L206, L229), see [caller_writes_refs] and [caller_writes_confs]. *)
From Verif Require Import Base.
Local Open Scope ring_scope.

Section Learner.
Variables (C : fieldType) (big : C -> bool) (D M l : nat).
Notation site := 'I_l.+1.
Notation conf := (l.+1.-tuple 'I_D).
Notation confset := (seq (seq conf)).
Notation epsilons := {ffun 'I_D * 'I_M * site -> C}.
Notation refs := {ffun 'I_M -> site}.
(* the entries of site_prod (over w) and of K_per_sym (over w and the occupancy) *)
Notation prods := {ffun 'I_M -> C}.
Notation feats := {ffun 'I_M * 'I_D -> C}.

(* compute_site_prod_fast, L150-158 *)
Definition site_prod_of (e : epsilons) (r : refs) (c : conf) : prods :=
  [ffun w => \prod_(j < l.+1 | j != r w) e (tnth c j, w, j)].
Definition compute_site_prod (e : epsilons) (r : refs) (cs : confset) : seq (seq prods) :=
  map (map (site_prod_of e r)) cs.

(* update_site_prod_fast, L162-185 *)
Definition update_entry (e : epsilons) (r r_old : refs) (c : conf) (p : prods) : prods :=
  [ffun w =>
     if r w != r_old w then
       if big (e (tnth c (r w), w, r w))
       then p w / e (tnth c (r w), w, r w) * e (tnth c (r_old w), w, r_old w)
       else \prod_(j < l.+1 | j != r w) e (tnth c j, w, j)
     else p w].
Definition map2 (A B E : Type) (f : A -> B -> E) (s : seq A) (t : seq B) : seq E :=
  [seq f p.1 p.2 | p <- zip s t].
Definition update_site_prod_fast (e : epsilons) (r r_old : refs) (cs : confset) (sp : seq (seq prods)) :
    seq (seq prods) := map2 (map2 (update_entry e r r_old)) cs sp.

(* kernel_mat_inner, L139-146 *)
Definition kernel_entry (r : refs) (c : conf) (p : prods) : feats :=
  [ffun wd => if tnth c (r wd.1) == wd.2 then p wd.1 else 0].
Definition kernel_mat_inner (sp : seq (seq prods)) (cs : confset) (r : refs) : seq (seq feats) :=
  map2 (map2 (kernel_entry r)) cs sp.

Record learner := Learner {
  epsilon : epsilons;
  ref_sites : option refs;
  confs : option confset;
  site_prod : option (seq (seq prods));
  site_prod_ref_sites : refs;
  K_per_sym : option (seq (seq feats))
}.

(* L30-38: the state after __init__ (site_prod_ref_sites is not yet defined, any value) *)
Definition init_learner (e : epsilons) : learner :=
  Learner e None None None [ffun => ord0] None.

(* L80-90 and reset, L256-259 *)
Definition set_epsilon (st : learner) (e : epsilons) : learner :=
  Learner e (ref_sites st) (confs st) None (site_prod_ref_sites st) (K_per_sym st).

(* L97-103 with an array; an integer site is the constant array *)
Definition set_ref_sites (st : learner) (r : refs) : learner :=
  Learner (epsilon st) (Some r) (confs st) (site_prod st) (site_prod_ref_sites st) (K_per_sym st).

(* set_kernel_mat, L208-254; None: the assertion of L209 *)
Definition set_kernel_mat (st : learner) (cs : confset) : option learner :=
  if ref_sites st is Some r then
    let same_configs := if confs st is Some cs' then cs' == cs else false in
    let st1 :=
      if same_configs then
        match site_prod st with
        | None => Learner (epsilon st) (Some r) (Some cs)
                    (Some (compute_site_prod (epsilon st) r cs)) r None
        | Some sp =>
            if site_prod_ref_sites st != r then
              let sp' := update_site_prod_fast (epsilon st) r (site_prod_ref_sites st) cs sp in
              Learner (epsilon st) (Some r) (confs st) (Some sp') r
                (* update_K = True *)
                (Some (kernel_mat_inner sp' cs r))
            else st
        end
      else Learner (epsilon st) (Some r) (Some cs)
             (Some (compute_site_prod (epsilon st) r cs)) r None in
    Some (match K_per_sym st1, site_prod st1 with
          | None, Some sp => Learner (epsilon st1) (ref_sites st1) (confs st1) (site_prod st1)
                               (site_prod_ref_sites st1) (Some (kernel_mat_inner sp cs r))
          | _, _ => st1
          end)
  else None.

(* self.K without the column of ones, L249 *)
Definition K_matrix (st : learner) : seq feats :=
  if K_per_sym st is Some k then [seq [ffun wd => \sum_(p <- row) (p : feats) wd] | row <- k] else [::].

(* L453-457 *)
Definition set_up_prediction (st : learner) (cs : confset) : option learner :=
  set_kernel_mat (if ref_sites st is None then set_ref_sites st [ffun => ord0] else st) cs.

(* L493-513: new values at the reference sites, everything else of epsilon kept *)
Definition write_ref_sites (st : learner) (v : {ffun 'I_D * 'I_M -> C}) : learner :=
  if ref_sites st is Some r then
    Learner [ffun dwj => if dwj.2 == r dwj.1.2 then v dwj.1 else epsilon st dwj]
      (ref_sites st) (confs st) (site_prod st) (site_prod_ref_sites st) (K_per_sym st)
  else st.

(* setup_fit (L605, L611 or L1115, L1117), then update_epsilon_with_weights; the values written may
   depend on everything, here they are arbitrary *)
Definition fit_step (st : learner) (cs : confset) (r : refs) (v : {ffun 'I_D * 'I_M -> C}) : option learner :=
  if set_kernel_mat (set_ref_sites st r) cs is Some st1 then Some (write_ref_sites st1 v) else None.

(* --- predictions: log amplitudes.  QGPSLogSpaceFit.predict L1090-1107; QGPSLearningExp.predict
   (L539-558) is exp of it.  [bias] is 0 without include_bias *)
Definition predict (st : learner) (bias : C) (cs : confset) : option (seq C) :=
  if set_up_prediction st cs is Some st1 then
    if ref_sites st1 is Some r then
      Some [seq \sum_(wd : 'I_M * 'I_D) (row : feats) wd * epsilon st1 (wd.2, wd.1, r wd.1) + bias
           | row <- K_matrix st1]
    else None
  else None.

(* --- histories of calls of the public methods *)
Inductive op :=
  | OpSetRefs of refs
  | OpPredict of confset
  | OpFit of confset & refs & {ffun 'I_D * 'I_M -> C}
  | OpReset of epsilons.
Definition run_op (st : learner) (o : op) : option learner :=
  match o with
  | OpSetRefs r => Some (set_ref_sites st r)
  | OpPredict cs => set_up_prediction st cs
  | OpFit cs r v => fit_step st cs r v
  | OpReset e => Some (set_epsilon st e)
  end.
Definition run (st : learner) (os : seq op) : option learner :=
  foldl (fun s o => obind (run_op^~ o) s) (Some st) os.

(* The setter L103 stores the array of the caller and L195/L206 another reference to it: after
   set_kernel_mat a write of the caller into that array changes both fields *)
Definition caller_writes_refs (st : learner) (r : refs) : learner :=
  Learner (epsilon st) (Some r) (confs st) (site_prod st) r (K_per_sym st).
(* L229 stores (a view of) the array of the caller *)
Definition caller_writes_confs (st : learner) (cs : confset) : learner :=
  Learner (epsilon st) (ref_sites st) (Some cs) (site_prod st) (site_prod_ref_sites st) (K_per_sym st).
End Learner.
