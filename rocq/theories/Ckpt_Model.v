(* The optimisation loops with check-pointing of scripts/GPS_for_ab_initio: H2O.py L301-371, H50_1D.py L118-188
   (the same code with max_count = 100) and H4x4x4.py L232-318.  One rank: the others receive the values of
   rank 0 (bcast), the variance is that of all samples.  An evaluation of the energy with the parameters p and the
   following update are an argument (oracle): variance at p and updated parameters. *)
From Verif Require Import Base.
Import Num.Theory Order.TTheory.
Local Open Scope ring_scope.

Section Ckpt.
Variables (P : Type) (R : realDomainType).
Definition oracle := P -> R * P.
(* vs.parameters, best_var, count, global_count; parameters.pickle, best_pars.pickle, out.txt (column 3) *)
Record st := St { par : P; best : option R; cnt : nat; gcnt : nat; f_par : option P; f_best : P; f_out : seq R }.

(* new calculation: H2O.py L313-319, H4x4x4.py L253-260; best_pars.pickle holds the initial parameters *)
Definition start (p0 : P) : st := St p0 None 0 0 None p0 [::].

(* body of the loop, H4x4x4.py L275-318; with mg = min_global_count = 0 the one of H2O.py L332-371 *)
Definition iteration (mg mx : nat) (o : oracle) (s : st) : st :=
  let: (v, p') := o (par s) in
  (* L280-290 *)
  let: (b, c, dump) := match best s with
    | None => (v, 0%N, false)
    | Some b => if v < b then (v, 0%N, true) else (b, (cnt s).+1, false) end in
  St (if (c < mx)%N then p' else par s) (if (gcnt s < mg)%N then None else Some b) c (gcnt s).+1
     (Some (par s)) (if dump then par s else f_best s) (rcons (f_out s) v).
(* while count < max_count; the list of oracles: the iterations done before the process ends *)
Fixpoint loop (mg mx : nat) (os : seq oracle) (s : st) : st :=
  if os is o :: os' then if (cnt s < mx)%N then loop mg mx os' (iteration mg mx o s) else s else s.

(* np.argmin: the first index of a smallest entry *)
Definition argmin (l : seq R) : nat := find (fun v => all (fun w => v <= w) l) l.
(* out_prev: genfromtxt gives a matrix, but for a single line an array with one axis, for which out_prev[:, 3] raises *)
(* H2O.py L303-312, H50_1D.py L120-130 *)
Definition restart (s : st) : option st :=
  match f_par s, f_out s with
  | None, _ => None
  | Some p, [::] => Some (St p None 0 0 (f_par s) (f_best s) (f_out s))
  | Some p, [:: _] => None
  | Some p, l => Some (St p (Some (nth 0 l (argmin l))) (size l - argmin l) (size l) (f_par s) (f_best s) l)
  end.
(* H4x4x4.py L236-252 *)
Definition restart_cubic (mg : nat) (s : st) : option st :=
  match f_par s, f_out s with
  | None, _ => None
  | Some p, [::] => Some (St p None 0 0 (f_par s) (f_best s) (f_out s))
  | Some p, [:: _] => None
  | Some p, l => let a := argmin l in
    if (a < mg)%N then Some (St p (Some (nth 0 l a)) (size l - a) (size l) (f_par s) (f_best s) l)
    else Some (St p None 0 (size l) (f_par s) (f_best s) l)
  end.
End Ckpt.
