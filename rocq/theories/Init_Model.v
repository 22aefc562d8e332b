(* GPSKet/nn/initializers.py: normal (L6-33) and orthogonal (L36-64).  Real numbers are Coq's, a complex
   number is the pair of its parts.  A draw of jax.random.normal is an argument: for a complex dtype it has
   two parts.  Shapes: one entry at a time for normal, since every entry is treated alike. *)
From Coq Require Import Reals.
From Verif Require Import Base Rstruct.
Local Open Scope ring_scope.
Local Notation RR := R_realFieldType.

Inductive dtype := Float | Complex.
(* x.astype(dtype) of a complex number; to a real type the imaginary part is dropped *)
Definition astype (d : dtype) (z : RR * RR) : RR * RR := if d is Complex then z else (z.1, 0).
(* jnp.exp(1j * phase) *)
Definition expi (phase : RR) : RR * RR := (cos phase, sin phase).
(* jax.random.normal(key, shape, dtype) given the underlying numbers *)
Definition normal_draw (d : dtype) (z : RR * RR) : RR * RR := if d is Complex then z else (z.1, 0).

(* L19-33: [outer] is the dtype given to normal, [inner] the one given to the function it returns *)
Definition normal (sigma : RR) (outer inner : dtype) (z : RR * RR) : RR * RR :=
  if outer is Complex then astype inner (expi (z.1 * sigma)%R)
  else (1 + (normal_draw inner z).1 * sigma, (normal_draw inner z).2 * sigma).
(* the defaults: normal() is normal(0.1, float), the returned function defaults to the same dtype *)
Definition normal_default (inner : dtype) (z : RR * RR) : RR * RR := normal (1 / 10%:R) Float inner z.

Section Orthogonal.
Variables (K : Type) (m n : nat).
(* jax.nn.initializers.orthogonal(scale, column_axis, dtype)(key, (m, n)) *)
Variable ortho_init : K -> 'M[RR]_(m, n).
(* L54-62: W is a stack of matrices, its i-th one is overwritten *)
Definition orthogonal (shape : seq nat) (keys : seq K) : option (seq 'M[RR]_(m, n)) :=
  if shape is [:: s0; _; _] then
    Some (foldl (fun W iK => set_nth 0 W iK.1 (ortho_init iK.2)) (nseq s0 0) (zip (iota 0 s0) keys))
  else None.
End Orthogonal.
