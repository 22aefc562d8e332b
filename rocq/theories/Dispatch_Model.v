(* scripts/ARGPS/argps: the choice of the system (systems.py get_system, L15-31) and of the sampler (samplers.py
   get_sampler, L17-54) from the configuration, and the configurations in configs/heisenberg2d.py, configs/hubbard1d.py,
   configs/hydrogen.py.  Only the entries which decide about classes are kept. *)
From Coq Require Import String.
From Verif Require Import Base Argps_Model.

(* a ConfigDict; c_molecule: system.molecule is set and not empty (after resolve); c_normalize: model.normalize, if any *)
Record config := Config { c_system_name : string; c_molecule : bool; c_model_name : string; c_symmetries : string;
  c_normalize : option bool; c_sampler_name : string }.

Inductive system := Heisenberg | Molecule | Hubbard.
(* systems.py L25-31; None: no branch returns *)
Definition get_system (c : config) : option system :=
  let name := c_system_name c in
  if substring_of "Heisenberg" name || substring_of "J1J2" name then Some Heisenberg
  else if c_molecule c then Some Molecule
  else if substring_of "Hubbard" name then Some Hubbard else None.

(* the sampler classes of samplers.py L11-15 *)
Inductive sampler_class := MetropolisExchange | MetropolisHopping | ARDirectSampler.
Definition samplers (name : string) : option sampler_class :=
  if String.eqb name "MetropolisExchange" then Some MetropolisExchange
  else if String.eqb name "MetropolisHopping" then Some MetropolisHopping
  else if String.eqb name "ARDirectSampler" then Some ARDirectSampler else None.
(* the class, whether dtype = uint8 is passed, and the keyword graph *)
Record sampler := Sampler { s_class : sampler_class; s_uint8 : bool; s_graph : option graph }.
(* samplers.py L32-54; None where it raises *)
Definition get_sampler (c : config) (g : option graph) : option sampler :=
  let refused := if c_normalize c is Some normalize then ~~ normalize && String.eqb (c_sampler_name c) "ARDirectSampler" else false in
  if refused then None else
  if samplers (c_sampler_name c) is Some cls then
    Some (Sampler cls (c_molecule c && ~~ String.eqb (c_sampler_name c) "MetropolisHopping")
                  (if String.eqb (c_sampler_name c) "MetropolisExchange" then g else None))
  else None.

(* configs/heisenberg2d.py L6-60; None: the ValueError of L8-11 *)
Definition heisenberg2d (model : string) : option config :=
  if ~~ listed model model_names then None else
  Some (Config "Heisenberg2d" false model "none" None
    (if substring_of "AR" model then "ARDirectSampler" else "MetropolisExchange")%string).
(* configs/hubbard1d.py L5-42 *)
Definition hubbard1d : config := Config "Hubbard1d" false "ARFilterGPS" "none" None "ARDirectSampler".
(* configs/hydrogen.py L32-89 with resolve (configs/common.py L41-60); [atoms]: n_atoms is not 0 *)
Definition hydrogen (options : string) (atoms : bool) : option config :=
  if split_comma options is [:: geometry; basis; dtype] then
    if ~~ listed geometry [:: "chain"; "sheet"]%string then None else
    if ~~ listed basis [:: "canonical"; "local"]%string then None else
    if ~~ listed dtype [:: "real"; "complex"]%string then None else
    Some (Config ("H" ++ geometry)%string atoms "ARGPS" "none" None "ARDirectSampler")
  else None.
(* an assignment to an existing entry, --config.sampler_name=... or --config.model.symmetries=... *)
Definition with_sampler (name : string) (c : config) : config :=
  Config (c_system_name c) (c_molecule c) (c_model_name c) (c_symmetries c) (c_normalize c) name.
Definition with_symmetries (syms : string) (c : config) : config :=
  Config (c_system_name c) (c_molecule c) (c_model_name c) syms (c_normalize c) (c_sampler_name c).
