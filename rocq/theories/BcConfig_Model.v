(** Model of the ways a set of Dirichlet conditions is put together. Source: /repo/feax/DCboundary.py. *)
From Coq Require Import ZArith List Bool Arith.
From Verif Require Import Base Dof_Model Bc_Model.
Import ListNotations.

Section Config.
  Variable K : CRing.
  Variable Pt : Type.
  (** The arguments of one [add] call: location, component as written, value. *)
  Definition entry : Type := location Pt * comp_arg * (Pt -> K).
  (** DCboundary.py:360-392 [DirichletBCConfig.add]: the spec is validated when it is made (296-325); it has no variable index. A ValueError leaves the configuration as it was. *)
  Definition add (specs : list (spec K Pt)) (e : entry) : res (list (spec K Pt)) :=
    let '(l, c, v) := e in
    match normalise_component c with
    | Ok c => Ok (specs ++ [Build_spec K l c v None])
    | IndexError => IndexError | ValueError => ValueError | TypeError => TypeError
    end.
  (** [config.add(...).add(...)]: the calls in order, up to the first exception. *)
  Fixpoint adds (specs : list (spec K Pt)) (es : list entry) : res (list (spec K Pt)) :=
    match es with
    | [] => Ok specs
    | e :: t => match add specs e with Ok s => adds s t | IndexError => IndexError | ValueError => ValueError | TypeError => TypeError end
    end.
  (** DCboundary.py:62-88 [from_specs] and 504-535 [dirichlet_bc_config] followed by [create_bc]. *)
  Definition from_specs (d : Pt) (fes : list (fe Pt)) (specs : list (spec K Pt)) : res (dirichlet K) := create_bc d fes specs.
  (** DCboundary.py:93-111 [_dirichletbc_flatten]: the arrays and the static part. *)
  Definition flatten (bc : dirichlet K) : (list nat * list bool * list K) * nat := ((bc_rows bc, bc_mask bc, bc_vals bc), bc_total bc).
  (** DCboundary.py:114-137 [_dirichletbc_unflatten]. *)
  Definition unflatten (aux : nat) (arrays : list nat * list bool * list K) : dirichlet K :=
    let '(rows, mask, vals) := arrays in Build_dirichlet K rows mask vals aux.
End Config.
