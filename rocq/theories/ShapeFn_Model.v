(** Model of the shape function table of a cell for all nine supported types. Source: /repo/feax/basis.py:64-127 [get_elements], 150-192 [get_shape_vals_and_grads]. *)
From Coq Require Import Reals String List Arith ZArith.
From Verif Require Import Base Basis_Model Basis_Spec FaceQuad_Model Serendip_Model.
Import ListNotations.
Local Open Scope string_scope.
Local Open Scope list_scope.
Local Open Scope R_scope.

(** basis.py:186-189: the tabulated basis at a point of the reference cell, columns in mesh order ([kappa] as in Serendip_Model). *)
Definition shape_vals (kappa : R) (e : string) (p : rpoint) : option (list R) :=
  match get_elements e with
  | Some (Serendipity, _, _, ro) => take_inds (ser_basis kappa e p) ro
  | Some (_, _, _, ro) => take_inds (basis e p) ro
  | None => None
  end.
