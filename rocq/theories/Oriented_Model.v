(** Model of the factories of the layered elements with per-cell data. Source: /repo/feax/mechanics/layered_solid_element.py:577-675 and 725-769.
    Arrays are rectangular: [n_ply] is the second size of the stiffness array and [cte_shape] the first two sizes of the expansion array. *)
From Coq Require Import Reals List Arith Bool.
From Verif Require Import Tmc_Model Adaptive_Model Layered_Model.
Import ListNotations.
Open Scope R_scope.

Definition zten : ten := fun _ _ _ _ => 0.
Definition zmat : mat := fun _ _ => 0.
Inductive built := Unsupported | BadShape | Built (c_quad : list (list ten)) (eps_th : option (list (list mat))).

(** layered_solid_element.py:577-675 [create_oriented_layered_solid]: [Unsupported] is the NotImplementedError (635), [BadShape] the ValueErrors (642, 663).
    The reference quadrature and the gradients are those of [layered_quadrature]. *)
Definition create_oriented (hex8 : bool) (gi gz : list (R * R)) (n_ply : nat) (C : list (list ten)) (thick : list R) (with_thermal : bool)
    (cte : option ((nat * nat) * list (list mat))) : built :=
  if negb hex8 then Unsupported
  else if negb (length thick =? n_ply)%nat then BadShape
  else
    let cq := map (expand_plies zten gi gz thick) C in
    if with_thermal then
      match cte with
      | Some ((nc, np), rows) =>
          if ((nc =? length C)%nat && (np =? n_ply)%nat)%bool then Built cq (Some (map (expand_plies zmat gi gz thick) rows)) else BadShape
      | None => Built cq (Some (map (fun _ => map (fun _ => zmat) (layered_quadrature gi gz thick)) C))
      end
    else Built cq None.
