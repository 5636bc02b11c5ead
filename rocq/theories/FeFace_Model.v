(** Model of the finite-element geometry on faces and at quadrature points (feax/fe.py), over the real numbers; the tabulated
    shape functions and facets come from basix (feax/basis.py) and are arguments here. *)
From Coq Require Import Reals List Arith Bool.
From Verif Require Import Tmc_Model Adaptive_Model.
Import ListNotations.
Open Scope R_scope.

(** [np.linalg.det] and [np.linalg.inv] in two and three dimensions. *)
Definition inv2 (A : nat -> nat -> R) (i j : nat) : R :=
  match i, j with
  | 0%nat, 0%nat => A 1%nat 1%nat | 0%nat, _ => - A 0%nat 1%nat
  | _, 0%nat => - A 1%nat 0%nat | _, _ => A 0%nat 0%nat
  end / det2 A.
Definition detd (dim : nat) (A : nat -> nat -> R) : R := if Nat.eqb dim 2 then det2 A else det3 A.
Definition invd (dim : nat) (A : nat -> nat -> R) : nat -> nat -> R := if Nat.eqb dim 2 then inv2 A else inv3 A.

Section Point.
Variables (dim nn : nat).
(** One (face) quadrature point: shape values [N a], reference gradients [dN a I], reference second derivatives [d2N a I J];
    cell nodes [X a i]. *)
Variables (N : nat -> R) (dN : nat -> nat -> R) (d2N : nat -> nat -> nat -> R) (X : nat -> nat -> R).
(** fe.py:120-121, 209: [jacobian_dx_deta]. *)
Definition jacobian (i I : nat) : R := rs nn (fun a => X a i * dN a I).
(** fe.py:123-127, 211-215: [shape_grads_physical], [face_shape_grads_physical]. *)
Definition grads (a j : nat) : R := rs dim (fun I => dN a I * invd dim jacobian I j).
(** fe.py:122, 128: [JxW]. *)
Definition jxw (w : R) : R := detd dim jacobian * w.
(** fe.py:219-221 [nanson_scale] at a face point with facet normal [n] and weight [w]. *)
Definition nanson (n : nat -> R) (w : R) : R :=
  sqrt (rs dim (fun j => rs dim (fun I => n I * invd dim jacobian I j) * rs dim (fun I => n I * invd dim jacobian I j))) * detd dim jacobian * w.
(** fe.py:238, 263 [get_physical_quad_points], [get_physical_surface_quad_points]. *)
Definition quad_point (i : nat) : R := rs nn (fun a => N a * X a i).
(** fe.py:340, 367 [convert_from_dof_to_quad], [convert_from_dof_to_face_quad]; [u a v] nodal values of the cell. *)
Definition to_quad (u : nat -> nat -> R) (v : nat) : R := rs nn (fun a => u a v * N a).
(** fe.py:388-389 [sol_to_grad]. *)
Definition to_grad (u : nat -> nat -> R) (v j : nat) : R := rs nn (fun a => u a v * grads a j).
(** fe.py:131-173 [_compute_shape_hessians]. *)
Definition hessian (a k l : nat) : R := rs dim (fun I => rs dim (fun J => d2N a I J * invd dim jacobian I k * invd dim jacobian J l)).
Definition u_hessian (u : nat -> nat -> R) (v k l : nat) : R := rs nn (fun a => u a v * hessian a k l).
End Point.

(** basis.py:229-239 [get_shape_hessians_ref]: the double loop with its running index; [tab s] the tabulated derivatives of a
    node at a point. *)
Definition pairs (dim : nat) : list (nat * nat) := flat_map (fun i => map (fun j => (i, j)) (seq i (dim - i))) (seq 0 dim).
Definition hessians_ref (dim : nat) (tab : nat -> R) : nat -> nat -> R :=
  fst (fold_left (fun st ij => let '(h, idx) := st in
                   ((fun i j => if (Nat.eqb i (fst ij) && Nat.eqb j (snd ij)) || (Nat.eqb j (fst ij) && Nat.eqb i (snd ij)) then tab idx else h i j), S idx))
                 (pairs dim) ((fun _ _ => 0), (1 + dim)%nat)).

(** basis.py:307-312: the weight of a facet point, with the facet Jacobian's columns [j0], [j1] (3D) or [j0] (2D); the
    outward normal of the facet is [+-] the normalised cross product (2D: the quarter turn). *)
Definition cross (a b : nat -> R) (i : nat) : R :=
  match i with
  | 0%nat => a 1%nat * b 2%nat - a 2%nat * b 1%nat
  | 1%nat => a 2%nat * b 0%nat - a 0%nat * b 2%nat
  | _ => a 0%nat * b 1%nat - a 1%nat * b 0%nat
  end.
Definition turn (a : nat -> R) (i : nat) : R := match i with 0%nat => a 1%nat | _ => - a 0%nat end.
Definition norm (d : nat) (a : nat -> R) : R := sqrt (rs d (fun i => a i * a i)).
Definition facet_weight3 (j0 j1 : nat -> R) (w : R) : R := w * norm 3 (cross j0 j1).
Definition facet_weight2 (j0 : nat -> R) (w : R) : R := w * norm 2 j0.

(** fe.py:267-318 [get_boundary_conditions_inds]: a location function of one or two arguments, or of a wrong number. *)
Inductive loc_fn (P : Type) := LF1 (f : P -> bool) | LF2 (f : P -> nat -> bool) | LFbad.
Arguments LF1 {P}. Arguments LF2 {P}. Arguments LFbad {P}.
Section Boundary.
Context {P : Type}.
Variable d : P.
Variables (points : list P) (cells : list (list nat)) (face_inds : list (list nat)).
Definition at_node (f : loc_fn P) (n : nat) : bool := match f with LF1 f => f (nth n points d) | LF2 f => f (nth n points d) n | LFbad => false end.
(** [np.take(self.cells, self.face_inds, axis=1)]. *)
Definition face_nodes (c f : nat) : list nat := map (fun k => nth k (nth c cells []) 0%nat) (nth f face_inds []).
(** [np.argwhere(boundary_flags)]: row-major. *)
Definition boundary_inds (fn : loc_fn P) : list (nat * nat) :=
  filter (fun cf => forallb (at_node fn) (face_nodes (fst cf) (snd cf))) (list_prod (seq 0 (length cells)) (seq 0 (length face_inds))).
Fixpoint boundary_list (fns : list (loc_fn P)) : option (list (list (nat * nat))) :=
  match fns with
  | [] => Some []
  | LFbad :: _ => None
  | f :: fns => match boundary_list fns with Some l => Some (boundary_inds f :: l) | None => None end
  end.
Definition get_boundary_conditions_inds (fns : option (list (loc_fn P))) : option (list (list (nat * nat))) :=
  match fns with None => Some [] | Some fns => boundary_list fns end.
End Boundary.
