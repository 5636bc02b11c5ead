(** Model of the layered composite solid (feax/mechanics/layered_solid_element.py), over the real numbers. *)
From Coq Require Import Reals List Arith Bool.
From Verif Require Import Tmc_Model Adaptive_Model Copv_Model.
Import ListNotations.
Open Scope R_scope.

Definition mat : Type := nat -> nat -> R.
Definition ten : Type := nat -> nat -> nat -> nat -> R.
Definition kd (i j : nat) : R := if Nat.eqb i j then 1 else 0.

(** layered_solid_element.py:57-61: the Voigt tables. *)
Definition voigt_tab : list (list nat) := [[0; 5; 4]; [5; 1; 3]; [4; 3; 2]]%nat.
Definition voigt (i j : nat) : nat := nth j (nth i voigt_tab []) 0%nat.
Definition voigt_pairs : list (nat * nat) := [(0, 0); (1, 1); (2, 2); (1, 2); (0, 2); (0, 1)]%nat.
Definition vpair (a : nat) : nat * nat := nth a voigt_pairs (0, 0)%nat.
(** layered_solid_element.py:64-73 [voigt_to_tensor]. *)
Definition voigt_to_tensor (C6 : mat) : ten := fun i j k l => C6 (voigt i j) (voigt k l).
(** layered_solid_element.py:76-81 [tensor_to_voigt]. *)
Definition tensor_to_voigt (C : ten) : mat := fun a b => let (i, j) := vpair a in let (k, l) := vpair b in C i j k l.

(** layered_solid_element.py:88-105 [isotropic_stiffness_3d]. *)
Definition isotropic (E nu : R) : ten := fun i j k l =>
  let lam := E * nu / ((1 + nu) * (1 - 2 * nu)) in let mu := E / (2 * (1 + nu)) in
  lam * (kd i j * kd k l) + mu * (kd i k * kd j l + kd i l * kd j k).
(** layered_solid_element.py:108-140 [orthotropic_stiffness_3d]: the compliance, and its inverse. The matrix is
    block diagonal (3x3 and diagonal), so [linalg.inv] is the inverse of the blocks. *)
Definition compliance (E1 E2 E3 G12 G13 G23 nu12 nu13 nu23 : R) : mat := fun a b =>
  match a, b with
  | 0, 0 => 1 / E1 | 1, 1 => 1 / E2 | 2, 2 => 1 / E3
  | 0, 1 => - nu12 / E1 | 1, 0 => - nu12 / E1
  | 0, 2 => - nu13 / E1 | 2, 0 => - nu13 / E1
  | 1, 2 => - nu23 / E2 | 2, 1 => - nu23 / E2
  | 3, 3 => 1 / G23 | 4, 4 => 1 / G13 | 5, 5 => 1 / G12
  | _, _ => 0
  end.
Definition inv6 (S : mat) : mat := fun a b =>
  if (a <? 3)%nat && (b <? 3)%nat then inv3 S a b else if Nat.eqb a b then / S a a else 0.
Definition orthotropic (E1 E2 E3 G12 G13 G23 nu12 nu13 nu23 : R) : ten :=
  voigt_to_tensor (inv6 (compliance E1 E2 E3 G12 G13 G23 nu12 nu13 nu23)).
(** layered_solid_element.py:143-163 [transverse_isotropic_stiffness_3d]. *)
Definition transverse_isotropic (E1 E2 G12 nu12 nu23 : R) : ten :=
  orthotropic E1 E2 E2 G12 G12 (E2 / (2 * (1 + nu23))) nu12 nu12 nu23.
(** layered_solid_element.py:174-187 [isotropic_cte_3d], [transverse_isotropic_cte_3d]. *)
Definition isotropic_cte (alpha : R) : mat := fun i j => alpha * kd i j.
Definition transverse_isotropic_cte (a1 a2 : R) : mat := fun i j => (if Nat.eqb i 0 then a1 else a2) * kd i j.

(** layered_solid_element.py:194-208 [rotation_matrix_axis], Rodrigues' formula; division by the norm of the axis. *)
Definition skew (a : nat -> R) : mat := fun i j =>
  match i, j with
  | 0, 1 => - a 2%nat | 0, 2 => a 1%nat | 1, 0 => a 2%nat | 1, 2 => - a 0%nat | 2, 0 => - a 1%nat | 2, 1 => a 0%nat | _, _ => 0
  end.
Definition rotation (theta : R) (axis : nat -> R) : mat :=
  let n := sqrt (rs 3 (fun i => axis i * axis i)) in let a := fun i => axis i / n in let K := skew a in
  fun i j => kd i j + sin theta * K i j + (1 - cos theta) * rs 3 (fun k => K i k * K k j).
(** layered_solid_element.py:211-227 [rotate_stiffness_3d], [rotate_cte_3d]. *)
Definition rot4 (C : ten) (R : mat) : ten := fun i j k l =>
  rs 3 (fun p => rs 3 (fun q => rs 3 (fun r => rs 3 (fun s => R i p * R j q * R k r * R l s * C p q r s)))).
Definition rot2 (al : mat) (R : mat) : mat := fun i j => rs 3 (fun p => rs 3 (fun q => R i p * R j q * al p q)).
(** Contraction [einsum("ijkl,kl->ij")]. *)
Definition ddot (C : ten) (e : mat) : mat := fun i j => rs 3 (fun k => rs 3 (fun l => C i j k l * e k l)).

(** layered_solid_element.py:234-243 [_broadcast_plies]. *)
Inductive plies := OnePly (C : ten) | PerPly (l : list ten).
Definition broadcast_plies (p : plies) (n : nat) : option (list ten) :=
  match p with OnePly C => Some (repeat C n) | PerPly l => if (length l =? n)%nat then Some l else None end.

(** ** Quadrature *)
(** layered_solid_element.py:246-249 [_gauss1d_unit]; the rule on [-1, 1] is an argument. *)
Definition unit_rule (g : list (R * R)) : list (R * R) := map (fun xw => (1 / 2 * (fst xw + 1), 1 / 2 * snd xw)) g.
(** layered_solid_element.py:271-273: ply interfaces in reference coordinates. *)
Fixpoint cumsum (s : R) (l : list R) : list R := match l with [] => [] | x :: r => (s + x) :: cumsum (s + x) r end.
Definition rsuml (l : list R) : R := fold_right Rplus 0 l.
Definition interfaces (thick : list R) : list R := 0 :: map (fun x => x / rsuml thick) (cumsum 0 thick).
(** layered_solid_element.py:275-291 [layered_reference_quadrature]: points with weight and ply. *)
Record qpoint := { q_xi : R; q_eta : R; q_zeta : R; q_w : R; q_ply : nat }.
Definition ply_points (gi gz : list (R * R)) (thick : list R) (k : nat) : list qpoint :=
  let a := nth k (interfaces thick) 0 in let b := nth (k + 1) (interfaces thick) 0 in
  flat_map (fun zw => flat_map (fun xw => map (fun yw =>
    {| q_xi := fst xw; q_eta := fst yw; q_zeta := a + (b - a) * fst zw; q_w := snd xw * snd yw * ((b - a) * snd zw); q_ply := k |})
    (unit_rule gi)) (unit_rule gi)) (unit_rule gz).
Definition layered_quadrature (gi gz : list (R * R)) (thick : list R) : list qpoint :=
  flat_map (ply_points gi gz thick) (seq 0 (length thick)).

(** layered_solid_element.py:453-471: the per-ply rotated stiffness and its expansion to the points; [None] for the
    length mismatches. *)
Definition unit_axis (v : nat -> R) : nat -> R := fun i => v i / sqrt (rs 3 (fun j => v j * v j)).
Definition rotated_plies (p : plies) (angles : list R) (normal : nat -> R) : option (list ten) :=
  match broadcast_plies p (length angles) with
  | None => None
  | Some Cs => Some (map (fun ca => rot4 (fst ca) (rotation (snd ca) (unit_axis normal))) (combine Cs angles))
  end.
Definition c_quad (gi gz : list (R * R)) (p : plies) (angles thick : list R) (normal : nat -> R) : option (list ten) :=
  if (length thick =? length angles)%nat then
    match rotated_plies p angles normal with
    | None => None
    | Some Cr => Some (map (fun q => nth (q_ply q) Cr (fun _ _ _ _ => 0)) (layered_quadrature gi gz thick))
    end
  else None.

(** ** Element kernels *)
Section Kernel.
Variable nq nn : nat.
Variable dN : nat -> nat -> nat -> R. (* reference gradients: point, node, direction *)
Variable w : nat -> R.                (* weights *)
Variable X : nat -> nat -> R.         (* node coordinates *)
(** layered_solid_element.py:382-390, 519-526: Jacobian, determinant, physical gradients. *)
Definition jac (q : nat) : mat := fun i I => rs nn (fun a => X a i * dN q a I).
Definition dNdx (q a i : nat) : R := rs 3 (fun I => dN q a I * inv3 (jac q) I i).
Definition jxw (q : nat) : R := w q * det3 (jac q).
Definition grad_u (u : nat -> nat -> R) (q i j : nat) : R := rs nn (fun a => u a i * dNdx q a j).
Definition strain (u : nat -> nat -> R) (q : nat) : mat := fun i j => 1 / 2 * (grad_u u q i j + grad_u u q j i).
(** layered_solid_element.py:388-396, 528-547, 805-818: stress, with optional thermal eigenstrain, and residual. *)
Definition stress (C : nat -> ten) (eth : option (nat -> mat)) (u : nat -> nat -> R) (q : nat) : mat :=
  ddot (C q) (fun k l => strain u q k l - match eth with None => 0 | Some e => e q k l end).
Definition residual_of (sigma : nat -> mat) (a i : nat) : R := rs nq (fun q => rs 3 (fun j => jxw q * sigma q i j * dNdx q a j)).
Definition residual (C : nat -> ten) (eth : option (nat -> mat)) (u : nat -> nat -> R) : nat -> nat -> R :=
  residual_of (stress C eth u).
(** layered_solid_element.py:707-720 [GeometricStiffnessSolid]: geometric stiffness residual. *)
Definition geo_residual (s0 : nat -> mat) (u : nat -> nat -> R) (a c : nat) : R :=
  rs nq (fun q => rs 3 (fun i => jxw q * dNdx q a i * rs 3 (fun j => s0 q i j * grad_u u q c j))).
End Kernel.

(** layered_solid_element.py:551-574 [expand_cte_to_quad] and 652, 666 for one cell: per-ply values to points. *)
Definition expand_plies {A} (d : A) (gi gz : list (R * R)) (thick : list R) (per_ply : list A) : list A :=
  map (fun q => nth (q_ply q) per_ply d) (layered_quadrature gi gz thick).
(** layered_solid_element.py:321-345 [interpolate_nodal_to_layered_quad] for one cell: [N] are the shape values. *)
Definition interpolate_nodal (nn : nat) (N : nat -> nat -> R) (vals : nat -> R) (q : nat) : R := rs nn (fun a => N q a * vals a).

(** copv.py:404-461 [create_winding_ply_stiffness] and 464-517 [create_winding_cte] for one cell: the ply tensors
    rotated by the frames with columns f1, f2, e3; the fill tensor on fill cells if given. *)
Definition vcomp (p : vec) (i : nat) : R := match i with 0%nat => vx p | 1%nat => vy p | _ => vz p end.
Definition frame_matrix (f : vec * vec * vec) : mat :=
  fun i p => vcomp (match p with 0%nat => fst (fst f) | 1%nat => snd (fst f) | _ => snd f end) i.
Definition winding_stiffness (nodes : list vec) (is_dome : bool) (axis : vec) (r_p : R) (layup : list (String.string * R)) (drop : bool)
    (z : zone) (ply_C : ten) (fill_C : option ten) : list ten :=
  match fill_C, z with
  | Some C, Fill => repeat C (length layup)
  | _, _ => map (fun f => rot4 ply_C (frame_matrix f)) (ply_frames nodes is_dome axis r_p layup drop)
  end.
Definition winding_cte (nodes : list vec) (is_dome : bool) (axis : vec) (r_p : R) (layup : list (String.string * R)) (drop : bool)
    (z : zone) (ply_a : mat) (fill_a : option mat) : list mat :=
  match fill_a, z with
  | Some a, Fill => repeat a (length layup)
  | _, _ => map (fun f => rot2 ply_a (frame_matrix f)) (ply_frames nodes is_dome axis r_p layup drop)
  end.
