(** Model of the Mindlin/Reissner plate (feax/mechanics/shell.py), over the real numbers. *)
From Coq Require Import Reals List Arith Bool String.
From Verif Require Import Tmc_Model Layered_Model.
Import ListNotations.
Open Scope R_scope.

(** shell.py:67-86 [isotropic_in_plane_stiffness]. *)
Definition iso2 (E nu : R) : ten := fun i j k l =>
  let lam := E * nu / (1 - nu * nu) in let mu := E / (2 * (1 + nu)) in
  lam * (kd i j * kd k l) + mu * (kd i k * kd j l + kd i l * kd j k).
(** shell.py:89-124 [orthotropic_in_plane_stiffness]; entries not set stay zero. *)
Definition ortho2 (E1 E2 G12 nu12 : R) : ten :=
  let nu21 := nu12 * E2 / E1 in let m := 1 / (1 - nu12 * nu21) in
  let Q11 := m * E1 in let Q22 := m * E2 in let Q12 := m * nu21 * E1 in let Q66 := G12 in
  fun i j k l => match i, j, k, l with
  | 0, 0, 0, 0 => Q11 | 1, 1, 1, 1 => Q22 | 0, 0, 1, 1 => Q12 | 1, 1, 0, 0 => Q12
  | 0, 1, 0, 1 => Q66 | 0, 1, 1, 0 => Q66 | 1, 0, 0, 1 => Q66 | 1, 0, 1, 0 => Q66
  | _, _, _, _ => 0
  end.
(** shell.py:131-165 [plate_stiffness]: a scalar or a 2x2 transverse modulus. *)
Inductive shear_modulus := ScalarG (g : R) | MatrixG (G : mat).
Definition plate_stiffness (C : ten) (h : R) (G : shear_modulus) (kappa_s : R) : ten * ten * mat :=
  (fun i j k l => h * C i j k l, fun i j k l => h ^ 3 / 12 * C i j k l,
   match G with ScalarG g => fun i j => kappa_s * h * g * kd i j | MatrixG G => fun i j => kappa_s * h * G i j end).
(** shell.py:172-184 [z_layer_coordinates]. *)
Definition z_coords (th : list R) : list R := let h := rsuml th in (- h / 2) :: map (fun c => - h / 2 + c) (cumsum 0 th).
(** shell.py:187-200 [rotate_in_plane_stiffness], 203-207 and 327-334 (the two [R @ . @ R.T] functions). *)
Definition rot2d (theta : R) : mat := fun i j => match i, j with 0%nat, 0%nat => cos theta | 0%nat, _ => - sin theta | _, 0%nat => sin theta | _, _ => cos theta end.
Definition rotate4 (C : ten) (theta : R) : ten := let Q := rot2d theta in fun i j k l =>
  rs 2 (fun p => rs 2 (fun q => rs 2 (fun r => rs 2 (fun s => Q i p * Q j q * Q k r * Q l s * C p q r s)))).
Definition rotate2 (G : mat) (theta : R) : mat := let Q := rot2d theta in fun i j => rs 2 (fun q => rs 2 (fun p => Q i p * G p q) * Q j q).
(** One value for all layers or one per layer; [None] when the mapped axes differ ([jax.vmap] raises). *)
Inductive per_layer (A : Type) := One (x : A) | Each (l : list A).
Arguments One {A}. Arguments Each {A}.
Definition layers {A} (p : per_layer A) (n : nat) : option (list A) :=
  match p with One x => Some (repeat x n) | Each l => if (List.length l =? n)%nat then Some l else None end.
Definition ddot2 (C : ten) (e : mat) : mat := fun i j => rs 2 (fun k => rs 2 (fun l => C i j k l * e k l)).
Definition zero4 : ten := fun _ _ _ _ => 0.
Definition zero2 : mat := fun _ _ => 0.
(** shell.py:210-295 [laminate_stiffness]: (A, B, D, G_s). *)
Section Laminate.
Variable thetas th : list R.
Definition zlo (k : nat) : R := nth k (z_coords th) 0.
Definition zhi (k : nat) : R := nth (k + 1) (z_coords th) 0.
Definition lsum (f : nat -> R) : R := rs (List.length thetas) f.
Definition lam_A (Cs : list ten) : ten := fun i j k l => lsum (fun n => rotate4 (nth n Cs zero4) (nth n thetas 0) i j k l * (zhi n - zlo n)).
Definition lam_B (Cs : list ten) : ten := fun i j k l => lsum (fun n => 1 / 2 * rotate4 (nth n Cs zero4) (nth n thetas 0) i j k l * (zhi n ^ 2 - zlo n ^ 2)).
Definition lam_D (Cs : list ten) : ten := fun i j k l => lsum (fun n => 1 / 3 * rotate4 (nth n Cs zero4) (nth n thetas 0) i j k l * (zhi n ^ 3 - zlo n ^ 3)).
Definition lam_G (Gs : list mat) (kappa_s : R) : mat := fun i j => kappa_s * lsum (fun n => rotate2 (nth n Gs zero2) (nth n thetas 0) i j * (zhi n - zlo n)).
Definition laminate_stiffness (C : per_layer ten) (G : per_layer mat) (kappa_s : R) : option (ten * ten * ten * mat) :=
  if (List.length th =? List.length thetas)%nat then
    match layers C (List.length thetas), layers G (List.length thetas) with
    | Some Cs, Some Gs => Some (lam_A Cs, lam_B Cs, lam_D Cs, lam_G Gs kappa_s)
    | _, _ => None
    end
  else None.
(** shell.py:337-412 [laminate_thermal_loads]: (N_T, M_T). *)
Definition sigma_dT (Cs : list ten) (al : list mat) (n : nat) : mat :=
  ddot2 (rotate4 (nth n Cs zero4) (nth n thetas 0)) (rotate2 (nth n al zero2) (nth n thetas 0)).
Definition thermal_N (Cs : list ten) (al : list mat) (a g : R) : mat := fun i j =>
  lsum (fun n => sigma_dT Cs al n i j * (a * (zhi n - zlo n) + 1 / 2 * g * (zhi n ^ 2 - zlo n ^ 2))).
Definition thermal_M (Cs : list ten) (al : list mat) (a g : R) : mat := fun i j =>
  lsum (fun n => sigma_dT Cs al n i j * (1 / 2 * a * (zhi n ^ 2 - zlo n ^ 2) + 1 / 3 * g * (zhi n ^ 3 - zlo n ^ 3))).
Definition laminate_thermal (C : per_layer ten) (al : per_layer mat) (a g : R) : option (mat * mat) :=
  if (List.length th =? List.length thetas)%nat then
    match layers C (List.length thetas), layers al (List.length thetas) with
    | Some Cs, Some As => Some (thermal_N Cs As a g, thermal_M Cs As a g)
    | _, _ => None
    end
  else None.
End Laminate.
(** shell.py:302-324 [thermal_expansion_from_orientation]. *)
Definition cte_orientation (a2 : mat) (af at_ : R) : mat := fun i j => at_ * kd i j + (af - at_) * a2 i j.

(** shell.py:419-462 [mindlin_strains]; [None] for an unknown [nonlinear]. *)
Definition strains (gu : mat) (gth : mat) (theta : nat -> R) (nonlinear : string) : option (mat * mat * (nat -> R)) :=
  let gw := gu 2%nat in
  let kappa := fun i j => 1 / 2 * (gth i j + gth j i) in let gamma := fun i => gw i + theta i in
  let lin := fun i j => 1 / 2 * (gu i j + gu j i) in
  if (nonlinear =? "von_karman")%string then Some (fun i j => lin i j + 1 / 2 * (gw i * gw j), kappa, gamma)
  else if negb (nonlinear =? "linear")%string then None
  else Some (lin, kappa, gamma).
(** shell.py:465-510 [mindlin_resultants]. *)
Definition oadd (x : option mat) (f : mat -> R) : R := match x with None => 0 | Some m => f m end.
Definition resultants (eps kappa : mat) (gamma : nat -> R) (A D : ten) (Gs : mat) (B : option ten) (NT MT : option mat) : mat * mat * (nat -> R) :=
  let N := fun i j => ddot2 A eps i j + match B with None => 0 | Some B => ddot2 B kappa i j end - oadd NT (fun n => n i j) in
  let M := fun i j => ddot2 D kappa i j + match B with None => 0 | Some B => ddot2 B eps i j end - oadd MT (fun m => m i j) in
  (N, M, fun i => rs 2 (fun j => Gs i j * gamma j)).
(** shell.py:517-592 [mindlin_weak_form]: (mass0, mass1, grad0, grad1) at a point. *)
Definition weak_form (A D : ten) (Gs : mat) (B : option ten) (NT MT : option mat) (nonlinear : string)
    (theta : nat -> R) (gu gth : mat) : option ((nat -> R) * (nat -> R) * mat * mat) :=
  match strains gu gth theta nonlinear with
  | None => None
  | Some (eps, kappa, gamma) =>
      let '(N, M, Q) := resultants eps kappa gamma A D Gs B NT MT in
      let q := if (nonlinear =? "von_karman")%string then fun i => Q i + rs 2 (fun j => N i j * gu 2%nat j) else Q in
      Some (fun _ => 0, Q, (fun i j => if (i <? 2)%nat then N i j else q j), M)
  end.
