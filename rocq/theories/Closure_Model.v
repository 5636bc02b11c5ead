(** Closures of the fourth-order fibre-orientation tensor and the orientation-averaged stiffness
    (feax/mechanics/orientation.py). Arrays of shape [(d, d)] and [(d, d, d, d)] are functions of
    their indices; only indices below [d] are ever read. *)
From Coq Require Import Reals List Arith.
Import ListNotations.
Open Scope R_scope.

Definition T2 := nat -> nat -> R.
Definition T4 := nat -> nat -> nat -> nat -> R.

(** [np.eye(d)]. *)
Definition delta : T2 := fun i j => if Nat.eqb i j then 1 else 0.
(** [np.einsum("ij,kl->ijkl", a, b)] and the other five index orders used. *)
Definition es_ij_kl (a b : T2) : T4 := fun i j k l => a i j * b k l.
Definition es_kl_ij (a b : T2) : T4 := fun i j k l => a k l * b i j.
Definition es_ik_jl (a b : T2) : T4 := fun i j k l => a i k * b j l.
Definition es_il_jk (a b : T2) : T4 := fun i j k l => a i l * b j k.
Definition es_jk_il (a b : T2) : T4 := fun i j k l => a j k * b i l.
Definition es_jl_ik (a b : T2) : T4 := fun i j k l => a j l * b i k.
Definition t4add (s t : T4) : T4 := fun i j k l => s i j k l + t i j k l.
Definition t4scale (c : R) (t : T4) : T4 := fun i j k l => c * t i j k l.

(** orientation.py:384-396 [quadratic_closure]. *)
Definition quadratic_closure (a2 : T2) : T4 := es_ij_kl a2 a2.

(** orientation.py:404-407 [_LINEAR_COEFFS]; the lookup fails for other dimensions. *)
Definition linear_coeffs (d : nat) : option (R * R) :=
  match d with
  | 2%nat => Some (-1 / 24, 1 / 6)
  | 3%nat => Some (-1 / 35, 1 / 7)
  | _ => None
  end.
(** orientation.py:413 [_HYBRID_DET_SCALE]. *)
Definition hybrid_det_scale (d : nat) : option R :=
  match d with
  | 2%nat => Some 4
  | 3%nat => Some 27
  | _ => None
  end.

(** orientation.py:416-454 [linear_closure]; [None] is the [ValueError]. [d] is [a2.shape[0]]. *)
Definition linear_closure (d : nat) (a2 : T2) : option T4 :=
  match linear_coeffs d with
  | None => None
  | Some (c1, c2) =>
      let iso := t4add (t4add (es_ij_kl delta delta) (es_ik_jl delta delta)) (es_il_jk delta delta) in
      let aniso :=
        t4add (t4add (t4add (t4add (t4add (es_ij_kl a2 delta) (es_kl_ij a2 delta)) (es_ik_jl a2 delta))
          (es_il_jk a2 delta)) (es_jk_il a2 delta)) (es_jl_ik a2 delta) in
      Some (t4add (t4scale c1 iso) (t4scale c2 aniso))
  end.

(** [np.linalg.det] of a 2x2 or 3x3 array (exact arithmetic). *)
Definition det (d : nat) (a : T2) : R :=
  match d with
  | 2%nat => a 0%nat 0%nat * a 1%nat 1%nat - a 0%nat 1%nat * a 1%nat 0%nat
  | 3%nat =>
      a 0%nat 0%nat * (a 1%nat 1%nat * a 2%nat 2%nat - a 1%nat 2%nat * a 2%nat 1%nat)
      - a 0%nat 1%nat * (a 1%nat 0%nat * a 2%nat 2%nat - a 1%nat 2%nat * a 2%nat 0%nat)
      + a 0%nat 2%nat * (a 1%nat 0%nat * a 2%nat 1%nat - a 1%nat 1%nat * a 2%nat 0%nat)
  | _ => 0
  end.
(** orientation.py:590-613 [hybrid_closure]. *)
Definition hybrid_closure (d : nat) (a2 : T2) : option T4 :=
  match hybrid_det_scale d with
  | None => None
  | Some c =>
      let f := 1 - c * det d a2 in
      match linear_closure d a2 with
      | None => None
      | Some lin => Some (t4add (t4scale (1 - f) lin) (t4scale f (quadratic_closure a2)))
      end
  end.

(** orientation.py:457-587 [build_a4_2d]: the nested literal array, row by row. *)
Definition build_a4_2d (a2 : T2) (y1 y2 eps : R) : T4 :=
  let tau := a2 0%nat 0%nat + a2 1%nat 1%nat in
  let tau_safe := tau + eps in
  let c2 := (a2 0%nat 0%nat - a2 1%nat 1%nat) / tau_safe in
  let s2 := 2 * a2 0%nat 1%nat / tau_safe in
  let nu1_sq_re := c2 * c2 - s2 * s2 in
  let nu1_sq_im := 2 * c2 * s2 in
  let abs_nu1_sq := c2 * c2 + s2 * s2 in
  let c4 := nu1_sq_re + y1 * (1 - abs_nu1_sq) in
  let s4 := nu1_sq_im + y2 * (1 - abs_nu1_sq) in
  let f1111 := (3 + 4 * c2 + c4) / 8 in
  let f2222 := (3 - 4 * c2 + c4) / 8 in
  let f1122 := (1 - c4) / 8 in
  let f1112 := (2 * s2 + s4) / 8 in
  let f1222 := (2 * s2 - s4) / 8 in
  let a1111 := tau * f1111 in
  let a2222 := tau * f2222 in
  let a1122 := tau * f1122 in
  let a1112 := tau * f1112 in
  let a1222 := tau * f1222 in
  let arr :=
    [[[[a1111; a1112]; [a1112; a1122]];
      [[a1112; a1122]; [a1122; a1222]]];
     [[[a1112; a1122]; [a1122; a1222]];
      [[a1122; a1222]; [a1222; a2222]]]] in
  fun i j k l => nth l (nth k (nth j (nth i arr []) []) []) 0.

(** orientation.py:620-713 [orientation_averaged_stiffness]. *)
Definition stiffness_coeffs_2d (E1 E2 G12 nu12 : R) : R * R * R * R :=
  let nu21 := nu12 * E2 / E1 in
  let m := 1 / (1 - nu12 * nu21) in
  let Q11 := m * E1 in
  let Q22 := m * E2 in
  let Q12 := m * nu21 * E1 in
  let Q66 := G12 in
  (Q11 + Q22 - 2 * Q12 - 4 * Q66, Q12, Q66 - Q22 / 2, Q22 / 2).
Definition orientation_averaged_stiffness (a2 : T2) (a4 : T4) (E1 E2 G12 nu12 : R) : T4 :=
  match stiffness_coeffs_2d E1 E2 G12 nu12 with
  | (B1, B2, B3, B5) =>
      t4add (t4add (t4add (t4scale B1 a4)
        (t4scale B2 (t4add (es_ij_kl a2 delta) (es_kl_ij a2 delta))))
        (t4scale B3 (t4add (t4add (t4add (es_ik_jl a2 delta) (es_il_jk a2 delta)) (es_jk_il a2 delta)) (es_jl_ik a2 delta))))
        (t4scale B5 (t4add (es_ik_jl delta delta) (es_il_jk delta delta)))
  end.

(** orientation.py:716-824 [orientation_averaged_stiffness_3d]. *)
Definition stiffness_coeffs_3d (E1 E2 G12 nu12 nu23 : R) : R * R * R * R * R :=
  let nu21 := nu12 * E2 / E1 in
  let m := 1 / ((1 + nu23) * (1 - nu23 - 2 * nu12 * nu21)) in
  let C1111 := E1 * (1 - nu23 * nu23) * m in
  let C1122 := E1 * nu21 * (1 + nu23) * m in
  let C2222 := E2 * (1 - nu12 * nu21) * m in
  let C2233 := E2 * (nu23 + nu12 * nu21) * m in
  let C1212 := G12 in
  (C1111 + C2222 - 2 * C1122 - 4 * C1212, C1122 - C2233, C1212 + (C2233 - C2222) / 2, C2233, (C2222 - C2233) / 2).
Definition orientation_averaged_stiffness_3d (a2 : T2) (a4 : T4) (E1 E2 G12 nu12 nu23 : R) : T4 :=
  match stiffness_coeffs_3d E1 E2 G12 nu12 nu23 with
  | (B1, B2, B3, B4, B5) =>
      t4add (t4add (t4add (t4add (t4scale B1 a4)
        (t4scale B2 (t4add (es_ij_kl a2 delta) (es_kl_ij a2 delta))))
        (t4scale B3 (t4add (t4add (t4add (es_ik_jl a2 delta) (es_il_jk a2 delta)) (es_jk_il a2 delta)) (es_jl_ik a2 delta))))
        (t4scale B4 (es_ij_kl delta delta)))
        (t4scale B5 (t4add (es_ik_jl delta delta) (es_il_jk delta delta)))
  end.

(** orientation.py:317-378 [principal_direction], unbatched: [eigh] returns the eigenvalues [w] and the
    eigenvectors as columns of [v]. *)
Definition principal_direction (eigh : T2 -> (nat -> R) * T2) (d : nat) (a2 : T2) (scale_by_alignment : bool) : nat -> R :=
  let (w, v) := eigh a2 in
  let director := fun i => v i (d - 1)%nat in
  if scale_by_alignment then fun i => director i * w (d - 1)%nat else director.
