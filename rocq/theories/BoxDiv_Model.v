(** Model of the structured divisions of [box_mesh].
    Source: /repo/feax/mesh.py:330-385. Gmsh (the transfinite mesher) is not modelled: the
    model stops at the numbers of points set on the twelve edges. *)
From Coq Require Import Reals ZArith List SpecFloat.
Import ListNotations.
Open Scope R_scope.

(** mesh.py:334-338: a number is a cube, a tuple the three lengths. *)
Inductive box_size : Type := Cube (a : R) | Sides (a b c : R).
Definition sides (s : box_size) : R * R * R :=
  match s with Cube a => (a, a, a) | Sides a b c => (a, b, c) end.

(** Python's [int] on a real number: truncation towards zero. *)
Definition trunc (x : R) : Z :=
  if Rle_dec 0 x then Int_part x else (- Int_part (- x))%Z.

(** mesh.py:363-365 [max(2, int(lx / mesh_size) + 1)], given [int(lx / mesh_size)]. *)
Definition points_of (q : Z) : Z := Z.max 2 (q + 1).
Definition num_points (l h : R) : Z := points_of (trunc (l / h)).

(** mesh.py:372-385: the points set on a curve with bounding-box extents [dx dy dz]. *)
Definition curve_points (nx ny nz : Z) (dx dy dz : R) : Z :=
  if Rlt_dec dy dx then
    if Rlt_dec dz dx then nx
    else if Rlt_dec dx dy then ny else nz
  else if Rlt_dec dx dy then
    if Rlt_dec dz dy then ny else nz
  else nz.

(** The edges of a box: the direction (0, 1, 2), the lower corner and the upper corner of the
    bounding box that OpenCASCADE reports, enlarged by [pad] on all sides. *)
Definition axis (d : nat) (v : R * R * R) : R :=
  match d with 0%nat => fst (fst v) | 1%nat => snd (fst v) | _ => snd v end.
Definition edge_box (o l : R * R * R) (pad : R) (d : nat) (far1 far2 : bool) : (R * R * R) * (R * R * R) :=
  let lo := fun a (far : bool) => axis a o + (if far then axis a l else 0) in
  let ext := fun a => if Nat.eqb a d then axis a l else 0 in
  let corner := match d with
    | 0%nat => (axis 0 o, lo 1%nat far1, lo 2%nat far2)
    | 1%nat => (lo 0%nat far1, axis 1 o, lo 2%nat far2)
    | _ => (lo 0%nat far1, lo 1%nat far2, axis 2 o)
    end in
  let '(a, b, c) := corner in
  ((a - pad, b - pad, c - pad), (a + ext 0%nat + pad, b + ext 1%nat + pad, c + ext 2%nat + pad)).

(** mesh.py:353-387 [box_mesh], transfinite branch: points set on one edge. *)
Definition edge_points (s : box_size) (o : R * R * R) (h pad : R) (d : nat) (far1 far2 : bool) : Z :=
  let '(lx, ly, lz) := sides s in
  let nx := num_points lx h in let ny := num_points ly h in let nz := num_points lz h in
  let '((x0, y0, z0), (x1, y1, z1)) := edge_box o (lx, ly, lz) pad d far1 far2 in
  curve_points nx ny nz (Rabs (x1 - x0)) (Rabs (y1 - y0)) (Rabs (z1 - z0)).

(** The same count in binary64 arithmetic ([SpecFloat], round to nearest even). *)
Definition sf_trunc (f : spec_float) : Z :=
  match f with
  | S754_finite s m e =>
      let v := match e with
        | Zneg p => (Zpos m / 2 ^ Zpos p)%Z
        | _ => (Zpos m * 2 ^ e)%Z
        end in if s then (- v)%Z else v
  | _ => 0%Z
  end.
Definition num_points_f64 (l h : spec_float) : Z := points_of (sf_trunc (SFdiv 53 1024 l h)).
