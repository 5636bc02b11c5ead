(** Model of the Gmsh cylinder and of the mesh checks.
    Source: /repo/feax/mesh.py:148-218, 698-825. Gmsh itself (volume meshing) is not
    modelled: [addCylinder] and [rotate] are the solids their documentation says. *)
From Coq Require Import Reals List Bool.
From Verif Require Import FeFace_Model.
Import ListNotations.
Open Scope R_scope.

Record v3 : Type := V3 { vx : R; vy : R; vz : R }.
Definition vadd (a b : v3) : v3 := V3 (vx a + vx b) (vy a + vy b) (vz a + vz b).
Definition vsub (a b : v3) : v3 := V3 (vx a - vx b) (vy a - vy b) (vz a - vz b).
Definition vscale (s : R) (a : v3) : v3 := V3 (s * vx a) (s * vy a) (s * vz a).
Definition vdot (a b : v3) : R := vx a * vx b + vy a * vy b + vz a * vz b.
Definition vcross (a b : v3) : v3 :=
  V3 (vy a * vz b - vz a * vy b) (vz a * vx b - vx a * vz b) (vx a * vy b - vy a * vx b).
Definition vnorm (a : v3) : R := sqrt (vdot a a).

(** Gmsh [occ.addCylinder(x0, y0, z0, 0, 0, height, radius)] (mesh.py:758), height > 0. *)
Definition gmsh_cylinder (c : v3) (h r : R) (p : v3) : Prop :=
  0 <= vz p - vz c <= h /\ (vx p - vx c) ^ 2 + (vy p - vy c) ^ 2 <= r ^ 2.
(** Gmsh [occ.rotate]: rotation by [angle] about the axis through [c] along the unit
    vector [k] (Rodrigues). *)
Definition gmsh_rotate (c k : v3) (angle : R) (p : v3) : v3 :=
  let d := vsub p c in
  vadd c (vadd (vadd (vscale (cos angle) d) (vscale (sin angle) (vcross k d)))
               (vscale ((1 - cos angle) * vdot k d) k)).
(** [onp.allclose(a, [0, 0, 1])], mesh.py:761: [|a - b| <= 1e-8 + 1e-5 |b|]. *)
Definition near_z (a : v3) : Prop :=
  Rabs (vx a) <= / 10 ^ 8 /\ Rabs (vy a) <= / 10 ^ 8 /\ Rabs (vz a - 1) <= / 10 ^ 8 + / 10 ^ 5.
Definition near_z_dec (a : v3) : {near_z a} + {~ near_z a}.
Proof.
  unfold near_z.
  destruct (Rle_dec (Rabs (vx a)) (/ 10 ^ 8)), (Rle_dec (Rabs (vy a)) (/ 10 ^ 8)),
    (Rle_dec (Rabs (vz a - 1)) (/ 10 ^ 8 + / 10 ^ 5)); [left; auto | right; tauto ..].
Defined.
(** mesh.py:745-771 [cylinder_mesh]: the solid handed to the mesher. A zero axis
    (division by zero) is excluded by the users of this definition. *)
Definition cylinder_solid (center axis : v3) (h r : R) (p : v3) : Prop :=
  let a := vscale (/ vnorm axis) axis in
  let z := V3 0 0 1 in
  let k := vcross z a in
  if near_z_dec a then gmsh_cylinder center h r p
  else if Rlt_dec (/ 10 ^ 10) (vnorm k) then
    exists q, gmsh_cylinder center h r q /\
              p = gmsh_rotate center (vscale (/ vnorm k) k) (acos (vdot z a)) q
  else gmsh_cylinder center h r p.

(** mesh.py:210-216 [quality] of [check_mesh_TET4]. *)
Definition tet_quality (p1 p2 p3 p4 : v3) : R :=
  vdot (vcross (vsub p2 p1) (vsub p3 p1)) (vsub p4 p1).

(** mesh.py:148-183 [count_selected_faces]: faces all of whose points satisfy the
    function, counted per cell. [faces] are the face node lists of the element type,
    [d] the value [onp.take] is not asked for (indices are in range). *)
Definition count_selected_faces (P : Type) (d : P) (points : list P) (cells faces : list (list nat))
           (loc : P -> bool) : nat :=
  length (filter (fun cf => forallb (fun i => loc (nth (nth i (fst cf) 0%nat) points d)) (snd cf))
                 (list_prod cells faces)).
