(** Model of the shape functions of the serendipity types QUAD8 and HEX20 and of their face tables.
    Source: /repo/feax/basis.py:71-77, 96-102 (family serendipity, degree 2), 183-192 and 244-325.
    The Basix element is written out: its space is spanned by the first-degree vertex functions and one quadratic function
    per edge. What a coefficient of an edge stands for is left open: [kappa] = 1 if it is the value at the midpoint, [kappa] = 3/2 if it
    is the mean over the edge (Basix's published definition of the serendipity element). *)
From Coq Require Import Reals String List Arith ZArith.
From Verif Require Import Base Basis_Model Basis_Spec FaceQuad_Model.
Import ListNotations.
Local Open Scope string_scope.
Local Open Scope list_scope.
Local Open Scope R_scope.

(** One factor of a basis function: along an edge the parabola, across it the linear function. *)
Definition ser1 (c : Z) (t : R) : R := if Z.eqb c 2 then 4 * t * (1 - t) else lag1 c t.
Definition ser_factor (e : string) (c : point) (p : rpoint) : R :=
  let '(x, y, z) := c in if e =? "QUAD8" then ser1 x (px p) * ser1 y (py p) else ser1 x (px p) * ser1 y (py p) * ser1 z (pz p).
Definition edge_function (kappa : R) (e : string) (j : nat) (p : rpoint) : R :=
  kappa * ser_factor e (nth (length (basix_vertices e) + j) (basix_layout e) (0, 0, 0)%Z) p.
Fixpoint rsum (l : list R) : R := match l with [] => 0 | x :: t => x + rsum t end.
(** The vertex function: first degree, less half of the function of every edge at the vertex. *)
Definition vertex_function (kappa : R) (e : string) (v : nat) (p : rpoint) : R :=
  ser_factor e (nth v (basix_layout e) (0, 0, 0)%Z) p
  - / 2 * rsum (map (fun j => if existsb (Nat.eqb v) (nth j (basix_extra e) []) then edge_function kappa e j p else 0) (seq 0 (length (basix_extra e)))).
Definition ser_basis (kappa : R) (e : string) (p : rpoint) : list R :=
  map (fun v => vertex_function kappa e v p) (seq 0 (length (basix_vertices e))) ++
  map (fun j => edge_function kappa e j p) (seq 0 (length (basix_extra e))).
(** basis.py:183-192: the shape functions at a point of the cell, in mesh order. *)
Definition ser_shape (kappa : R) (e : string) (p : rpoint) : option (list R) :=
  match re_order_of e with Some ro => take_inds (ser_basis kappa e p) ro | None => None end.
(** basis.py:288-302: the face point in the cell; the map of the face is of first degree for every type. *)
Definition ser_facet_basis (e : string) (s t : R) : list R :=
  if e =? "HEX20" then [(1 - s) * (1 - t); s * (1 - t); (1 - s) * t; s * t] else [1 - s; s].
Definition ser_mapped (e : string) (f : nat) (s t : R) : rpoint := combine_points (vertices_at e f) (ser_facet_basis e s t).
(** basis.py:319-324: the table of face [f]. *)
Definition ser_face_vals (kappa : R) (e : string) (f : nat) (s t : R) : option (list R) := ser_shape kappa e (ser_mapped e f s t).
(** Nodal loads of a face, one component (assembler.py:494-535). *)
Definition ser_nodal_load (kappa : R) (e : string) (f : nat) (qs : list qpt) (a : nat) : R :=
  fold_right (fun q acc => let '(s, t, w, tr) := q in
    match ser_face_vals kappa e f s t with Some v => nth a v 0 * tr * w | None => 0 end + acc) 0 qs.
