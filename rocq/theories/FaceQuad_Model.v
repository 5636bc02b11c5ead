(** Model of the face quadrature tables: where the face points lie and which shape functions act there.
    Source: /repo/feax/basis.py:244-325 [get_face_shape_vals_and_grads], fe.py:241-265, 343-375.
    The Basix data (vertices, facets, nodal Lagrange bases) is written out here from its published
    conventions; the serendipity types HEX20 and QUAD8 are in Serendip_Model.v. *)
From Coq Require Import Reals String List Arith ZArith.
From Verif Require Import Base Basis_Model Basis_Spec.
Import ListNotations.
Local Open Scope string_scope.
Local Open Scope list_scope.
Local Open Scope R_scope.

Definition rpoint : Type := R * R * R.
Definition px (p : rpoint) : R := fst (fst p).
Definition py (p : rpoint) : R := snd (fst p).
Definition pz (p : rpoint) : R := snd p.
Definition padd (p q : rpoint) : rpoint := (px p + px q, py p + py q, pz p + pz q).
Definition pscale (s : R) (p : rpoint) : rpoint := (s * px p, s * py p, s * pz p).
Definition rp (p : point) : rpoint := let '(x, y, z) := p in (IZR x, IZR y, IZR z).

(** basix.cell.sub_entity_connectivity(cell)[dim - 1], the vertices of each facet. *)
Definition facets (e : string) : list (list nat) :=
  (if one_of e ["HEX8"; "HEX20"] then [[0;1;2;3]; [0;1;4;5]; [0;2;4;6]; [1;3;5;7]; [2;3;6;7]; [4;5;6;7]]
   else if one_of e ["TET4"; "TET10"] then [[1;2;3]; [0;2;3]; [0;1;3]; [0;1;2]]
   else if one_of e ["QUAD4"; "QUAD8"; "QUAD9"] then [[0;1]; [0;2]; [1;3]; [2;3]]
   else if one_of e ["TRI3"; "TRI6"] then [[1;2]; [0;2]; [0;1]]
   else [])%nat.

(** The first-degree Lagrange basis of the facet at a facet point (basis.py:288-290). *)
Definition facet_basis (e : string) (s t : R) : list R :=
  if one_of e ["HEX8"] then [(1 - s) * (1 - t); s * (1 - t); (1 - s) * t; s * t]
  else if one_of e ["TET4"; "TET10"] then [1 - s - t; s; t]
  else [1 - s; s].

(** basis.py:299-302: the facet point mapped into the cell, [sum(vertices[facet] * vals)]. *)
Fixpoint combine_points (ps : list rpoint) (vals : list R) : rpoint :=
  match ps, vals with
  | p :: ps', v :: vals' => padd (pscale v p) (combine_points ps' vals')
  | _, _ => (0, 0, 0)
  end.
Definition vertices_at (e : string) (f : nat) : list rpoint :=
  map (fun v => rp (nth v (basix_vertices e) (0, 0, 0)%Z)) (nth f (facets e) []).
Definition mapped (e : string) (f : nat) (s t : R) : rpoint := combine_points (vertices_at e f) (facet_basis e s t).

(** The Basix nodal bases of the Lagrange types, in Basix order. *)
Definition lag1 (c : Z) (t : R) : R := if Z.eqb c 0 then 1 - t else t.
Definition lag2 (c : Z) (t : R) : R :=
  if Z.eqb c 0 then (1 - t) * (1 - 2 * t) else if Z.eqb c 2 then 4 * t * (1 - t) else t * (2 * t - 1).
Definition bary_coords (e : string) (p : rpoint) : list R :=
  if one_of e ["TRI3"; "TRI6"] then [1 - px p - py p; px p; py p] else [1 - px p - py p - pz p; px p; py p; pz p].
Definition basis (e : string) (p : rpoint) : list R :=
  if one_of e ["TRI3"; "TET4"] then bary_coords e p
  else if one_of e ["TRI6"; "TET10"] then
    let l := bary_coords e p in
    map (fun x => x * (2 * x - 1)) l ++
    map (fun ij => match ij with [i; j] => 4 * nth i l 0 * nth j l 0 | _ => 0 end) (basix_extra e)
  else if e =? "QUAD4" then map (fun '(x, y, _) => lag1 x (px p) * lag1 y (py p)) (basix_layout e)
  else if e =? "QUAD9" then map (fun '(x, y, _) => lag2 x (px p) * lag2 y (py p)) (basix_layout e)
  else if e =? "HEX8" then map (fun '(x, y, z) => lag1 x (px p) * lag1 y (py p) * lag1 z (pz p)) (basix_layout e)
  else [].

(** basis.py:317-324: the shape functions tabulated at the mapped point, in mesh order. *)
Definition face_shape_vals (e : string) (f : nat) (s t : R) : option (list R) :=
  match re_order_of e with Some ro => take_inds (basis e (mapped e f s t)) ro | None => None end.
(** basis.py:315-316: the facet's vertices in mesh numbering. *)
Definition face_inds (e : string) (f : nat) : option (list nat) :=
  match re_order_of e with Some ro => reorder_inds (nth f (facets e) []) ro | None => None end.

(** Nodal loads of a face: [int N_a t] by quadrature, one component (the surface kernel of
    assembler.py:494-535 with a traction that does not depend on the solution). A quadrature point
    is its facet coordinates, its weight (with the surface scale) and the traction there. *)
Definition qpt : Type := (R * R * R * R)%type.
Definition nodal_load (e : string) (f : nat) (qs : list qpt) (a : nat) : R :=
  fold_right (fun q acc => let '(s, t, w, tr) := q in
    match face_shape_vals e f s t with Some v => nth a v 0 * tr * w | None => 0 end + acc) 0 qs.
