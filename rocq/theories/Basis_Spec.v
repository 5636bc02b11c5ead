(** The two published node-numbering conventions the tables convert between,
    written down independently of the tables.  A node is the barycentre of a set of
    corner vertices (one vertex, the two ends of an edge, or all four corners of a
    quadrilateral). *)
From Coq Require Import String.
From Verif Require Import Base.
From Coq Require Import List Arith ZArith.
Import ListNotations.
Local Open Scope string_scope.

(** [e] is one of the listed element names. *)
Definition one_of (e : string) (l : list string) : bool := existsb (String.eqb e) l.

(** Vertex positions of the reference cells. *)
Definition point := (Z * Z * Z)%type.

(** Basix: tensor-product cells are numbered with the first coordinate fastest. *)
Definition basix_vertices (e : string) : list point :=
  (if one_of e ["HEX8"; "HEX20"] then
     [(0,0,0); (1,0,0); (0,1,0); (1,1,0); (0,0,1); (1,0,1); (0,1,1); (1,1,1)]
   else if one_of e ["TET4"; "TET10"] then [(0,0,0); (1,0,0); (0,1,0); (0,0,1)]
   else if one_of e ["QUAD4"; "QUAD8"; "QUAD9"] then
     [(0,0,0); (1,0,0); (0,1,0); (1,1,0)]
   else if one_of e ["TRI3"; "TRI6"] then [(0,0,0); (1,0,0); (0,1,0)]
   else [])%Z.

(** meshio / VTK: quadrilaterals and the two layers of a hexahedron are numbered
    counter-clockwise. *)
Definition meshio_vertices (e : string) : list point :=
  (if one_of e ["HEX8"; "HEX20"] then
     [(0,0,0); (1,0,0); (1,1,0); (0,1,0); (0,0,1); (1,0,1); (1,1,1); (0,1,1)]
   else if one_of e ["TET4"; "TET10"] then [(0,0,0); (1,0,0); (0,1,0); (0,0,1)]
   else if one_of e ["QUAD4"; "QUAD8"; "QUAD9"] then
     [(0,0,0); (1,0,0); (1,1,0); (0,1,0)]
   else if one_of e ["TRI3"; "TRI6"] then [(0,0,0); (1,0,0); (0,1,0)]
   else [])%Z.

(** The higher-order nodes after the vertices, as sets of vertices.  Basix:
    the cell's edges in Basix order (for simplices, edge i of a triangle is opposite
    vertex i), then the interior node. *)
Definition basix_extra (e : string) : list (list nat) :=
  (if e =? "HEX20" then
     [[0;1]; [0;2]; [0;4]; [1;3]; [1;5]; [2;3]; [2;6]; [3;7]; [4;5]; [4;6]; [5;7]; [6;7]]
   else if e =? "TET10" then [[2;3]; [1;3]; [1;2]; [0;3]; [0;2]; [0;1]]
   else if e =? "QUAD8" then [[0;1]; [0;2]; [1;3]; [2;3]]
   else if e =? "QUAD9" then [[0;1]; [0;2]; [1;3]; [2;3]; [0;1;2;3]]
   else if e =? "TRI6" then [[1;2]; [0;2]; [0;1]]
   else []).

(** meshio / VTK: the edges walked around the cell, bottom, top, then verticals. *)
Definition meshio_extra (e : string) : list (list nat) :=
  (if e =? "HEX20" then
     [[0;1]; [1;2]; [2;3]; [3;0]; [4;5]; [5;6]; [6;7]; [7;4]; [0;4]; [1;5]; [2;6]; [3;7]]
   else if e =? "TET10" then [[0;1]; [1;2]; [2;0]; [0;3]; [1;3]; [2;3]]
   else if e =? "QUAD8" then [[0;1]; [1;2]; [2;3]; [3;0]]
   else if e =? "QUAD9" then [[0;1]; [1;2]; [2;3]; [3;0]; [0;1;2;3]]
   else if e =? "TRI6" then [[0;1]; [1;2]; [2;0]]
   else []).

(** Four times the barycentre of a set of 1, 2 or 4 vertices. *)
Definition bary (vs : list point) (s : list nat) : point :=
  let w := (4 / Z.of_nat (length s))%Z in
  fold_left (fun acc i => let '(x, y, z) := acc in
                          let '(a, b, c) := nth i vs (0, 0, 0)%Z in
                          (x + w * a, y + w * b, z + w * c)%Z) s (0, 0, 0)%Z.

Definition layout (vs : list point) (extra : list (list nat)) : list point :=
  map (fun i => bary vs [i]) (seq 0 (length vs)) ++ map (bary vs) extra.

Definition basix_layout (e : string) : list point := layout (basix_vertices e) (basix_extra e).
Definition meshio_layout (e : string) : list point := layout (meshio_vertices e) (meshio_extra e).

(** Number of nodes of the named element. *)
Definition node_count (e : string) : nat :=
  if e =? "HEX8" then 8 else if e =? "HEX20" then 20 else if e =? "TET4" then 4
  else if e =? "TET10" then 10 else if e =? "QUAD4" then 4 else if e =? "QUAD8" then 8
  else if e =? "QUAD9" then 9 else if e =? "TRI3" then 3 else if e =? "TRI6" then 6 else 0.
