(** Model of mesh generation and import. Source: /repo/feax/mesh.py.
    Coordinates are exact rationals; node ids are naturals (int32 overflow is not modelled). *)
From Coq Require Import String ZArith QArith Bool Arith List.
Import ListNotations.
Local Open Scope nat_scope.

Definition pt2 := (Q * Q)%type.
Definition nq (n : nat) : Q := inject_Z (Z.of_nat n).
(** numpy.linspace(a, b, n) in exact arithmetic. *)
Definition linspaceQ (a b : Q) (n : nat) : list Q :=
  map (fun i => a + nq i * ((b - a) / nq (n - 1)))%Q (seq 0 n).
(** mesh.py:488-490, 510-512: meshgrid(indexing='ij'), reshape(-1), stack. *)
Definition grid_points (xs ys : list Q) : list pt2 := flat_map (fun x => map (fun y => (x, y)) ys) xs.

(** mesh.py:485-502 [rectangle_mesh], QUAD4 branch. *)
Definition quad4_cell (Ny i j : nat) : list nat :=
  let n0 := i * (Ny + 1) + j in
  let n1 := (i + 1) * (Ny + 1) + j in
  let n2 := (i + 1) * (Ny + 1) + (j + 1) in
  let n3 := i * (Ny + 1) + (j + 1) in
  [n0; n1; n2; n3].
Definition quad4_cells (Nx Ny : nat) : list (list nat) :=
  flat_map (fun i => map (fun j => quad4_cell Ny i j) (seq 0 Ny)) (seq 0 Nx).
Definition quad4_points (Nx Ny : nat) (dx dy x0 y0 : Q) : list pt2 :=
  grid_points (linspaceQ x0 (x0 + dx) (Nx + 1)) (linspaceQ y0 (y0 + dy) (Ny + 1)).

(** mesh.py:504-545 (QUAD8) and 548-586 (QUAD9): fine-grid offsets of an element's nodes. *)
Definition quad8_offsets : list (nat * nat) :=
  [(0, 0); (2, 0); (2, 2); (0, 2); (1, 0); (2, 1); (1, 2); (0, 1)].
Definition quad9_offsets : list (nat * nat) :=
  [(0, 0); (2, 0); (2, 2); (0, 2); (1, 0); (2, 1); (1, 2); (0, 1); (1, 1)].

Section Fine.
  Variable offsets : list (nat * nat).
  Variables Nx Ny : nat.
  Definition nx_fine := 2 * Nx + 1.
  Definition ny_fine := 2 * Ny + 1.
  (** mesh.py:514-515. *)
  Definition gid (i j : nat) : nat := i * ny_fine + j.
  (** mesh.py:518-537: the cell list in fine-grid numbering. *)
  Definition fine_cell (i j : nat) : list nat := map (fun o => gid (2 * i + fst o) (2 * j + snd o)) offsets.
  Definition fine_cells : list (list nat) :=
    flat_map (fun i => map (fun j => fine_cell i j) (seq 0 Ny)) (seq 0 Nx).
  (** mesh.py:518, 535-537: the mask [used]. *)
  Definition used (n : nat) : bool := existsb (Nat.eqb n) (concat fine_cells).
  (** mesh.py:540-541: [old_to_new[used] = arange(used.sum())]; -1 (None) elsewhere. *)
  Definition old_to_new (n : nat) : option nat :=
    if used n then Some (length (filter used (seq 0 n))) else None.
  (** mesh.py:542: boolean selection of the points. *)
  Definition fine_points (dx dy x0 y0 : Q) : list pt2 :=
    let all := grid_points (linspaceQ x0 (x0 + dx) nx_fine) (linspaceQ y0 (y0 + dy) ny_fine) in
    map (fun n => nth n all (0, 0)%Q) (filter used (seq 0 (nx_fine * ny_fine))).
  (** mesh.py:543. *)
  Definition compact_cells : list (list (option nat)) := map (map old_to_new) fine_cells.
End Fine.

(** mesh.py:468-545 [rectangle_mesh]: points, cells and element type; None is ValueError. *)
Definition rectangle_mesh (Nx Ny : nat) (dx dy x0 y0 : Q) (ele_type : string) : option (list pt2 * list (list (option nat))) :=
  if String.eqb ele_type "QUAD4" then Some (quad4_points Nx Ny dx dy x0 y0, map (map (@Some nat)) (quad4_cells Nx Ny))
  else if String.eqb ele_type "QUAD9" then
    Some (fine_points quad9_offsets Nx Ny dx dy x0 y0, compact_cells quad9_offsets Nx Ny)
  else if String.eqb ele_type "QUAD8" then
    Some (fine_points quad8_offsets Nx Ny dx dy x0 y0, compact_cells quad8_offsets Nx Ny)
  else None.

(** mesh.py:98-109 [meshio_to_feax]. *)
Definition meshio_to_feax (t : string) : option string :=
  (if String.eqb t "tetra" then Some "TET4" else if String.eqb t "tetra10" then Some "TET10"
   else if String.eqb t "hexahedron" then Some "HEX8" else if String.eqb t "hexahedron20" then Some "HEX20"
   else if String.eqb t "hexahedron27" then Some "HEX27" else if String.eqb t "triangle" then Some "TRI3"
   else if String.eqb t "triangle6" then Some "TRI6" else if String.eqb t "quad" then Some "QUAD4"
   else if String.eqb t "quad8" then Some "QUAD8" else if String.eqb t "quad9" then Some "QUAD9" else None)%string.
(** mesh.py:112-117: a dict filled block by block, insertion-ordered; a repeated key keeps its
    place and takes the later value. *)
Fixpoint dict_set {A} (k : string) (v : A) (d : list (string * A)) : list (string * A) :=
  match d with
  | [] => [(k, v)]
  | (k', v') :: t => if String.eqb k k' then (k', v) :: t else (k', v') :: dict_set k v t
  end.
Fixpoint dict_get {A} (k : string) (d : list (string * A)) : option A :=
  match d with [] => None | (k', v) :: t => if String.eqb k k' then Some v else dict_get k t end.
Definition available {A} (blocks : list (string * A)) : list (string * A) :=
  fold_left (fun d b => match meshio_to_feax (fst b) with Some k => dict_set k (snd b) d | None => d end) blocks [].
Definition gmsh_priority : list string :=
  ["HEX8"; "HEX20"; "HEX27"; "TET4"; "TET10"; "QUAD4"; "QUAD8"; "TRI3"; "TRI6"]%string.
(** mesh.py:57-146 [from_gmsh]: element type and cells; None is ValueError. *)
Definition from_gmsh {A} (blocks : list (string * A)) (element_type : option string) : option (string * A) :=
  let d := available blocks in
  match d with
  | [] => None
  | (k0, _) :: _ =>
      let ty := match element_type with
                | Some t => t
                | None => match find (fun t => match dict_get t d with Some _ => true | None => false end) gmsh_priority with
                          | Some t => t | None => k0 end
                end in
      match dict_get ty d with Some cells => Some (ty, cells) | None => None end
  end.

(** mesh.py:211-262 [get_meshio_cell_type]. *)
Definition get_meshio_cell_type (t : string) : option string :=
  (if String.eqb t "TET4" then Some "tetra" else if String.eqb t "TET10" then Some "tetra10"
   else if String.eqb t "HEX8" then Some "hexahedron" else if String.eqb t "HEX27" then Some "hexahedron27"
   else if String.eqb t "HEX20" then Some "hexahedron20" else if String.eqb t "TRI3" then Some "triangle"
   else if String.eqb t "TRI6" then Some "triangle6" else if String.eqb t "QUAD4" then Some "quad"
   else if String.eqb t "QUAD8" then Some "quad8" else if String.eqb t "QUAD9" then Some "quad9" else None)%string.

(** Reading a mesh back from Gmsh: [tags] and [coords] are what [getNodes] returns, in its order,
    [elems] the 1-based node tags of the elements.
    mesh.py:983-1003 [refine_mesh]: a dense remap from tag to position; None models the -1 of a
    tag that was not listed. numpy assignment with repeated tags keeps the last. *)
Fixpoint last_index (t : nat) (tags : list nat) (pos : nat) : option nat :=
  match tags with
  | [] => None
  | x :: r => match last_index t r (S pos) with Some p => Some p | None => if x =? t then Some pos else None end
  end.
Definition readback_remap {P} (tags : list nat) (coords : list P) (elems : list (list nat)) : list P * list (list (option nat)) :=
  (coords, map (map (fun t => last_index t tags 0)) elems).
(** mesh.py:410-443 [box_mesh]: tags minus one are used as positions, then unused points dropped. *)
Definition readback_shift {P} (dp : P) (coords : list P) (elems : list (list nat)) : list P * list (list nat) :=
  let cells := map (map (fun t => t - 1)) elems in
  let keep := filter (fun n => existsb (Nat.eqb n) (concat cells)) (seq 0 (length coords)) in
  (map (fun n => nth n coords dp) keep,
   map (map (fun n => length (filter (fun m => existsb (Nat.eqb m) (concat cells)) (seq 0 n)))) cells).
