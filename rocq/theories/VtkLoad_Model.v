(** Model of saving a nodal field with [save_sol] and reading it back with [from_vtk].
    Source: /repo/feax/utils.py:24-130, /repo/feax/gene/sdf.py:866-950, 491-540.
    The file is a value. Library contract (meshio, VTU): points of a plane mesh get a third coordinate
    zero, cells and point data come back as written. *)
From Coq Require Import Reals List Arith Bool String.
From Verif Require Import Writer_Model.
Import ListNotations.
Open Scope string_scope.
Open Scope list_scope.

Record mesh : Type := { m_points : list (list R); m_cells : list (list nat); m_ele : string }.
Definition width {A} (l : list (list A)) : nat := match l with r :: _ => List.length r | [] => 0 end.

Record file : Type := {
  v_points : list (list R); v_blocks : list (string * list (list nat)); v_data : list (string * list R) }.

(** meshio's VTU writer: two coordinates become three. *)
Definition pad (p : list R) : list R := if Nat.eqb (List.length p) 2 then p ++ [0%R] else p.

Section IO.
  (** Conversion to single precision. *)
  Variable single : R -> R.

  (** utils.py:24-130 [save_sol] with one nodal scalar field. *)
  Definition save_density (m : mesh) (name : string) (rho : list R) : option file :=
    match element_type (width (m_cells m)) (width (m_points m)) with
    | None => None
    | Some e =>
        match meshio_cell_type e with
        | None => None
        | Some ct =>
            if Nat.eqb (List.length rho) (List.length (m_points m)) then
              Some {| v_points := map pad (m_points m); v_blocks := [(ct, m_cells m)]; v_data := [(name, map single rho)] |}
            else None
        end
    end.

  (** sdf.py:866-875 [_MESHIO_TO_FEAX]. *)
  Definition feax_type (ct : string) : option string :=
    if ct =? "tetra" then Some "TET4" else if ct =? "tetra10" then Some "TET10"
    else if ct =? "hexahedron" then Some "HEX8" else if ct =? "hexahedron20" then Some "HEX20"
    else if ct =? "triangle" then Some "TRI3" else if ct =? "triangle6" then Some "TRI6"
    else if ct =? "quad" then Some "QUAD4" else if ct =? "quad8" then Some "QUAD8" else None.

  (** sdf.py:928-935: the first block of a supported type. *)
  Fixpoint first_block (bs : list (string * list (list nat))) : option (string * list (list nat)) :=
    match bs with
    | [] => None
    | (ct, c) :: r => match feax_type ct with Some e => Some (e, c) | None => first_block r end
    end.
  Fixpoint lookup (d : list (string * list R)) (name : string) : option (list R) :=
    match d with [] => None | (n, v) :: r => if n =? name then Some v else lookup r name end.

  Inductive loaded : Type := MissingField | NoCells | Loaded (m : mesh) (rho : list R) (threshold : R).
  (** sdf.py:880-950 [from_vtk]. *)
  Definition from_vtk (f : file) (name : string) (threshold : R) : loaded :=
    match lookup (v_data f) name with
    | None => MissingField
    | Some rho =>
        match first_block (v_blocks f) with
        | None => NoCells
        | Some (e, c) => Loaded {| m_points := v_points f; m_cells := c; m_ele := e |} rho threshold
        end
    end.
End IO.

(** Dimension of the reference cell of a type; the field can invert its cell maps (sdf.py:527-560)
    only if the points have as many coordinates. *)
Definition cell_dim (e : string) : nat :=
  if existsb (String.eqb e) ["TRI3"; "TRI6"; "QUAD4"; "QUAD8"; "QUAD9"] then 2 else 3.
Definition invertible_shape (m : mesh) : Prop := width (m_points m) = cell_dim (m_ele m).
