(** Model of uniform refinement through Gmsh.
    Source: /repo/feax/mesh.py:828-1007. Gmsh itself is a parameter: a store of tagged nodes
    and element blocks, and an arbitrary refinement step on that store. *)
From Coq Require Import Reals ZArith List String Lia.
From Verif Require Import Base Mesh_Model.
Import ListNotations.
Open Scope nat_scope.

(** mesh.py:831-844 [_GMSH_ELE_TYPE_ID] and 847-860 [_ELE_INFO]: Gmsh id, nodes, dimension. *)
Definition ele_info (t : string) : option (nat * nat * nat) :=
  (if String.eqb t "LINE2" then Some (1, 2, 1) else if String.eqb t "TRI3" then Some (2, 3, 2)
   else if String.eqb t "QUAD4" then Some (3, 4, 2) else if String.eqb t "TET4" then Some (4, 4, 3)
   else if String.eqb t "HEX8" then Some (5, 8, 3) else if String.eqb t "PRISM6" then Some (6, 6, 3)
   else if String.eqb t "TRI6" then Some (9, 6, 2) else if String.eqb t "QUAD9" then Some (10, 9, 2)
   else if String.eqb t "TET10" then Some (11, 10, 3) else if String.eqb t "HEX27" then Some (12, 27, 3)
   else if String.eqb t "QUAD8" then Some (16, 8, 2) else if String.eqb t "HEX20" then Some (17, 20, 3)
   else None)%string.

(** A mesh: the width of the point array, the points (coordinate lists), the width of the cell
    array, the cells and the element type. A cell entry [None] is the index -1. *)
Record fmesh : Type := {
  f_dim : nat; f_points : list (list R);
  f_npc : nat; f_cells : list (list (option nat)); f_type : string }.

(** What Gmsh holds for the discrete entity: node tags and 3-D coordinates in its order, and
    element blocks (type id, node tags of each element). *)
Record gstore : Type := {
  g_tags : list nat; g_coords : list (R * R * R); g_blocks : list (nat * list (list nat)) }.

(** mesh.py:942-946: pad with z = 0. A coordinate missing from the list reads as 0. *)
Definition pad3 (p : list R) : R * R * R := (nth 0 p 0%R, nth 1 p 0%R, nth 2 p 0%R).
(** mesh.py:1001-1003: trim the padding of 2-D meshes. *)
Definition trim (d : nat) (p : R * R * R) : list R :=
  let '(x, y, z) := p in if d =? 2 then [x; y] else [x; y; z].

(** mesh.py:955-973: nodes tagged 1..n, cells shifted by one. [cells + 1] of an index -1 is
    the tag 0. *)
Definition inject (id : nat) (m : fmesh) : gstore :=
  {| g_tags := map S (seq 0 (length (f_points m)));
     g_coords := map pad3 (f_points m);
     g_blocks := [(id, map (map (fun o => match o with Some i => S i | None => 0 end)) (f_cells m))] |}.

(** mesh.py:988-992: the first block of the requested type. *)
Definition first_block (id : nat) (bs : list (nat * list (list nat))) : option (list (list nat)) :=
  option_map snd (find (fun b => fst b =? id) bs).

(** mesh.py:978-1005: read the refined mesh back; [None] is the [RuntimeError]. *)
Definition read_back (id n_npc d : nat) (ty : string) (st : gstore) : option fmesh :=
  match first_block id (g_blocks st) with
  | None => None
  | Some elems =>
      let rb := readback_remap (g_tags st) (g_coords st) elems in
      Some {| f_dim := d; f_points := map (trim d) (fst rb);
              f_npc := n_npc; f_cells := snd rb; f_type := ty |}
  end.

(** Errors of [refine_mesh]. *)
Inductive rerr : Type := BadLevels | Unsupported | BadDim | BadNodes | NoBlock.

(** mesh.py:863-1007 [refine_mesh]; [refine] is one call of [gmsh.model.mesh.refine()]. *)
Definition refine_mesh (refine : gstore -> gstore) (m : fmesh) (levels : Z) : fmesh + rerr :=
  if (levels <? 0)%Z then inr BadLevels
  else if (levels =? 0)%Z then inl m
  else match ele_info (f_type m) with
  | None => inr Unsupported
  | Some (id, npc, _) =>
      if negb ((f_dim m =? 2) || (f_dim m =? 3)) then inr BadDim
      else if negb (f_npc m =? npc) then inr BadNodes
      else match read_back id npc (f_dim m) (f_type m) (Nat.iter (Z.to_nat levels) refine (inject id m)) with
        | Some r => inl r
        | None => inr NoBlock
        end
  end.
