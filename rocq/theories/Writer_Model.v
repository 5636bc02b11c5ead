(** Model of result files: [save_sol] and [XDMFWriter] (feax/utils.py). Files are values; an HDF5 file is a set of groups and named
    arrays whose creation fails if the name is taken. Conversion to single precision is left out, field names are
    taken as plain link names (no slash), and XML quoting is left to the library. *)
From Coq Require Import List Arith Bool String Decimal DecimalNat DecimalString.
Import ListNotations.
Open Scope string_scope.

(** ** Labels *)
(** feax/utils.py:51-67, 245-263: the element type is guessed from the number of nodes of a cell and the dimension. *)
Definition element_type (nodes dim : nat) : option string :=
  match nodes with
  | 3 => Some "TRI3" | 4 => Some (if Nat.eqb dim 2 then "QUAD4" else "TET4") | 6 => Some "TRI6" | 8 => Some "HEX8" | 10 => Some "TET10" | 20 => Some "HEX20" | _ => None
  end.
(** feax/mesh.py:249-270 [get_meshio_cell_type]; [None]: NotImplementedError. *)
Definition meshio_cell_type (e : string) : option string :=
  if e =? "TET4" then Some "tetra" else if e =? "TET10" then Some "tetra10" else if e =? "HEX8" then Some "hexahedron" else if e =? "HEX27" then Some "hexahedron27"
  else if e =? "HEX20" then Some "hexahedron20" else if e =? "TRI3" then Some "triangle" else if e =? "TRI6" then Some "triangle6" else if e =? "QUAD4" then Some "quad" else if e =? "QUAD8" then Some "quad8"
  else if e =? "QUAD9" then Some "quad9" else None.
(** feax/utils.py:169-177 [_XDMF_TOPOLOGY_TYPE]. *)
Definition topology_type (e : string) : option string :=
  if e =? "TRI3" then Some "Triangle" else if e =? "TRI6" then Some "Triangle_6" else if e =? "QUAD4" then Some "Quadrilateral" else if e =? "TET4" then Some "Tetrahedron"
  else if e =? "TET10" then Some "Tetrahedron_10" else if e =? "HEX8" then Some "Hexahedron" else if e =? "HEX20" then Some "Hexahedron_20" else None.

Section Writer.
(** Numbers and frame times. *)
Context {A T : Type}.
Variable zero : A.
(** An array: its shape and its value at every index. *)
Record array := { shape : list nat; value : list nat -> A }.
Definition field : Type := string * array.

(** ** [save_sol], feax/utils.py:24-130 *)
(** [data.reshape(n, -1)] for an (n, a, b) array and [data.reshape(n, 1)] for an array of [n] numbers; an array of another shape with
    other than [n] numbers is refused by numpy. *)
Definition size (s : list nat) : nat := fold_right Nat.mul 1 s.
Definition cell_data (n : nat) (d : array) : option array :=
  match shape d with
  | [] => None
  | m :: _ =>
    if Nat.eqb m n then
      match shape d with
      | [_; a; b] => Some {| shape := [n; a * b]; value := fun ix => match ix with [i; k] => value d [i; k / b; k mod b] | _ => zero end |}
      | [_; _] => Some d
      | _ => if Nat.eqb (size (shape d)) n then Some {| shape := [n; 1]; value := fun ix => match ix with [i; _] => value d (i :: map (fun _ => 0) (tl (shape d))) | _ => zero end |} else None
      end
    else None
  end.
Definition point_data (n : nat) (d : array) : option array := match shape d with m :: _ => if Nat.eqb m n then Some d else None | [] => None end.
Fixpoint collect (f : array -> option array) (l : list field) : option (list field) :=
  match l with
  | [] => Some []
  | (name, d) :: l => match f d with Some d => match collect f l with Some l => Some ((name, d) :: l) | None => None end | None => None end
  end.
(** A dictionary assignment per field: a later field of the same name replaces the earlier one. *)
Definition dict (l : list field) (name : string) : option array := match find (fun p => fst p =? name) (List.rev l) with Some p => Some (snd p) | None => None end.
Record vtk := { cell_type : string; cells_out : string -> option array; points_out : string -> option array }.
Definition save_sol (nodes dim n_points n_cells : nat) (cell_infos point_infos : option (list field)) : option vtk :=
  match cell_infos, point_infos with
  | None, None => None
  | _, _ =>
    match element_type nodes dim with
    | None => None
    | Some e =>
      match meshio_cell_type e with
      | None => None
      | Some ct =>
        match collect (cell_data n_cells) (match cell_infos with Some l => l | None => [] end), collect (point_data n_points) (match point_infos with Some l => l | None => [] end) with
        | Some c, Some p => Some {| cell_type := ct; cells_out := dict c; points_out := dict p |}
        | _, _ => None
        end
      end
    end
  end.

(** ** The time-series writer *)
(** feax/utils.py:133-166 [_normalize_field]; [None]: an exception. *)
Definition list_eqb (a b : list nat) : bool := if list_eq_dec Nat.eq_dec a b then true else false.
Definition normalize (n : nat) (d : array) : option array :=
  match shape d with
  | [] => None
  | m :: rest =>
      if Nat.eqb m n then
        if list_eqb rest [2; 2] then
          Some {| shape := [m; 3; 3]; value := fun ix => match ix with [k; i; j] => if Nat.ltb i 2 && Nat.ltb j 2 then value d ix else zero | _ => zero end |}
        else if Nat.leb 2 (List.length rest) && negb (list_eqb rest [3; 3]) then None else Some d
      else None
  end.
(** [f"frame_{frame_id:06d}"], feax/utils.py:342. *)
Fixpoint zeros (k : nat) (u : uint) : uint := match k with 0 => u | S k => D0 (zeros k u) end.
Definition prefix (id : nat) : string := "frame_" ++ NilEmpty.string_of_uint (zeros (6 - nb_digits (Nat.to_uint id)) (Nat.to_uint id)).

Inductive center := Node | Cell.
Definition center_eqb (a b : center) : bool := match a, b with Node, Node => true | Cell, Cell => true | _, _ => false end.
Definition path : Type := string * center * string.
Definition path_eqb (a b : path) : bool := let '(p, c, n) := a in let '(p', c', n') := b in (p =? p') && center_eqb c c' && (n =? n').
(** An open or closed HDF5 file: groups of frames and arrays (the mesh arrays, always present, are left out). *)
Record h5 := { groups : list string; arrays : list (path * array) }.
Definition lookup (f : h5) (p : path) : option array := match find (fun q => path_eqb (fst q) p) (arrays f) with Some q => Some (snd q) | None => None end.
(** A record of a frame: time, prefix, point and cell fields with their shapes (feax/utils.py:374). *)
Record frame := { time : T; name : string; point_records : list (string * list nat); cell_records : list (string * list nat) }.
(** The index file: per frame its time and the attributes (name, centre, type, dimensions, array). *)
Record attribute := { a_name : string; a_center : center; a_type : string; a_dims : nat * nat; a_path : path }.
Record grid := { g_time : T; g_name : string; g_attributes : list attribute }.
(** The writer and the two files; [frames = None] before the first entry. *)
Record state := { file : h5; is_open : bool; frames : option (list frame); frame_id : nat; signature : option (list string * list string); index : option (list grid) }.
Definition init : state := {| file := {| groups := []; arrays := [] |}; is_open := false; frames := None; frame_id := 0; signature := None; index := None |}.

(** feax/utils.py:293-301 [__enter__]: truncates the HDF5 file; a file still open cannot be truncated. The signature is kept. *)
Definition enter (s : state) : bool * state :=
  if is_open s then (false, s)
  else (true, {| file := {| groups := []; arrays := [] |}; is_open := true; frames := Some []; frame_id := 0; signature := signature s; index := index s |}).

(** feax/utils.py:361-372: the fields are written one after the other; on an exception those before it stay in the file. *)
Fixpoint write_fields (pre : string) (c : center) (n : nat) (l : list field) (f : h5) : option (list (string * list nat)) * h5 :=
  match l with
  | [] => (Some [], f)
  | (nm, d) :: l =>
      match normalize n d with
      | None => (None, f)
      | Some d =>
          match lookup f (pre, c, nm) with
          | Some _ => (None, f)
          | None => match write_fields pre c n l {| groups := groups f; arrays := ((pre, c, nm), d) :: arrays f |} with
                    | (Some r, f) => (Some ((nm, shape d) :: r), f)
                    | (None, f) => (None, f)
                    end
          end
      end
  end.
Definition sig_eqb (a b : list string * list string) : bool :=
  (if list_eq_dec string_dec (fst a) (fst b) then true else false) && (if list_eq_dec string_dec (snd a) (snd b) then true else false).
Definition with_file (s : state) (f : h5) (sg : option (list string * list string)) : state :=
  {| file := f; is_open := is_open s; frames := frames s; frame_id := frame_id s; signature := sg; index := index s |}.
(** feax/utils.py:319-375 [write_iteration]; no list is the same as an empty one. *)
Definition write (n_points n_cells : nat) (t : T) (points cells : list field) (s : state) : bool * state :=
  if negb (is_open s) then (false, s) else
  let pre := prefix (frame_id s) in
  if existsb (String.eqb pre) (groups (file s)) then (false, s) else
  let f1 := {| groups := pre :: groups (file s); arrays := arrays (file s) |} in
  let keys := (map fst points, map fst cells) in
  if negb (match signature s with Some sg => sig_eqb sg keys | None => true end) then (false, with_file s f1 (signature s)) else
  match write_fields pre Node n_points points f1 with
  | (None, f2) => (false, with_file s f2 (Some keys))
  | (Some pr, f2) =>
      match write_fields pre Cell n_cells cells f2 with
      | (None, f3) => (false, with_file s f3 (Some keys))
      | (Some cr, f3) =>
          (true, {| file := f3; is_open := true; frames := match frames s with Some l => Some (l ++ [{| time := t; name := pre; point_records := pr; cell_records := cr |}])%list | None => None end;
                    frame_id := S (frame_id s); signature := Some keys; index := index s |})
      end
  end.
(** feax/utils.py:379-392 [_attribute_type]; [None]: ValueError. *)
Definition attribute_type (sh : list nat) : option (string * (nat * nat)) :=
  match sh with
  | [n] => Some ("Scalar", (n, 1))
  | [n; k] => if Nat.eqb k 1 then Some ("Scalar", (n, k)) else if Nat.eqb k 2 || Nat.eqb k 3 then Some ("Vector", (n, k))
              else if Nat.eqb k 6 then Some ("Tensor6", (n, k)) else if Nat.eqb k 9 then Some ("Tensor", (n, k)) else None
  | [n; a; b] => if Nat.eqb a 3 && Nat.eqb b 3 then Some ("Tensor", (n, 9)) else None
  | _ => None
  end.
(** feax/utils.py:394-458 [_write_xdmf_xml]: one grid per frame, its point fields before its cell fields. *)
Fixpoint attributes (pre : string) (c : center) (l : list (string * list nat)) : option (list attribute) :=
  match l with
  | [] => Some []
  | (nm, sh) :: l =>
      match attribute_type sh with
      | None => None
      | Some (ty, dims) =>
          match attributes pre c l with
          | Some r => Some ({| a_name := nm; a_center := c; a_type := ty; a_dims := dims; a_path := (pre, c, nm) |} :: r)
          | None => None
          end
      end
  end.
Fixpoint grids (l : list frame) : option (list grid) :=
  match l with
  | [] => Some []
  | f :: l =>
      match attributes (name f) Node (point_records f), attributes (name f) Cell (cell_records f), grids l with
      | Some p, Some c, Some r => Some ({| g_time := time f; g_name := name f; g_attributes := (p ++ c)%list |} :: r)
      | _, _, _ => None
      end
  end.
(** feax/utils.py:303-313 [__exit__]: closes the HDF5 file, then writes the index; an exception of its own is raised only if none
    is under way ([exc]). *)
Definition exit (exc : bool) (s : state) : bool * state :=
  let closed ix := {| file := file s; is_open := false; frames := frames s; frame_id := frame_id s; signature := signature s; index := ix |} in
  match frames s with
  | None => (exc, closed (index s))
  | Some l => match grids l with Some g => (true, closed (Some g)) | None => (exc, closed (index s)) end
  end.
Inductive op := Enter | Write (t : T) (points cells : list field) | Exit (exc : bool).
Definition step (n_points n_cells : nat) (o : op) (s : state) : bool * state :=
  match o with Enter => enter s | Write t p c => write n_points n_cells t p c s | Exit exc => exit exc s end.
Fixpoint run (n_points n_cells : nat) (ops : list op) (s : state) : state :=
  match ops with [] => s | o :: ops => run n_points n_cells ops (snd (step n_points n_cells o s)) end.
End Writer.
