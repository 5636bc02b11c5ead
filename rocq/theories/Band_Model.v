(** Model of narrow bands and sparse designs.
    Sources: /repo/feax/narrowband.py and /repo/feax/spgrid.py:206-244.
    Cell and node ids are integers; numpy's wrapping of negative indices is not modelled
    (theorems take ids in range). *)
From Coq Require Import ZArith Bool List Arith Sorting.Permutation Sorting.Sorted.
From Verif Require Import Base Assembly_Model ZArr Grid_Model.
Import ListNotations.
Local Open Scope Z_scope.

(** A domain: connectivity by cell id, sizes and node coordinates. narrowband.py:77-90. *)
Record domain (P : Type) := { d_cells : Z -> list Z; d_ncells : Z; d_nnodes : Z; d_point : Z -> P }.
Arguments d_cells {P}. Arguments d_ncells {P}. Arguments d_nnodes {P}. Arguments d_point {P}.
Definition grid_domain (g : grid) : domain point :=
  {| d_cells := cell_to_nodes g; d_ncells := num_cells g; d_nnodes := num_nodes g; d_point := node_coords g |}.
Definition mesh_domain {P} (dp : P) (cells : list (list Z)) (points : list P) : domain P :=
  {| d_cells := fun e => nth (Z.to_nat e) cells []; d_ncells := Z.of_nat (length cells);
     d_nnodes := Z.of_nat (length points); d_point := fun n => nth (Z.to_nat n) points dp |}.

(** narrowband.py:76-101 [NarrowBand.__init__]. *)
Record band (P : Type) := { b_points : list P; b_cells : list (list nat); b_active : list Z; b_map : list Z;
                            b_full_cells : Z; b_full_nodes : Z }.
Arguments b_points {P}. Arguments b_cells {P}. Arguments b_active {P}. Arguments b_map {P}.
Arguments b_full_cells {P}. Arguments b_full_nodes {P}.
Definition narrow_band {P} (dom : domain P) (active : list Z) : band P :=
  let cells := map (d_cells dom) active in
  let used := uniqueZ (concat cells) in
  {| b_points := map (d_point dom) used; b_cells := map (map (searchsortedZ used)) cells;
     b_active := active; b_map := used; b_full_cells := d_ncells dom; b_full_nodes := d_nnodes dom |}.

(** narrowband.py:41-46 [_node_adjacent_cells]; the boolean mask over nodes is a membership test. *)
Definition memZ (x : Z) (l : list Z) : bool := existsb (Z.eqb x) l.
Definition node_adjacent_cells {P} (dom : domain P) (seed : list Z) : list Z :=
  let seed_nodes := concat (map (d_cells dom) seed) in
  filter (fun c => existsb (fun n => memZ n seed_nodes) (d_cells dom c)) (arangeZ (d_ncells dom)).
Definition dilate_rings {P} (dom : domain P) (rings : nat) (seed : list Z) : list Z :=
  Nat.iter rings (node_adjacent_cells dom) seed.

(** narrowband.py:108-135 [from_field]. [cell_seed]: [field > threshold] per cell;
    [node_seed]: per node, a cell is a seed if any of its nodes is. *)
Inductive field_seed := CellSeed (f : Z -> bool) | NodeSeed (f : Z -> bool).
Definition from_field {P} (dom : domain P) (seed : field_seed) (margin : nat) (keep : option (list Z)) : band P :=
  let active := filter (fun c => match seed with CellSeed f => f c | NodeSeed f => existsb f (d_cells dom c) end)
                       (arangeZ (d_ncells dom)) in
  let active := dilate_rings dom margin active in
  narrow_band dom (match keep with None => active | Some k => uniqueZ (active ++ k) end).

Section Fields.
  Context {P A : Type}.
  Variable b : band P.
  Variable dflt : A.
  Definition row_at (l : list A) (i : Z) : A := nth (Z.to_nat i) l dflt.
  Definition in_rangeZ (n : Z) (l : list Z) : bool := forallb (fun i => (0 <=? i) && (i <? n)) l.
  (** narrowband.py:146-149 [gather_cells]: [reshape(num_full_cells, -1).squeeze()[active]].
      The input has one row per cell. With a single full cell, [squeeze] removes the cell axis. *)
  Definition gather_cells (rows : list (list A)) : option (list (list A)) :=
    match rows with
    | [r] => if (length r =? 1)%nat then None          (* 0-d array: IndexError *)
             else if in_rangeZ (Z.of_nat (length r)) (b_active b) then Some (map (fun i => [row_at r i]) (b_active b))
             else None
    | _ => if in_rangeZ (Z.of_nat (length rows)) (b_active b)
           then Some (map (fun i => nth (Z.to_nat i) rows []) (b_active b)) else None
    end.
  (** narrowband.py:151-155 [scatter_cells]; numpy broadcasts a single value, otherwise the
      lengths must agree. *)
  Definition scatter_cells (vals : list A) (fill : A) : option (list A) :=
    let out := repeat fill (Z.to_nat (b_full_cells b)) in
    let idx := map Z.to_nat (b_active b) in
    match vals with
    | [v] => Some (scatter_set out (map (fun i => (i, v)) idx))
    | _ => if (length vals =? length idx)%nat then Some (scatter_set out (combine idx vals)) else None
    end.
  (** narrowband.py:157-165 [scatter_sol]; reshape fails on a wrong size. *)
  Definition scatter_sol (zero : A) (sol : list A) (vec : nat) : option (list A) :=
    if (length sol =? length (b_map b) * vec)%nat then
      Some (concat (scatter_set (repeat (repeat zero vec) (Z.to_nat (b_full_nodes b)))
                                (combine (map Z.to_nat (b_map b)) (reshape (length (b_map b)) vec sol))))
    else None.
  (** narrowband.py:167-170 [gather_sol]. *)
  Definition gather_sol (sol : list A) (vec : nat) : option (list A) :=
    if (length sol =? Z.to_nat (b_full_nodes b) * vec)%nat then
      Some (concat (map (fun n => nth (Z.to_nat n) (reshape (Z.to_nat (b_full_nodes b)) vec sol) []) (b_map b)))
    else None.
  (** narrowband.py:173-199 [gather_params]: one volume variable, a list of rows. *)
  Definition gather_var (v : list A) : option (list A) :=
    if Z.of_nat (length v) =? b_full_cells b then Some (map (row_at v) (b_active b))
    else if Z.of_nat (length v) =? b_full_nodes b then Some (map (row_at v) (b_map b))
    else None.
  Fixpoint all_vars {B} (f : list A -> option B) (vs : list (list A)) : option (list B) :=
    match vs with
    | [] => Some []
    | v :: t => match f v, all_vars f t with Some x, Some r => Some (x :: r) | _, _ => None end
    end.
  Definition gather_params {S} (surface_vars : list S) (vs : list (list A)) : option (list (list A)) :=
    match surface_vars with [] => all_vars gather_var vs | _ => None end.
  (** narrowband.py:201-220 [scatter_params]. *)
  Definition scatter_var (fill : A) (v : list A) : option (list A) :=
    if (length v =? length (b_active b))%nat then
      Some (scatter_set (repeat fill (Z.to_nat (b_full_cells b))) (combine (map Z.to_nat (b_active b)) v))
    else if (length v =? length (b_map b))%nat then
      Some (scatter_set (repeat fill (Z.to_nat (b_full_nodes b))) (combine (map Z.to_nat (b_map b)) v))
    else None.
  Definition scatter_params (fill : A) (vs : list (list A)) : option (list (list A)) := all_vars (scatter_var fill) vs.
End Fields.

(** narrowband.py:217-289 [SupersetBand]. [None]: no superset yet. *)
Section Superset.
  Context {P : Type}.
  Variable dom : domain P.
  Variables margin guard : nat.
  Definition sstate := option (list Z).
  (** narrowband.py:251-266 [reextract]; the superset mask is membership in the list. *)
  Definition reextract (active : list Z) : sstate := Some (dilate_rings dom margin active).
  (** narrowband.py:268-278 [needs_reextract]. *)
  Definition needs_reextract (s : sstate) (active : list Z) : bool :=
    match s with
    | None => true
    | Some superset => negb (forallb (fun c => memZ c superset) (dilate_rings dom guard active))
    end.
  (** The documented driver loop, narrowband.py:229-236: one iteration. *)
  Definition drive (s : sstate) (active : list Z) : sstate :=
    if needs_reextract s active then reextract active else s.
End Superset.

(** spgrid.py:206-244 [SparseDesign]. *)
Section Sparse.
  Context {A : Type}.
  Variable dflt : A.
  (** [onp.argsort] (quicksort, not stable): some sorting permutation. *)
  Variable argsrt : list Z -> list nat.
  (** [astype(int32)]: wraps modulo 2^32. *)
  Definition two31 : Z := 2147483648.
  Definition wrap32 (z : Z) : Z := (z + two31) mod (2 * two31) - two31.
  Record sparse := { s_ids : list Z; s_vals : list A }.
  (** spgrid.py:214-219 [__init__]: assertion, sort, cast. Too few values: IndexError. *)
  Definition make_sparse (ids : list Z) (vals : list A) : option sparse :=
    if forallb (fun i => i <? two31) ids && (length ids <=? length vals)%nat then
      let o := argsrt ids in
      Some {| s_ids := map (fun i => wrap32 (nth i ids 0)) o; s_vals := map (fun i => nth i vals dflt) o |}
    else None.
  (** spgrid.py:221-224 [uniform]. *)
  Definition uniform (ids : list Z) (v : A) : option sparse := make_sparse ids (repeat v (length ids)).
  (** spgrid.py:226-234 [gather] (one query). *)
  Definition sparse_gather (s : sparse) (query : Z) (default : A) : A :=
    let q := wrap32 query in
    match s_ids s with
    | [] => default
    | _ => let n := length (s_ids s) in
           let pos := searchsortedZ (s_ids s) q in
           let posc := Nat.min pos (n - 1) in
           if (pos <? n)%nat && (nth posc (s_ids s) 0 =? q) then nth posc (s_vals s) dflt else default
    end.
  (** spgrid.py:236-244 [update]. *)
  Definition sparse_update (s : sparse) (ids : list Z) (vals : list A) : option sparse :=
    match s_ids s with
    | [] => make_sparse ids vals
    | _ => let keep := map (fun i => negb (memZ i ids)) (s_ids s) in
           make_sparse (mask_select (s_ids s) keep ++ ids) (mask_select (s_vals s) keep ++ vals)
    end.
  (** A history of updates from the empty store. *)
  Definition sparse_run (ups : list (list Z * list A)) : option sparse :=
    fold_left (fun st u => match st with Some s => sparse_update s (fst u) (snd u) | None => None end) ups (make_sparse [] []).
End Sparse.
