(** Model of the structured grid. Source: /repo/feax/spgrid.py.
    Integers are unbounded (int64 overflow is not modelled); coordinates are exact rationals. *)
From Coq Require Import ZArith QArith Qround Qminmax Bool List.
From Verif Require Import ZArr.
Import ListNotations.
Local Open Scope Z_scope.

Definition point := (Q * Q * Q)%type.
Definition px (p : point) : Q := fst (fst p).
Definition py (p : point) : Q := snd (fst p).
Definition pz (p : point) : Q := snd p.
Definition ijk := (Z * Z * Z)%type.

(** spgrid.py:41-44 [__init__]. *)
Record grid := { nx : Z; ny : Z; nz : Z; spacing : point; origin : point }.

(** spgrid.py:23-25 [_HEX8_OFFSETS]. *)
Definition hex8_offsets : list ijk :=
  [(0, 1, 1); (0, 0, 1); (0, 0, 0); (0, 1, 0); (1, 1, 1); (1, 0, 1); (1, 0, 0); (1, 1, 0)].

Section G.
  Variable g : grid.
  (** spgrid.py:101-107. *)
  Definition num_cells : Z := nx g * ny g * nz g.
  Definition num_nodes : Z := (nx g + 1) * (ny g + 1) * (nz g + 1).
  (** spgrid.py:109-113; numpy's // and % are floor division, like [Z.div] and [Z.modulo]. *)
  Definition cell_ijk (e : Z) : ijk :=
    let nynz := ny g * nz g in
    let r := e mod nynz in (e / nynz, r / nz g, r mod nz g).
  (** spgrid.py:141-144. *)
  Definition cell_id (x y z : Z) : Z := (x * ny g + y) * nz g + z.
  (** spgrid.py:136-139. *)
  Definition node_id (i j k : Z) : Z := (i * (ny g + 1) + j) * (nz g + 1) + k.
  (** spgrid.py:126-129, the index part of [node_coords]. *)
  Definition node_ijk (n : Z) : ijk :=
    let ny1 := ny g + 1 in let nz1 := nz g + 1 in
    let r := n mod (ny1 * nz1) in (n / (ny1 * nz1), r / nz1, r mod nz1).
  (** spgrid.py:115-123. *)
  Definition cell_to_nodes (e : Z) : list Z :=
    let '(cx, cy, cz) := cell_ijk e in
    map (fun o => let '(ox, oy, oz) := o in node_id (cx + ox) (cy + oy) (cz + oz)) hex8_offsets.
  (** spgrid.py:125-130. *)
  Definition node_coords (n : Z) : point :=
    let '(i, j, k) := node_ijk n in
    (px (origin g) + inject_Z i * px (spacing g), py (origin g) + inject_Z j * py (spacing g),
     pz (origin g) + inject_Z k * pz (spacing g))%Q.
  (** spgrid.py:132-134. *)
  Definition cell_centroid (e : Z) : point :=
    let '(i, j, k) := cell_ijk e in
    (px (origin g) + (inject_Z i + (1 # 2)) * px (spacing g), py (origin g) + (inject_Z j + (1 # 2)) * py (spacing g),
     pz (origin g) + (inject_Z k + (1 # 2)) * pz (spacing g))%Q.

  Definition in_bounds (x y z : Z) : bool :=
    (0 <=? x) && (x <? nx g) && (0 <=? y) && (y <? ny g) && (0 <=? z) && (z <? nz g).
  (** spgrid.py:78-85 [point_cells] (one point). Zero spacing (NaN in numpy) is not modelled. *)
  Definition point_cell (p : point) : Z :=
    let i := Qfloor ((px p - px (origin g)) / px (spacing g)) in
    let j := Qfloor ((py p - py (origin g)) / py (spacing g)) in
    let k := Qfloor ((pz p - pz (origin g)) / pz (spacing g)) in
    if in_bounds i j k then (i * ny g + j) * nz g + k else -1.
  (** spgrid.py:87-91. *)
  Definition voxelize (ps : list point) : list Z :=
    uniqueZ (filter (fun c => 0 <=? c) (map point_cell ps)).
  (** spgrid.py:93-99. *)
  Definition cells_where (predicate : point -> bool) : list Z :=
    filter (fun e => predicate (cell_centroid e)) (arangeZ num_cells).
  (** spgrid.py:146-154 [nodes_where]: meshgrid order 'ij', row-major boolean indexing. *)
  Definition nodes_where (predicate : Z -> Z -> Z -> bool) : list Z :=
    flat_map (fun i => flat_map (fun j => flat_map (fun k =>
      if predicate i j k then [node_id i j k] else []) (arangeZ (nz g + 1))) (arangeZ (ny g + 1))) (arangeZ (nx g + 1)).
  (** spgrid.py:172-186. *)
  Definition dilate_cells (cells : list Z) (margin : Z) : list Z :=
    if margin <=? 0 then uniqueZ cells
    else
      let r := rangeZ (- margin) (margin + 1) in
      uniqueZ (flat_map (fun dx => flat_map (fun dy => flat_map (fun dz =>
        flat_map (fun e =>
          let '(cx, cy, cz) := cell_ijk e in
          if in_bounds (cx + dx) (cy + dy) (cz + dz)
          then [((cx + dx) * ny g + (cy + dy)) * nz g + (cz + dz)] else []) cells) r) r) r).
End G.

(** spgrid.py:47-76 [fit]. *)
Inductive fit_mode := ByH (h : point) | ByDims (dx dy dz : Z).
Definition qlo (f : point -> Q) (p0 : point) (ps : list point) : Q := fold_right (fun p m => Qmin (f p) m) (f p0) ps.
Definition qhi (f : point -> Q) (p0 : point) (ps : list point) : Q := fold_right (fun p m => Qmax (f p) m) (f p0) ps.
Definition align_up (align : option Z) (d : Z) : Z :=
  match align with Some a => if a =? 0 then d else ((d + a - 1) / a) * a | None => d end.
(** One axis of the [h] branch, lines 65-68 and 75: origin and dimension. *)
Definition fit_h_axis (lo hi h pad : Q) (org : option Q) (align : option Z) : Q * Z :=
  let o := match org with None => (lo - pad * h)%Q | Some o => o end in
  (o, align_up align (Z.max 1 (Qceiling ((hi + pad * h - o) / h)))).
(** One axis of the [dims] branch, lines 70-72 and 75: origin, dimension, spacing. *)
Definition fit_dims_axis (lo hi : Q) (dim : Z) (org : option Q) (align : option Z) : Q * Z * Q :=
  (match org with None => lo | Some o => o end, align_up align dim, ((hi - lo) / inject_Z (Z.max dim 1))%Q).
(** [ps] is [p0 :: rest]: numpy's min of an empty array raises. *)
Definition fit (p0 : point) (rest : list point) (mode : option fit_mode) (pad : Q) (org : option point) (align : option Z) : option grid :=
  let ox := option_map px org in let oy := option_map py org in let oz := option_map pz org in
  match mode with
  | Some (ByH h) =>
      let ax := fit_h_axis (qlo px p0 rest) (qhi px p0 rest) (px h) pad ox align in
      let ay := fit_h_axis (qlo py p0 rest) (qhi py p0 rest) (py h) pad oy align in
      let az := fit_h_axis (qlo pz p0 rest) (qhi pz p0 rest) (pz h) pad oz align in
      Some {| nx := snd ax; ny := snd ay; nz := snd az; spacing := h; origin := (fst ax, fst ay, fst az) |}
  | Some (ByDims dx dy dz) =>
      let ax := fit_dims_axis (qlo px p0 rest) (qhi px p0 rest) dx ox align in
      let ay := fit_dims_axis (qlo py p0 rest) (qhi py p0 rest) dy oy align in
      let az := fit_dims_axis (qlo pz p0 rest) (qhi pz p0 rest) dz oz align in
      Some {| nx := snd (fst ax); ny := snd (fst ay); nz := snd (fst az);
              spacing := (snd ax, snd ay, snd az); origin := (fst (fst ax), fst (fst ay), fst (fst az)) |}
  | None => None (* ValueError *)
  end.

(** spgrid.py:189-203 [voxelize_mesh]. [linspace(0.25, 0.75, n)] is passed as the list [fs];
    a mesh is its points and cells. *)
Definition pmap2 (f : Q -> Q -> Q) (p q : point) : point := (f (px p) (px q), f (py p) (py q), f (pz p) (pz q)).
Definition centroid (ps : list point) : point :=
  let n := inject_Z (Z.of_nat (length ps)) in
  let s := fold_right (pmap2 Qplus) (0, 0, 0)%Q ps in (px s / n, py s / n, pz s / n)%Q.
Definition cell_points (pts : list point) (cell : list nat) : list point := map (fun n => nth n pts (0, 0, 0)%Q) cell.
Definition voxelize_mesh (g : grid) (pts : list point) (cells : list (list nat)) (fs : list Q) : list Z :=
  let cent := map (fun c => centroid (cell_points pts c)) cells in
  let samples := pts ++ cent ++
    flat_map (fun f => flat_map (fun c => map (fun p => pmap2 (fun a b => f * a + (1 - f) * b)%Q p (centroid (cell_points pts c)))
                                            (cell_points pts c)) cells) fs in
  voxelize g samples.
