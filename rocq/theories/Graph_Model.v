(** Model of /repo/feax/flat/graph.py: node-edge graphs, adjacency matrices and the
    lattice density fields built from them.  Coordinates are exact rationals
    (floating-point rounding is not modelled); [norm(d) <= radius] is written
    [dot d d <= radius * radius], the same test for a non-negative radius.  Node
    indices are natural numbers; an index outside the node array is out of the
    model (the theorems assume indices in range). *)
From Coq Require Import QArith Qminmax.
From Verif Require Import Base.
Local Open Scope Q_scope.

Definition vec := list Q.
Definition vsub (a b : vec) : vec := map (fun p => fst p - snd p) (combine a b).
Definition vadd (a b : vec) : vec := map (fun p => fst p + snd p) (combine a b).
Definition vscale (t : Q) (a : vec) : vec := map (Qmult t) a.
Definition sumQ (l : list Q) : Q := fold_right Qplus 0 l.
Definition dot (a b : vec) : Q := sumQ (map (fun p => fst p * snd p) (combine a b)).
(** [np.clip(x, lo, hi)]. *)
Definition clip (x lo hi : Q) : Q := Qmin (Qmax x lo) hi.
Definition Qltb (a b : Q) : bool := negb (Qle_bool b a).

(** graph.py:49-69 [_segment_distance], squared. *)
Definition segment_dist2 (x p0 p1 : vec) : Q :=
  let v := vsub p1 p0 in
  let w := vsub x p0 in
  let vv := dot v v in
  let t := if Qltb 0 vv then clip (dot w v / vv) 0 1 else 0 in
  let proj := vadd p0 (vscale t v) in
  let d := vsub x proj in dot d d.

(** [_segment_distance(x, nodes[i], nodes[j]) <= radius]. *)
Definition near_edge (x : vec) (nodes : list vec) (r : Q) (i j : nat) : bool :=
  Qle_bool (segment_dist2 x (nth i nodes []) (nth j nodes [])) (r * r).

(** graph.py:72-100 [universal_graph]; [None] is the ValueError. *)
Definition universal_graph (x : vec) (nodes : list vec) (edges : list (nat * nat)) (r : Q) : option Q :=
  if Qltb r 0 then None
  else match edges with
       | [] => Some 0
       | _ => Some (if existsb (fun e => near_edge x nodes r (fst e) (snd e)) edges then 1 else 0)
       end.

Definition matrix := list (list Q).
Definition mget (A : matrix) (i j : nat) : Q := nth j (nth i A []) 0.
(** [adj.at[i, j].set(v)]: updates out of bounds are dropped. *)
Definition mset (A : matrix) (i j : nat) (v : Q) : matrix := upd A i (upd (nth i A []) j v).
Definition mzeros (n : nat) : matrix := repeat (repeat 0 n) n.

(** graph.py:117-156 [edges2adjcentMat]. *)
Definition max_index (edges : list (nat * nat)) : nat :=
  fold_right Nat.max 0%nat (map (fun e => Nat.max (fst e) (snd e)) edges).
Definition edges2adj (edges : list (nat * nat)) (num_nodes : option nat) : matrix :=
  match edges with
  | [] => mzeros (match num_nodes with Some n => n | None => 0%nat end)
  | _ =>
      let n := match num_nodes with Some n => n | None => (max_index edges + 1)%nat end in
      fold_left (fun A e => mset (mset A (fst e) (snd e) 1) (snd e) (fst e) 1) edges (mzeros n)
  end.

(** [np.triu_indices(n, k=1)]: pairs above the diagonal, row by row. *)
Definition triu (n : nat) : list (nat * nat) :=
  flat_map (fun i => map (fun j => (i, j)) (seq (i + 1) (n - (i + 1)))) (seq 0 n).
(** [np.where(cond, size=size, fill_value=-1)[0]]: hit positions, cut or padded to
    [size]; [None] is the fill value -1. *)
Definition where_sized (cond : list bool) (size : nat) : list (option nat) :=
  let hits := filter (fun k => nth k cond false) (seq 0 (length cond)) in
  firstn size (map Some hits ++ repeat None size).

(** graph.py:159-201 [adjcentMat2edges]; index -1 reads the last entry before its
    row is masked out. *)
Definition adj2edges (A : matrix) : list (nat * nat) :=
  let n := length A in
  let ij := triu n in
  let vals := map (fun p => mget A (fst p) (snd p)) ij in
  let idx := where_sized (map (fun v => negb (Qeq_bool v 0)) vals) (n * (n - 1) / 2) in
  let edges := map (fun o => match o with
                             | Some k => nth k ij (0, 0)%nat
                             | None => last ij (0, 0)%nat
                             end) idx in
  mask_select edges (map (fun o => match o with Some _ => true | None => false end) idx).

(** graph.py:204-249 [universal_graph_from_adjmat]. *)
Definition universal_graph_adj (x : vec) (nodes : list vec) (A : matrix) (r : Q) : option Q :=
  if Qltb r 0 then None
  else
    let n := length A in
    Some (if existsb (fun i => existsb (fun j =>
            ((i <? j)%nat && negb (Qeq_bool (mget A i j) 0)) && near_edge x nodes r i j) (seq 0 n)) (seq 0 n)
          then 1 else 0).

(** [np.mean(points[cells], axis=1)] for one cell (graph.py:293). *)
Definition centroid (points : list vec) (cell : list nat) : vec :=
  map (fun k => sumQ (map (fun c => nth k (nth c points []) 0) cell) / inject_Z (Z.of_nat (length cell)))
      (seq 0 (length (nth (hd 0%nat cell) points []))).

(** [np.where(values > 0.5, solid, void)] (graph.py:299, 331). *)
Definition to_density (solid void : Q) (value : Q) : Q := if Qltb (1 # 2) value then solid else void.

(** A failing lattice function (ValueError while tracing) fails the whole call. *)
Fixpoint all_some {A} (l : list (option A)) : option (list A) :=
  match l with
  | [] => Some []
  | Some x :: t => match all_some t with Some r => Some (x :: r) | None => None end
  | None :: _ => None
  end.
(** graph.py:275-301 [create_lattice_density_field]. *)
Definition density_field (lattice : vec -> option Q) (points : list vec) (cells : list (list nat)) (solid void : Q)
  : option (list Q) :=
  option_map (map (to_density solid void)) (all_some (map (fun c => lattice (centroid points c)) cells)).
(** graph.py:304-333 [create_lattice_density_field_nodal]. *)
Definition density_field_nodal (lattice : vec -> option Q) (points : list vec) (solid void : Q) : option (list Q) :=
  option_map (map (to_density solid void)) (all_some (map lattice points)).
