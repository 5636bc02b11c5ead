(** Model of the narrow-band geometric multigrid. Source: /repo/feax/solvers/cmg.py.
    Integers are unbounded; weights and densities are exact. Padding to bucket sizes
    (cmg.py:425-440) is modelled only where said. *)
From Coq Require Import ZArith QArith Bool List Arith.
From Verif Require Import Base ZArr Grid_Model.
Import ListNotations.
Local Open Scope Z_scope.

(** cmg.py:35 [_CORNERS]. *)
Definition cmg_corners : list ijk :=
  [(0, 0, 0); (0, 0, 1); (0, 1, 0); (0, 1, 1); (1, 0, 0); (1, 0, 1); (1, 1, 0); (1, 1, 1)].
(** cmg.py:77-79 [_cap]. *)
Definition cap (n bucket : Z) : Z := ((Z.max 1 n + bucket - 1) / bucket) * bucket.
(** cmg.py:159 cell coordinates. *)
Definition cell_idx (d : ijk) (e : Z) : ijk :=
  let '(nx, ny, nz) := d in
  let nyz := ny * nz in let rem := e mod nyz in (e / nyz, rem / nz, rem mod nz).
(** cmg.py:160 node numbering. *)
Definition node_at (d p : ijk) : Z :=
  let '(nx, ny, nz) := d in let '(i, j, k) := p in
  i * ((ny + 1) * (nz + 1)) + j * (nz + 1) + k.
(** cmg.py:170 node coordinates. *)
Definition node_idx (d : ijk) (n : Z) : ijk :=
  let '(nx, ny, nz) := d in
  let nn1 := (ny + 1) * (nz + 1) in let rr := n mod nn1 in (n / nn1, rr / (nz + 1), rr mod (nz + 1)).
Definition shift (p q : ijk) : ijk := let '(a, b, c) := p in let '(x, y, z) := q in (a + x, b + y, c + z).
(** cmg.py:160-161 the eight nodes of a cell. *)
Definition cell_nodes (d : ijk) (e : Z) : list Z := map (fun o => node_at d (shift (cell_idx d e) o)) cmg_corners.
(** cmg.py:172 [color]. *)
Definition color (d : ijk) (n : Z) : Z := let '(i, j, k) := node_idx d n in (i mod 2) * 4 + (j mod 2) * 2 + k mod 2.

Record level := { l_dims : ijk; l_cells : list Z; l_nodes : list Z }.
Definition mk_level (d : ijk) (cells : list Z) : level :=
  {| l_dims := d; l_cells := cells; l_nodes := uniqueZ (flat_map (cell_nodes d) cells) |}.
(** cmg.py:163 [ncid], one row: compact node indices of a cell. *)
Definition ncid (lev : level) (e : Z) : list nat := map (searchsortedZ (l_nodes lev)) (cell_nodes (l_dims lev) e).
(** cmg.py:180-182. *)
Definition half_up (x : Z) : Z := (x + 1) / 2.
Definition coarse_dims (d : ijk) : ijk := let '(nx, ny, nz) := d in (half_up nx, half_up ny, half_up nz).
(** cmg.py:181, 386: parent cell id. *)
Definition parent (d : ijk) (e : Z) : Z :=
  let '(ex, ey, ez) := cell_idx d e in let '(cnx, cny, cnz) := coarse_dims d in
  (ex / 2) * (cny * cnz) + (ey / 2) * cnz + ez / 2.
(** onp.sort (keeps duplicates). *)
Fixpoint insZ (x : Z) (l : list Z) : list Z :=
  match l with [] => [x] | y :: t => if x <=? y then x :: l else y :: insZ x t end.
Definition sortZ (l : list Z) : list Z := fold_right insZ [] l.
(** cmg.py:152-182 [build]. *)
Fixpoint build_levels (L : nat) (d : ijk) (cells : list Z) : list level :=
  match L with
  | O => []
  | S L' => mk_level d cells :: build_levels L' (coarse_dims d) (uniqueZ (map (parent d) cells))
  end.
Definition build (L : nat) (d : ijk) (cells0 : list Z) : list level := build_levels L d (sortZ cells0).
(** cmg.py:82-88 [auto_levels] with a bound on the number of iterations. *)
Definition min3 (d : ijk) : Z := let '(a, b, c) := d in Z.min a (Z.min b c).
Fixpoint auto_levels (fuel : nat) (d : ijk) (floor : Z) : option nat :=
  if min3 d <=? floor then Some 1%nat
  else match fuel with O => None | S f => option_map S (auto_levels f (coarse_dims d) floor) end.

(** cmg.py:187-209 [_build_transfer]: the eight (index, weight) pairs of fine node [n].
    Misses keep the initial (ncoarse, 0). *)
Definition axis (v : Z) : list (Z * Q) :=
  if v mod 2 =? 0 then [(v / 2, 1%Q); (v / 2 + 1, 0%Q)] else [(v / 2, (1 # 2)%Q); (v / 2 + 1, (1 # 2)%Q)].
Definition Qpos (w : Q) : bool := negb (Qle_bool w 0).
Definition transfer_entry (coarse : level) (c : ijk) (w : Q) : nat * Q :=
  let '(cx, cy, cz) := c in let '(nx, ny, nz) := l_dims coarse in
  let ncoarse := length (l_nodes coarse) in
  let valid := Qpos w && (cx <=? nx) && (cy <=? ny) && (cz <=? nz) in
  let gid := if valid then node_at (l_dims coarse) c else -1 in
  let pos := Nat.min (searchsortedZ (l_nodes coarse) gid) (ncoarse - 1) in
  if valid && (nth pos (l_nodes coarse) (-2) =? gid) then (pos, w) else (ncoarse, 0%Q).
Definition transfer (fine coarse : level) (n : Z) : list (nat * Q) :=
  let '(ni, nj, nk) := node_idx (l_dims fine) n in
  flat_map (fun x => flat_map (fun y => map (fun z =>
    transfer_entry coarse (fst x, fst y, fst z) (snd x * snd y * snd z)%Q) (axis nk)) (axis nj)) (axis ni).
(** cmg.py:281 prolongation of one component at one fine node. The sink index of a miss is
    clamped by the gather; its weight is 0, so the value read does not matter (no NaN). *)
Definition qsum (l : list Q) : Q := fold_right Qplus 0%Q l.
Definition prolong_at (row : list (nat * Q)) (ec : list Q) : Q := qsum (map (fun e => snd e * nth (fst e) ec 0)%Q row).
(** cmg.py:276 restriction: scatter-add of [Pw * r] to [Pidx] (out-of-range indices dropped). *)
Definition qscatter (base : list Q) (iv : list (nat * Q)) : list Q :=
  fold_left (fun acc p => upd acc (fst p) (nth (fst p) acc 0 + snd p)%Q) iv base.
Definition restrict (ncoarse : nat) (rows : list (list (nat * Q))) (r : list Q) : list Q :=
  qscatter (repeat 0%Q ncoarse) (flat_map (fun p => map (fun e => (fst e, snd e * snd p)%Q) (fst p)) (combine rows r)).

(** cmg.py:376-390, 425-429: density coarsening, sums and counts over children. *)
Definition count_pos (pos : list nat) (i : nat) : nat := length (filter (Nat.eqb i) pos).
Definition coarsen_rho (fine coarse : level) (rho : list Q) : list Q :=
  let pos := map (fun e => searchsortedZ (l_cells coarse) (parent (l_dims fine) e)) (l_cells fine) in
  let n := length (l_cells coarse) in
  let s := qscatter (repeat 0%Q n) (combine pos rho) in
  map (fun i => (nth i s 0 * (1 / inject_Z (Z.of_nat (Nat.max (count_pos pos i) 1))))%Q) (seq 0 n).

(** cmg.py:300-310. *)
Definition compact_nodes (lev : level) (ids : list Z) : list nat := map (searchsortedZ (l_nodes lev)) ids.
(** [None]: IndexError. *)
Definition load_vector (lev : level) (ids : list Z) (comp : nat) (value : Q) : option (list Q) :=
  let ndof := (3 * length (l_nodes lev))%nat in
  let idx := map (fun c => (3 * c + comp)%nat) (compact_nodes lev ids) in
  if forallb (fun i => i <? ndof)%nat idx then Some (scatter_set (repeat 0%Q ndof) (map (fun i => (i, value)) idx)) else None.

(** The element operator and the smoother, over any ring. *)
(** cmg.py:165-168 [edof_c], one row: DOFs of the listed compact nodes. *)
Definition edof_row (nodes : list nat) : list nat := flat_map (fun n => [3 * n; 3 * n + 1; 3 * n + 2]%nat) nodes.
Section Smooth.
  Variable K : CRing.
  Local Open Scope ring_K.
  Variable cn : list (list nat).             (* cells: compact nodes of each *)
  Variable E : list K.
  Variable KE : nat -> nat -> K.
  Variable free_node : nat -> bool.
  Variable nn : nat.                         (* number of nodes *)
  (** cmg.py:171 [free_dof = repeat(free_node, 3)]. *)
  Definition free (i : nat) : K := if free_node (i / 3) then 1 else 0.
  Definition edof (e : nat) : list nat := edof_row (nth e cn []).
  (** cmg.py:214-217 [_mv_j]. *)
  Definition elem_out (u : list K) (e : nat) : list (nat * K) :=
    map (fun a => (nth a (edof e) 0%nat,
                   get E e * sumf (fun b => get u (nth b (edof e) 0%nat) * KE b a) (seq 0 (length (edof e)))))
        (seq 0 (length (edof e))).
  Definition mv (u : list K) : list K :=
    let s := scatter_add (zeros (3 * nn)%nat) (flat_map (elem_out u) (seq 0 (length cn))) in
    map (fun i => get s i * free i) (seq 0 (3 * nn)%nat).
  (** cmg.py:219-227 [_dinv_j] before the inversion: the 3x3 blocks, identity for fixed nodes.
      [.at[].add] per local node, written as a sum. *)
  Definition block (n a b : nat) : K :=
    if free_node n then
      sumf (fun e => sumf (fun k => if Nat.eqb (nth k (nth e cn []) 0%nat) n then get E e * KE (3 * k + a)%nat (3 * k + b)%nat else 0)
                          (seq 0 (length (nth e cn [])))) (seq 0 (length cn))
    else if Nat.eqb a b then 1 else 0.
  (** cmg.py:230-238 [_smooth_j], one colour. [D] is [Dinv]. *)
  Variable D : nat -> nat -> nat -> K.
  Definition residual (b u : list K) (i : nat) : K := (get b i - get (mv u) i) * free i.
  Definition correct (b u : list K) (i : nat) : K :=
    sumf (fun c => D (i / 3)%nat (i mod 3)%nat c * residual b u (3 * (i / 3) + c)%nat) (seq 0 3).
  Definition colour_step (col : nat -> bool) (b u : list K) : list K :=
    map (fun i => (get u i + (if col (i / 3)%nat then correct b u i else 0)) * free i) (seq 0 (3 * nn)%nat).
  (** One sweep: eight colours in order. *)
  Definition sweep (colour : nat -> Z) (b u : list K) : list K :=
    fold_left (fun u c => colour_step (fun n => (colour n =? c)%Z) b u) [0; 1; 2; 3; 4; 5; 6; 7]%Z u.
  (** One node alone (not in the code: the sequential reference). *)
  Definition node_step (b : list K) (u : list K) (n : nat) : list K := colour_step (Nat.eqb n) b u.
End Smooth.
