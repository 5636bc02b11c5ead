(** Model of the double-wall pressure vessel generator (feax/mechanics/copv.py), over the real numbers. *)
From Coq Require Import String Reals List Arith Bool.
Import ListNotations.
Open Scope R_scope.

Definition vec : Type := (R * R * R)%type.
Definition vx (p : vec) : R := fst (fst p).
Definition vy (p : vec) : R := snd (fst p).
Definition vz (p : vec) : R := snd p.
Definition v0 : vec := (0, 0, 0).
Definition vadd (p q : vec) : vec := (vx p + vx q, vy p + vy q, vz p + vz q).
Definition vsub (p q : vec) : vec := (vx p - vx q, vy p - vy q, vz p - vz q).
Definition vscale (c : R) (p : vec) : vec := (c * vx p, c * vy p, c * vz p).
Definition vdot (p q : vec) : R := vx p * vx q + vy p * vy q + vz p * vz q.
Definition vcross (p q : vec) : vec := (vy p * vz q - vz p * vy q, vz p * vx q - vx p * vz q, vx p * vy q - vy p * vx q).
Definition vnorm (p : vec) : R := sqrt (vdot p p).
Definition vmean (l : list vec) : vec := vscale (/ INR (length l)) (fold_right vadd v0 l).

(** copv.py:52-90 [DoubleWallCopvGeometry]; the lengths are arbitrary reals, the counts natural numbers. *)
Record geom := { g_a : R; g_t : R; g_gap : R; g_len : R; g_rp : R; g_nc : nat; g_mc : nat; g_md : nat; g_nf : nat; g_axis : vec }.
(** copv.py:97-116. *)
Definition d_layers (g : geom) : list R :=
  [0; g_t g] ++ map (fun i => g_t g + g_gap g * INR i / INR (g_nf g)) (seq 1 (g_nf g)) ++ [g_t g + g_gap g + g_t g].
Definition n_layers (g : geom) : nat := g_nf g + 3.
Definition n_rad_el (g : geom) : nat := g_nf g + 2.

(** copv.py:273-296 [build_meridian]: stations (r, z, n_r, n_z). *)
Definition meridian (g : geom) : list (R * R * R * R) :=
  map (fun i => (g_a g, g_len g * INR i / INR (g_mc g), 1, 0)) (seq 0 (S (g_mc g))) ++
  (let lam_max := acos (g_rp g / g_a g) in
   map (fun i => let lam := lam_max * INR i / INR (g_md g) in
     (g_a g * cos lam, g_len g + g_a g * sin lam, cos lam, sin lam)) (seq 1 (g_md g))).
(** copv.py:320: [n_merid = r_ref.shape[0] - 1]. *)
Definition n_merid (g : geom) : nat := (length (meridian g) - 1)%nat.
Definition station (g : geom) (i : nat) : R * R * R * R := nth i (meridian g) (0, 0, 0, 0).
(** copv.py:142-145 and 325-326. *)
Definition node_id (g : geom) (i j kk : nat) : nat := ((i * g_nc g + j mod g_nc g) * n_layers g + kk)%nat.

(** copv.py:328-337: the points, written at their node id in an array of zeros. *)
Definition node_point (g : geom) (i j : nat) (d : R) : vec :=
  let theta := 2 * PI * INR j / INR (g_nc g) in
  let '(r0, z0, nr, nz) := station g i in
  let r := r0 + d * nr in let z := z0 + d * nz in (r * cos theta, r * sin theta, z).
Fixpoint set_nth (n : nat) (v : vec) (l : list vec) : list vec :=
  match l, n with [], _ => [] | _ :: t, O => v :: t | x :: t, S m => x :: set_nth m v t end.
Definition triples (a b c : nat) : list (nat * nat * nat) :=
  flat_map (fun i => flat_map (fun j => map (fun k => (i, j, k)) (seq 0 c)) (seq 0 b)) (seq 0 a).
Definition points (g : geom) : list vec :=
  fold_left (fun acc ijk => let '(i, j, kk) := ijk in set_nth (node_id g i j kk) (node_point g i j (nth kk (d_layers g) 0)) acc)
    (triples (S (n_merid g)) (g_nc g) (length (d_layers g)))
    (repeat v0 (S (n_merid g) * g_nc g * n_layers g)).

(** copv.py:339-348: cells and zones, row by row. *)
Inductive zone := Inner | Fill | Outer.
Definition cell_at (g : geom) (i j ke : nat) : list nat :=
  [node_id g i j ke; node_id g i (j + 1) ke; node_id g (i + 1) (j + 1) ke; node_id g (i + 1) j ke;
   node_id g i j (ke + 1); node_id g i (j + 1) (ke + 1); node_id g (i + 1) (j + 1) (ke + 1); node_id g (i + 1) j (ke + 1)].
Definition zone_at (g : geom) (ke : nat) : zone :=
  if (ke =? 0)%nat then Inner else if (ke =? n_rad_el g - 1)%nat then Outer else Fill.
Definition cell_index (g : geom) : list (nat * nat * nat) := triples (n_merid g) (g_nc g) (n_rad_el g).
Definition cells (g : geom) : list (list nat) := map (fun ijk => let '(i, j, ke) := ijk in cell_at g i j ke) (cell_index g).
Definition zones (g : geom) : list zone := map (fun ijk => let '(i, j, ke) := ijk in zone_at g ke) (cell_index g).

(** copv.py:353-359: Jacobian determinant at the centre of a cell. The gradient of the trilinear shape function of
    the corner with reference coordinates c in {0,1}^3 is there (2 c - 1) / 4, componentwise; the corners are in
    the HEX8 order (C49). *)
Definition corners : list vec := [(0,0,0); (1,0,0); (1,1,0); (0,1,0); (0,0,1); (1,0,1); (1,1,1); (0,1,1)].
Definition centre_grads : list vec := map (fun c => ((2 * vx c - 1) / 4, (2 * vy c - 1) / 4, (2 * vz c - 1) / 4)) corners.
Definition jac_col (nodes : list vec) (I : vec -> R) : vec :=
  fold_right vadd v0 (map (fun q => vscale (I (snd q)) (fst q)) (combine nodes centre_grads)).
Definition cell_nodes (g : geom) (c : list nat) : list vec := map (fun n => nth n (points g) v0) c.
Definition det_centre (nodes : list vec) : R :=
  vdot (jac_col nodes vx) (vcross (jac_col nodes vy) (jac_col nodes vz)).

(** copv.py:299-364 [create_double_wall_copv_mesh]. [None]: an exception (ZeroDivisionError of an empty cylinder,
    an axis other than +z up to the tolerance of [allclose], or a non-positive Jacobian). *)
Definition close_to (x y : R) : Prop := Rabs (x - y) <= / 100000000 + / 100000 * Rabs y.
Definition axis_ok (g : geom) : Prop := close_to (vx (g_axis g)) 0 /\ close_to (vy (g_axis g)) 0 /\ close_to (vz (g_axis g)) 1.
Inductive created (g : geom) (check : bool) : list vec * list (list nat) * list zone -> Prop :=
  created_intro : (g_mc g <> 0)%nat -> axis_ok g ->
    (check = true -> forall c, In c (cells g) -> 0 < det_centre (cell_nodes g c)) ->
    created g check (points g, cells g, zones g).

(** copv.py:163-192: node sets. *)
Definition pairs (a b : list nat) (f : nat -> nat -> nat) : list nat := flat_map (fun i => map (f i) b) a.
Definition equator_ids (g : geom) : list nat := pairs (seq 0 (g_nc g)) (seq 0 (n_layers g)) (fun j kk => node_id g 0 j kk).
Definition rim_ids (g : geom) : list nat := pairs (seq 0 (g_nc g)) [0; 1]%nat (fun j kk => node_id g (n_merid g) j kk).
Definition outer_ids (g : geom) : list nat := pairs (seq 0 (S (n_merid g))) (seq 0 (g_nc g)) (fun i j => node_id g i j (n_layers g - 1)).
Definition inner_ids (g : geom) : list nat := pairs (seq 0 (S (n_merid g))) (seq 0 (g_nc g)) (fun i j => node_id g i j 0).
(** copv.py:194-197. *)
Definition rmin_list (l : list R) : R := match l with [] => 0 | x :: r => fold_left Rmin r x end.
Definition rim_radius (g : geom) : R :=
  rmin_list (map (fun n => let p := nth n (points g) v0 in sqrt (vx p * vx p + vy p * vy p)) (rim_ids g)).
(** copv.py:200-209. *)
Definition dome_mask (g : geom) : list bool :=
  map (fun c => (g_mc g <=? c / (g_nc g * n_rad_el g))%nat) (seq 0 (length (cells g))).
(** copv.py:212-239: constrained and free degrees of freedom. *)
Definition axial_dofs (g : geom) : list nat := map (fun n => (n * 3 + 2)%nat) (equator_ids g).
Definition pin_dofs (g : geom) : list nat :=
  let a := node_id g 0 0 0 in let b := node_id g 0 (g_nc g / 2) 0 in [a * 3 + 0; a * 3 + 1; b * 3 + 1]%nat.
Definition free_dofs (g : geom) (n : nat) : list nat :=
  filter (fun d => negb (existsb (Nat.eqb d) (axial_dofs g ++ pin_dofs g))) (seq 0 n).
(** copv.py:242-270: location functions; the minimum of the distances is below [tol] iff one of them is. *)
Definition near_ids (g : geom) (ids : list nat) (tol : R) (p : vec) : Prop :=
  exists n, In n ids /\ vnorm (vsub (nth n (points g) v0) p) < tol.

(** copv.py:367-382 [_cell_triad]: (t_merid, t_hoop, e_normal, r). *)
Definition vunit (p : vec) : vec := vscale (/ vnorm p) p.
Definition cell_triad (nodes : list vec) (axis : vec) : vec * vec * vec * R :=
  let e3 := vunit (vsub (vmean (skipn 4 nodes)) (vmean (firstn 4 nodes))) in
  let c := vmean nodes in
  let r_vec := vsub c (vscale (vdot c axis) axis) in
  let e_r := vunit r_vec in
  let th0 := vcross axis e_r in
  let t_h := vunit (vsub th0 (vscale (vdot th0 e3) e3)) in
  (vcross t_h e3, t_h, e3, vnorm r_vec).

(** copv.py:385-416 [_cell_ply_frames]: per ply the columns (f1, f2, e3). A layup entry is (kind, sign). *)
Definition clip01 (x : R) : R := Rmin (Rmax x 0) 1.
Definition winding_angle (r_p r : R) : R := asin (clip01 (r_p / r)).
Definition helical_axes (t_m t_h : vec) (ang : R) : vec * vec :=
  (vadd (vscale (cos ang) t_m) (vscale (sin ang) t_h), vadd (vscale (- sin ang) t_m) (vscale (cos ang) t_h)).
Fixpoint ply_axes (t_m t_h : vec) (alpha : R) (is_dome drop : bool) (hoops : nat) (layup : list (string * R)) : list (vec * vec) :=
  match layup with
  | [] => []
  | (kind, sign) :: rest =>
      if (kind =? "hoop")%string then
        (if drop then
           let f := helical_axes t_m t_h ((if Nat.eqb (hoops mod 2) 0 then 1 else -1) * alpha) in
           if is_dome then f else (t_h, vscale (-1) t_m)
         else (t_h, vscale (-1) t_m)) :: ply_axes t_m t_h alpha is_dome drop (S hoops) rest
      else helical_axes t_m t_h (sign * alpha) :: ply_axes t_m t_h alpha is_dome drop hoops rest
  end.
Definition ply_frames (nodes : list vec) (is_dome : bool) (axis : vec) (r_p : R) (layup : list (string * R)) (drop : bool) : list (vec * vec * vec) :=
  let '(t_m, t_h, e3, r) := cell_triad nodes axis in
  map (fun f => (fst f, snd f, e3)) (ply_axes t_m t_h (winding_angle r_p r) is_dome drop 0 layup).
(** copv.py:519-544 [cell_fiber_directions] for one cell. *)
Definition fiber_dirs (nodes : list vec) (is_dome : bool) (z : zone) (axis : vec) (r_p : R) (layup : list (string * R)) (drop shell_only : bool) : list vec :=
  map (fun f => let f1 := fst (fst f) in if shell_only then vscale (match z with Fill => 0 | _ => 1 end) f1 else f1)
    (ply_frames nodes is_dome axis r_p layup drop).
