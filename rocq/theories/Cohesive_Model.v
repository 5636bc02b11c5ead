(** Cohesive-zone potentials, interface weights and the interface energy
    (feax/mechanics/cohesive.py), over the real numbers. The potentials are elementwise, so they are
    modelled at one node. *)
From Coq Require Import Reals List Arith.
Import ListNotations.
Open Scope R_scope.

Definition tol15 : R := / 1000000000000000.
Definition tol30 : R := / 1000000000000000000000000000000.

(** [np.where]. *)
Definition where_lt (x y : R) (a b : R) : R := if Rlt_dec x y then a else b.
Definition where_ge (x y : R) (a b : R) : R := if Rle_dec y x then a else b.

(** cohesive.py:56-98 [exponential_potential]. *)
Definition exp_load (Gamma delta_c delta : R) : R := Gamma * (1 - (1 + delta / delta_c) * exp (- delta / delta_c)).
Definition exponential_potential (Gamma sigma_c delta delta_max : R) : R :=
  let delta_c := Gamma / (exp 1 * sigma_c) in
  let phi_load := exp_load Gamma delta_c delta in
  let phi_max := exp_load Gamma delta_c delta_max in
  let k_secant := where_lt tol15 delta_max (phi_max / (delta_max * delta_max + tol30)) 0 in
  let phi_unload := k_secant * (delta * delta) in
  where_ge delta (delta_max - tol15) phi_load phi_unload.

(** cohesive.py:101-151 [bilinear_potential]. *)
Definition bil_delta_f (Gamma sigma_c : R) : R := 2 * Gamma / sigma_c.
Definition bil_delta_0 (Gamma sigma_c : R) : R := 2 * Gamma / (sigma_c * bil_delta_f Gamma sigma_c).
Definition bil_load (Gamma sigma_c delta : R) : R :=
  let delta_f := bil_delta_f Gamma sigma_c in
  let delta_0 := bil_delta_0 Gamma sigma_c in
  let k0 := sigma_c / delta_0 in
  where_lt delta delta_0 (1 / 2 * k0 * (delta * delta))
    (where_lt delta delta_f
       (Gamma - 1 / 2 * sigma_c * ((delta_f - delta) * (delta_f - delta)) / (delta_f - delta_0 + tol30)) Gamma).
Definition bilinear_potential (Gamma sigma_c delta delta_max : R) : R :=
  let phi_load := bil_load Gamma sigma_c delta in
  let phi_at_max := bil_load Gamma sigma_c delta_max in
  let k_secant := where_lt tol15 delta_max (phi_at_max / (delta_max * delta_max + tol30)) 0 in
  let phi_unload := k_secant * (delta * delta) in
  where_ge delta (delta_max - tol15) phi_load phi_unload.

(** cohesive.py:158-180 [compute_trapezoidal_weights]. *)
Definition trapezoidal_weights (x : list R) : list R :=
  let n := length x in
  map (fun i =>
    let left := if Nat.ltb 0 i then (nth i x 0 - nth (i - 1) x 0) / 2 else 0 in
    let right := if Nat.ltb i (n - 1) then (nth (i + 1) x 0 - nth i x 0) / 2 else 0 in
    left + right) (seq 0 n).

(** cohesive.py:183-220 [compute_lumped_area_weights]. [onp.cross], [onp.linalg.norm] on 3-vectors. *)
Definition pt := (R * R * R)%type.
Definition psub (a b : pt) : pt :=
  match a, b with (a0, a1, a2), (b0, b1, b2) => (a0 - b0, a1 - b1, a2 - b2) end.
Definition cross (a b : pt) : pt :=
  match a, b with (a0, a1, a2), (b0, b1, b2) => (a1 * b2 - a2 * b1, a2 * b0 - a0 * b2, a0 * b1 - a1 * b0) end.
Definition norm3 (a : pt) : R := match a with (a0, a1, a2) => sqrt (a0 * a0 + a1 * a1 + a2 * a2) end.
Definition p0 : pt := (0, 0, 0).
Definition quad_area (coords : list pt) (quad : list nat) : R :=
  let pts := map (fun n => nth n coords p0) quad in
  let d1 := psub (nth 2 pts p0) (nth 0 pts p0) in
  let d2 := psub (nth 3 pts p0) (nth 1 pts p0) in
  1 / 2 * norm3 (cross d1 d2).
(** The dictionary [{int(n): i for i, n in enumerate(node_ids)}]: a later duplicate overwrites. *)
Fixpoint node_to_local (node_ids : list nat) (i : nat) (key : nat) : option nat :=
  match node_ids with
  | [] => None
  | n :: rest =>
      match node_to_local rest (S i) key with
      | Some j => Some j
      | None => if Nat.eqb n key then Some i else None
      end
  end.
Definition add_at (w : list R) (idx : nat) (v : R) : list R :=
  map (fun i => if Nat.eqb i idx then nth i w 0 + v else nth i w 0) (seq 0 (length w)).
Definition add_quad (node_ids : list nat) (coords : list pt) (w : list R) (quad : list nat) : list R :=
  let area := quad_area coords quad in
  fold_left (fun w nid => match node_to_local node_ids 0 nid with
                          | Some idx => add_at w idx (area / 4)
                          | None => w
                          end) quad w.
Definition lumped_area_weights (node_ids : list nat) (coords : list pt) (quads : list (list nat)) : list R :=
  fold_left (add_quad node_ids coords) quads (repeat 0 (length node_ids)).

(** cohesive.py:266-280 [CohesiveInterface.__init__]: only the shape of the normals is checked. *)
Record interface := mk_interface {
  top_nodes : list nat; bottom_nodes : list nat; weights : list R; normals : list (list R); vec : nat; beta : R }.
Definition create_interface (top bottom : list nat) (w : list R) (nrm : list (list R)) (v : nat) (b : R) : option interface :=
  if andb (Nat.eqb (length nrm) (length top)) (forallb (fun r => Nat.eqb (length r) v) nrm)
  then Some (mk_interface top bottom w nrm v b) else None.
(** cohesive.py:282-298 [from_axis] for a non-negative axis (numpy would wrap a negative one); [None] is the out-of-bounds axis or the [ValueError]. *)
Definition from_axis (top bottom : list nat) (w : list R) (normal_axis v : nat) (b : R) : option interface :=
  if Nat.ltb normal_axis v then
    create_interface top bottom w
      (map (fun _ => map (fun c => if Nat.eqb c normal_axis then 1 else 0) (seq 0 v)) top) v b
  else None.

(** cohesive.py:300-314 [get_jump]: row [i] of [u[top] - u[bottom]], [u = u_flat.reshape(-1, vec)]. *)
Definition jump (I : interface) (u : list R) (i : nat) : list R :=
  map (fun c => nth (nth i (top_nodes I) 0%nat * vec I + c) u 0 - nth (nth i (bottom_nodes I) 0%nat * vec I + c) u 0)
    (seq 0 (vec I)).
Definition vsum (l : list R) : R := fold_right Rplus 0 l.
Definition vdot (a b : list R) : R := vsum (map (fun xy => fst xy * snd xy) (combine a b)).
(** cohesive.py:338-366 [get_opening_components], [_effective_opening] at row [i]. *)
Definition normal_opening (n j : list R) : R := vdot j n.
Definition tangential (n j : list R) : list R :=
  map (fun xy => fst xy - normal_opening n j * snd xy) (combine j n).
Definition opening_components (I : interface) (u : list R) (i : nat) : R * R :=
  let j := jump I u i in
  let n := nth i (normals I) [] in
  (normal_opening n j, sqrt (vdot (tangential n j) (tangential n j))).
Definition effective_opening (I : interface) (j : list R) (i : nat) : R :=
  let n := nth i (normals I) [] in
  let delta_n := normal_opening n j in
  let delta_t_sq := vdot (tangential n j) (tangential n j) in
  let delta_n_pos := Rmax delta_n 0 in
  sqrt (delta_n_pos * delta_n_pos + beta I * beta I * delta_t_sq + tol30).
(** cohesive.py:316-336 [get_opening]. *)
Definition get_opening (I : interface) (u : list R) : list R :=
  map (fun i => effective_opening I (jump I u i) i) (seq 0 (length (top_nodes I))).
(** cohesive.py:368-406 [create_energy_fn]. *)
Definition cohesive_energy (I : interface) (potential : R -> R -> R) (u : list R) (delta_max : list R) : R :=
  vsum (map (fun i =>
    let j := jump I u i in
    let n := nth i (normals I) [] in
    let delta_n := normal_opening n j in
    let delta_t_sq := vdot (tangential n j) (tangential n j) in
    let delta_n_pos := Rmax delta_n 0 in
    let delta := sqrt (delta_n_pos * delta_n_pos + beta I * beta I * delta_t_sq + tol30) in
    potential delta (nth i delta_max 0) * nth i (weights I) 0) (seq 0 (length (top_nodes I)))).
