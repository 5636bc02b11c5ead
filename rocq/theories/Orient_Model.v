(** Model of the fibre-orientation design maps. Source: /repo/feax/mechanics/orientation.py.
    Numbers are the real numbers of Coq's standard library, with its [sqrt] and [tanh]. *)
From Coq Require Import Reals List.
Import ListNotations.
Open Scope R_scope.

(** orientation.py:79 and :139, [_TRI_TOL] and [_TET_TOL]. *)
Definition tol : R := 1 / 1000000.
(** orientation.py:80-81. *)
Definition U_tab : list R := [tol; 1 / 2; 1; 3 / 4; 1 / 2; 1 / 4; tol; tol].
Definition V_tab : list R := [tol; tol; tol; 1 / 4; 1 / 2; 3 / 4; 1; 1 / 2].
(** orientation.py:84-94 [_serendipity_8]. *)
Definition serendipity_8 (z e : R) : list R :=
  [ - (1 - z) * (1 - e) * (1 + z + e) / 4;
    (1 - z * z) * (1 - e) / 2;
    - (1 + z) * (1 - e) * (1 - z + e) / 4;
    (1 + z) * (1 - e * e) / 2;
    - (1 + z) * (1 + e) * (1 - z - e) / 4;
    (1 - z * z) * (1 + e) / 2;
    - (1 - z) * (1 + e) * (1 + z - e) / 4;
    (1 - z) * (1 - e * e) / 2 ].
Fixpoint suml (l : list R) : R := match l with [] => 0 | a :: l => a + suml l end.
(** [np.sum(a * b)] of two vectors of the same length. *)
Definition dotl (a b : list R) : R := suml (map (fun ab => fst ab * snd ab) (combine a b)).
(** orientation.py:97-116 [box_to_triangle], scalar inputs. *)
Definition box_to_triangle (x1 x2 : R) : R * R :=
  let N := serendipity_8 x1 x2 in (dotl U_tab N, dotl V_tab N).
(** orientation.py:115-116 with array inputs of shape [(m,)]: [N] has shape [(8, m)], so [_U * N]
    pairs the table with the LAST axis ([m = 8]), stretches it for [m = 1] and cannot be broadcast
    otherwise; [np.sum] adds up everything. *)
Definition weigh_array (tab : list R) (N : list (list R)) (m : nat) : option R :=
  match m with
  | 1%nat => Some (dotl tab (map (fun row => hd 0 row) N))
  | 8%nat => Some (suml (map (fun row => dotl tab row) N))
  | _ => None
  end.
Definition box_to_triangle_array (x1 x2 : list R) : option (R * R) :=
  let cols := map (fun ze => serendipity_8 (fst ze) (snd ze)) (combine x1 x2) in
  let N := map (fun i => map (fun c => nth i c 0) cols) (seq 0 8) in
  match weigh_array U_tab N (length x1), weigh_array V_tab N (length x1) with
  | Some a, Some b => Some (a, b)
  | _, _ => None
  end.

(** orientation.py:139-149 [_TET_VERTICES]. *)
Definition tet_vertices : list (R * R * R) :=
  [(tol, tol, tol); (1, tol, tol); (1 / 2, 1 / 2, tol); (tol, 1, tol);
   (tol, tol, 1); (1 / 2, tol, 1 / 2); (1 / 3, 1 / 3, 1 / 3); (tol, 1 / 2, 1 / 2)].
(** orientation.py:152-166 [_trilinear_hex_8]. *)
Definition trilinear_hex_8 (xi eta zeta : R) : list R :=
  [ (1 - xi) * (1 - eta) * (1 - zeta) / 8;
    (1 + xi) * (1 - eta) * (1 - zeta) / 8;
    (1 + xi) * (1 + eta) * (1 - zeta) / 8;
    (1 - xi) * (1 + eta) * (1 - zeta) / 8;
    (1 - xi) * (1 - eta) * (1 + zeta) / 8;
    (1 + xi) * (1 - eta) * (1 + zeta) / 8;
    (1 + xi) * (1 + eta) * (1 + zeta) / 8;
    (1 - xi) * (1 + eta) * (1 + zeta) / 8 ].
(** orientation.py:169-197 [box_to_tetrahedron]. *)
Definition box_to_tetrahedron (x1 x2 x3 : R) : R * R * R :=
  let N := trilinear_hex_8 x1 x2 x3 in
  (dotl (map (fun v => fst (fst v)) tet_vertices) N,
   dotl (map (fun v => snd (fst v)) tet_vertices) N,
   dotl (map snd tet_vertices) N).

(** orientation.py:204-218 [smooth_sgn]. *)
Definition smooth_sgn (x beta : R) : R := tanh (beta * x) / tanh beta.
(** orientation.py:225-261 [orientation_tensor_2d]. *)
  Definition orientation_tensor_2d (x1 x2 x3 beta : R) : list (list R) :=
    let (a11, a22) := box_to_triangle x1 x2 in
    let a12 := sqrt (Rmax (a11 * a22) 0) * smooth_sgn x3 beta in
    [[a11; a12]; [a12; a22]].
  (** orientation.py:264-310 [orientation_tensor_3d]. *)
  Definition orientation_tensor_3d (x1 x2 x3 x12 x13 x23 beta : R) : list (list R) :=
    match box_to_tetrahedron x1 x2 x3 with
    | (a11, a22, a33) =>
        let a12 := sqrt (Rmax (a11 * a22) 0) * smooth_sgn x12 beta in
        let a13 := sqrt (Rmax (a11 * a33) 0) * smooth_sgn x13 beta in
        let a23 := sqrt (Rmax (a22 * a33) 0) * smooth_sgn x23 beta in
        [[a11; a12; a13]; [a12; a22; a23]; [a13; a23; a33]]
    end.
