(** Model of the unit-cell boundary predicates and of the periodic pairings built from them.
    Source: /repo/feax/flat/unitcell.py, /repo/feax/flat/pbc.py.

    Coordinates are integers in an arbitrary unit: the coordinates of a mesh are finitely many
    floats, hence integer multiples of one power of two.  Arithmetic on them is exact here
    (simplification: rounding of [lb + L] and of the centroids is not modelled). *)
From Coq Require Import ZArith List Bool.
From Verif Require Import Base Pbc_Model.
Import ListNotations.
Local Open Scope list_scope. Local Open Scope Z_scope.

Definition coord (p : list Z) (k : nat) : Z := nth k p 0.

(** [np.isclose(a, b, atol)] with the default [rtol = 1e-5]:
    [|a - b| <= atol + rtol * |b|]. *)
Definition isclose (atol a b : Z) : bool := 100000 * Z.abs (a - b) <=? 100000 * atol + Z.abs b.

(** A point with a common denominator: the image of a mesh point under a translation by a
    difference of centroids.  Mesh points have denominator 1. *)
Definition qpoint : Type := list Z * Z.
Definition qp (p : list Z) : qpoint := (p, 1).

Section UnitCell.
  (** unitcell.py:12-38: the mesh points, [shape[1]] and the tolerance [atol]; [atol0] is the
      default absolute tolerance 1e-8 of [np.allclose]; [eps] is [EPS = 1e-5] of pbc.py:114. *)
  Variable points : list (list Z).
  Variable sdim : nat.
  Variables atol atol0 eps : Z.

  (** unitcell.py:29-36: [np.min], [np.max] over the points; the box [0, 1] for no points. *)
  Definition lb (k : nat) : Z :=
    match points with [] => 0 | p :: ps => fold_left (fun m q => Z.min m (coord q k)) ps (coord p k) end.
  Definition ub (k : nat) : Z :=
    match points with [] => 1 | p :: ps => fold_left (fun m q => Z.max m (coord q k)) ps (coord p k) end.
  (** pbc.py:337, 404: [L = ub - lb]. *)
  Definition len (k : nat) : Z := ub k - lb k.

  (** unitcell.py:158-161, 183-185, 212-214: number of coordinates on the box. *)
  Definition hits (p : list Z) : nat :=
    length (filter (fun k => isclose atol (coord p k) (lb k) || isclose atol (coord p k) (ub k)) (seq 0 (length p))).
  (** unitcell.py:140-161 [is_corner]. *)
  Definition is_corner (p : list Z) : bool := Nat.eqb (hits p) (length p).
  (** unitcell.py:163-189 [is_edge]. *)
  Definition is_edge (p : list Z) : bool := Nat.eqb (hits p) (length p - 1) && negb (is_corner p).
  (** unitcell.py:191-220 [is_face]. *)
  Definition is_face (p : list Z) : bool :=
    Nat.eqb (hits p) (length p - 2) && (negb (is_edge p) && negb (is_corner p)).

  (** unitcell.py:286-353 [face_function]; an axis out of range raises. *)
  Definition face_function (axis : nat) (value : Z) (excluding_edge excluding_corner : bool)
      : option (list Z -> bool) :=
    if Nat.ltb axis sdim then
      Some (fun p =>
        let on_face := isclose atol (coord p axis) value in
        if excluding_corner && excluding_edge then on_face && (negb (is_corner p) && negb (is_edge p))
        else if excluding_corner then on_face && negb (is_corner p)
        else if excluding_edge then on_face && (negb (is_edge p) && negb (is_corner p))
        else on_face)
    else None.

  (** unitcell.py:355-397 [edge_function]. *)
  Definition edge_function (axes : list nat) (values : list Z) (excluding_corner : bool) : list Z -> bool :=
    fun p =>
      let cond := fold_left (fun c av => c && isclose atol (coord p (fst av)) (snd av)) (combine axes values) true in
      if excluding_corner then cond && negb (is_corner p) else cond.

  (** unitcell.py:399-435 [corner_function]; a wrong number of values raises. *)
  Definition corner_function (values : list Z) : option (list Z -> bool) :=
    if Nat.eqb (length values) sdim then
      Some (fun p => forallb (fun pv => isclose atol (fst pv) (snd pv)) (combine p values))
    else None.

  (** Column sums of a list of points. *)
  Definition csum (ps : list (list Z)) (k : nat) : Z := fold_right (fun p s => coord p k + s) 0 ps.

  (** unitcell.py:437-493 [mapping]: translation by the difference of the centroids; sets of
      different size raise.  Two empty sets give a nan translation, here a zero denominator. *)
  Definition mapping (master slave : list Z -> bool) : option (qpoint -> qpoint) :=
    let mp := filter master points in
    let sp := filter slave points in
    if Nat.eqb (length mp) (length sp) then
      let n := Z.of_nat (length mp) in
      Some (fun x => (map (fun k => n * coord (fst x) k + (csum sp k - csum mp k)) (seq 0 sdim), n))
    else None.

  (** pbc.py:116-119: [norm(mapping(A) - B) < EPS], squared and multiplied by the denominators;
      a nan (zero denominator) compares false. *)
  Definition near (a b : qpoint) : bool :=
    fold_right Z.add 0 (map (fun k => (coord (fst a) k * snd b - coord (fst b) k * snd a) ^ 2) (seq 0 sdim))
      <? (eps * snd a * snd b) ^ 2.

  (** One geometric pairing replicated per component (pbc.py:343-348, 355-360, 371-376,
      412-418, 433-439).  [vec] is at least 1 in use: for 0 the code never calls [mapping]. *)
  Definition mk_pairs (vec : nat) (m s : option (list Z -> bool)) : option (list (pairing qpoint)) :=
    match m, s with
    | Some master, Some slave =>
        match mapping master slave with
        | Some f => Some (map (fun i => {| pp_master := fun x => master (fst x); pp_slave := fun x => slave (fst x);
                                           pp_map := f; pp_vec := i |}) (seq 0 vec))
        | None => None
        end
    | _, _ => None
    end.
  Definition concat_opt {A : Type} (l : list (option (list A))) : option (list A) :=
    match all_some l with Some ls => Some (concat ls) | None => None end.

  (** [itertools.product] of the two corner coordinates per axis, first axis slowest. *)
  Fixpoint corner_product (ks : list nat) : list (list Z) :=
    match ks with
    | [] => [[]]
    | k :: ks => flat_map (fun v => map (cons v) (corner_product ks)) [lb k; lb k + len k]
    end.
  (** pbc.py:364-370, 425-432: the corner pairings; [np.allclose] skips the origin. *)
  Definition corner_origin (dim : nat) : list Z := map lb (seq 0 dim).
  Definition corner_pairs (vec dim : nat) : option (list (pairing qpoint)) :=
    concat_opt (map (fun c => mk_pairs vec (corner_function (corner_origin dim)) (corner_function c))
      (filter (fun c => negb (forallb (fun pv => isclose atol0 (fst pv) (snd pv)) (combine c (corner_origin dim))))
        (corner_product (seq 0 dim)))).

  (** pbc.py:379-443 [periodic_bc_2D] with the default [dim = 2]. *)
  Definition periodic_bc_2D (vec : nat) : option (list (pairing qpoint)) :=
    match concat_opt (map (fun axis => mk_pairs vec (face_function axis (lb axis) false true)
                                         (face_function axis (lb axis + len axis) false true)) (seq 0 2)),
          corner_pairs vec 2 with
    | Some edges, Some corners => Some (corners ++ edges)
    | _, _ => None
    end.

  (** pbc.py:301-376 [periodic_bc_3D] with the default [dim = 3].  The faces and edges are
      looked up at the coordinate values 0 and [L], not at the box bounds. *)
  Definition periodic_bc_3D (vec : nat) : option (list (pairing qpoint)) :=
    let faces := concat_opt (map (fun axis => mk_pairs vec (face_function axis 0 true false)
                                                (face_function axis (len axis) true false)) (seq 0 3)) in
    let edges := concat_opt (flat_map (fun ab : nat * nat => let (a, b) := ab in
        map (fun values => mk_pairs vec (Some (edge_function [a; b] [0; 0] true))
                                        (Some (edge_function [a; b] values true)))
          [[len a; 0]; [len a; len b]; [0; len b]]) [(1, 2); (0, 2); (0, 1)]%nat) in
    match faces, edges, corner_pairs vec 3 with
    | Some fs, Some es, Some cs => Some (cs ++ es ++ fs)
    | _, _, _ => None
    end.

  (** pbc.py:62-190 applied to the mesh of the unit cell. *)
  Definition cell_prolongation (vec : nat) (pairings : option (list (pairing qpoint))) : option prolongation :=
    match pairings with
    | Some ps => prolongation_matrix near (map qp points) (qp []) vec ps
    | None => None
    end.
End UnitCell.
