(** Adaptive remeshing (feax/gene/adaptive.py): field transfer, refinement field, size callback, over the
    real numbers (no NaN; rounding and the k-d tree are not modelled: the tree's answers are arguments). *)
From Coq Require Import Reals List Arith Bool.
From Verif Require Import Tmc_Model.
Import ListNotations.
Open Scope R_scope.

Definition pt := list R.
Definition co (p : pt) (i : nat) : R := nth i p 0.
(** [onp.linalg.inv] of a 3x3 matrix with nonzero determinant (cyclic cofactor formula). *)
Definition inv3 (A : nat -> nat -> R) (i j : nat) : R :=
  let s k := Nat.modulo k 3 in
  (A (s (j + 1)%nat) (s (i + 1)%nat) * A (s (j + 2)%nat) (s (i + 2)%nat) - A (s (j + 1)%nat) (s (i + 2)%nat) * A (s (j + 2)%nat) (s (i + 1)%nat)) / det3 A.
Definition singular (A : nat -> nat -> R) : bool := if Req_EM_T (det3 A) 0 then true else false.

Section Mesh.
Variable points : list pt.
Variable cells : list (list nat).
Definition cell_of (e : nat) : list nat := nth e cells [].
Definition vert (e k : nat) : pt := nth (nth k (cell_of e) 0%nat) points [].
(** adaptive.py:72-78: [v0], and [T] with the edges as columns. *)
Definition Tmat (e c i : nat) : R := co (vert e (S i)) c - co (vert e 0) c.
(** adaptive.py:100-103: barycentric coordinates. *)
Definition lam (e : nat) (p : pt) (i : nat) : R := rs 3 (fun j => inv3 (Tmat e) i j * (co p j - co (vert e 0) j)).
Definition lam0 (e : nat) (p : pt) : R := 1 - rs 3 (lam e p).
(** adaptive.py:106: containment with tolerance. *)
Definition tol : R := / 100000000.
Definition geb (x y : R) : bool := if Rle_dec y x then true else false.
Definition inside (e : nat) (p : pt) : bool :=
  geb (lam0 e p) (- tol) && geb (lam e p 0) (- tol) && geb (lam e p 1) (- tol) && geb (lam e p 2) (- tol).
(** adaptive.py:112-117. *)
Definition combine4 (values : list R) (e : nat) (p : pt) : R :=
  let v k := nth (nth k (cell_of e) 0%nat) values 0 in
  lam0 e p * v 0%nat + lam e p 0 * v 1%nat + lam e p 1 * v 2%nat + lam e p 2 * v 3%nat.
(** adaptive.py:90-117: one pass of the candidate loop over the query points; [None] is the NaN that marks
    a point not yet found. [cands p] are the nearest centroids of [p], nearest first. *)
Definition pass (values : list R) (cands : pt -> list nat) (k : nat) (state : list (pt * option R)) : list (pt * option R) :=
  map (fun s => match snd s with
                | Some _ => s
                | None => let e := nth k (cands (fst s)) 0%nat in
                          (fst s, if inside e (fst s) then Some (combine4 values e (fst s)) else None)
                end) state.
Definition n_candidates : nat := Nat.min 8 (length cells).
(** adaptive.py:120-124: nearest-node fallback; 126-127: clip. *)
Definition fallback (values : list R) (near : pt -> nat) (s : pt * option R) : R :=
  match snd s with Some v => v | None => nth (near (fst s)) values 0 end.
Definition clipR (c : option (R * R)) (x : R) : R := match c with None => x | Some (a, b) => Rmin (Rmax x a) b end.
(** adaptive.py:29-129 [interpolate_field]; [None]: it raises (not TET4, or a singular element). *)
Definition interpolate_field (values : list R) (cands : pt -> list nat) (near : pt -> nat) (new : list pt)
    (clip : option (R * R)) : option (list R) :=
  if negb (forallb (fun c => Nat.eqb (length c) 4) cells) then None
  else if existsb (fun e => singular (Tmat e)) (seq 0 (length cells)) then None
  else Some (map (clipR clip) (map (fallback values near)
         (fold_left (fun st k => pass values cands k st) (seq 0 n_candidates) (map (fun p => (p, None)) new)))).

(** adaptive.py:170-186 [gradient_refinement]: [J] has the edges as rows; the code multiplies by the
    transpose of its inverse. *)
Definition Jmat (e i c : nat) : R := co (vert e (S i)) c - co (vert e 0) c.
Definition drho_ref (rho : list R) (e i : nat) : R := nth (nth (S i) (cell_of e) 0%nat) rho 0 - nth (nth 0 (cell_of e) 0%nat) rho 0.
Definition grad_rho (rho : list R) (e i : nat) : R := rs 3 (fun j => inv3 (Jmat e) j i * drho_ref rho e j).
Definition grad_mag (rho : list R) (e : nat) : R := sqrt (rs 3 (fun i => grad_rho rho e i * grad_rho rho e i)).
(** adaptive.py:188-195: scatter to the nodes and divide by the counts. *)
Definition scatter (f : nat -> R) (n : nat) : R :=
  rs 4 (fun i => rs (length cells) (fun e => if Nat.eqb (nth i (cell_of e) 0%nat) n then f e else 0)).
Definition node_avg (f : nat -> R) (n : nat) : R := scatter f n / Rmax (scatter (fun _ => 1) n) 1.
Definition max1 (x : R) (l : list R) : R := fold_left Rmax l x.
(** adaptive.py:136-202. *)
Definition gradient_refinement (rho : list R) : option (list R) :=
  if negb (forallb (fun c => Nat.eqb (length c) 4) cells) then None
  else if existsb (fun e => singular (Jmat e)) (seq 0 (length cells)) then None
  else match map (node_avg (grad_mag rho)) (seq 0 (length points)) with
       | [] => None
       | x :: l => let gmax := max1 x l in
                   if Rlt_dec (/ 1000000000000) gmax then Some (map (fun y => y / gmax) (x :: l)) else Some (x :: l)
       end.
End Mesh.

(** adaptive.py:209-239 [_make_size_callback]; [near] is the tree query on the old mesh's points. The first
    component is the callback, the second the uniformity flag. [None] for the field or an absent old mesh. *)
Definition clip01 (x : R) : R := Rmin (Rmax x 0) 1.
Definition minl (l : list R) : R := match l with [] => 0 | x :: r => fold_left Rmin r x end.
Definition maxl (l : list R) : R := match l with [] => 0 | x :: r => fold_left Rmax r x end.
Definition make_size_callback (field : option (list R)) (near : pt -> nat) (h_min h_max : R) : (pt -> R) * bool :=
  match field with
  | None => (fun _ => h_max, true)
  | Some f => let g := map clip01 f in
              let uniform := if Rlt_dec (maxl g - minl g) (/ 100000000) then true else false in
              (fun p => if uniform then h_max else h_max - nth (near p) g 0 * (h_max - h_min), uniform)
  end.

(** adaptive.py:242-263 [_extract_tet4]: [etypes] with the node tags of each element block (1-based);
    [coords] the coordinates in the order returned by [getNodes]. *)
Fixpoint find_tet (blocks : list (nat * list (list nat))) : option (list (list nat)) :=
  match blocks with [] => None | (t, c) :: r => if Nat.eqb t 4 then Some c else find_tet r end.
Definition unique_below (n : nat) (l : list nat) : list nat := filter (fun i => existsb (Nat.eqb i) l) (seq 0 n).
Fixpoint index_of (x : nat) (l : list nat) : nat := match l with [] => O | y :: r => if Nat.eqb x y then O else S (index_of x r) end.
Definition extract_tet4 {P : Type} (d : P) (coords : list P) (blocks : list (nat * list (list nat))) : option (list P * list (list nat)) :=
  match find_tet blocks with
  | None => None
  | Some tags => let cells := map (map (fun t => (t - 1)%nat)) tags in
                 let u := unique_below (length coords) (concat cells) in
                 Some (map (fun i => nth i coords d) u, map (map (fun i => index_of i u)) cells)
  end.

(** adaptive.py:278-317 [_identify_periodic_face_pairs]: a face is its tag and bounding box. *)
Definition eps6 : R := / 1000000.
Definition closeb (x y : R) : bool := if Rlt_dec (Rabs (x - y)) eps6 then true else false.
Record face := { f_tag : nat; f_min : nat -> R; f_max : nat -> R }.
(** The axis and side (false: master, true: slave) of a face, if any. *)
Definition classify_face (o l : nat -> R) (f : face) : option (nat * bool) :=
  let side a := if closeb (f_min f a) (o a) then Some (a, false)
                else if closeb (f_min f a) (o a + l a) then Some (a, true) else None in
  if closeb (f_max f 0%nat) (f_min f 0%nat) then side 0%nat
  else if closeb (f_max f 1%nat) (f_min f 1%nat) then side 1%nat
  else if closeb (f_max f 2%nat) (f_min f 2%nat) then side 2%nat else None.
(** The dictionary: the last face assigned to a slot wins. *)
Definition slot (o l : nat -> R) (faces : list face) (a : nat) (s : bool) : option nat :=
  fold_left (fun acc f => match classify_face o l f with
    | Some (b, t) => if (Nat.eqb a b && Bool.eqb s t)%bool then Some (f_tag f) else acc | None => acc end) faces None.
(** The [setPeriodic] calls: slave, master and translation, per axis. *)
Definition affine_of (l : nat -> R) (axis k : nat) : R :=
  if Nat.eqb k (3 + axis * 4) then l axis
  else if (Nat.eqb k 0 || Nat.eqb k 5 || Nat.eqb k 10 || Nat.eqb k 15)%bool then 1 else 0.
Definition periodic_call (o l : nat -> R) (faces : list face) (axis : nat) : option (nat * nat * (nat -> R)) :=
  match slot o l faces axis false, slot o l faces axis true with
  | Some m, Some s => Some (s, m, affine_of l axis)
  | _, _ => None
  end.
(** How gmsh applies the row-major 4x4 matrix to a point. *)
Definition apply_affine (A : nat -> R) (x : nat -> R) (i : nat) : R := rs 3 (fun j => A (4 * i + j)%nat * x j) + A (4 * i + 3)%nat.

(** adaptive.py:456-474: the node-count loop; [gen] generates a mesh for the sizes, [count] its nodes. The
    list is the sequence of generated sizes, most recent first. *)
Section Retune.
Variable M : Type.
Variable gen : R -> R -> M.
Variable count : M -> R.
Definition accepted (target : R) (m : M) : bool :=
  let q := count m / target in
  if Rlt_dec (7 / 10) q then (if Rlt_dec q (13 / 10) then true else false) else false.
Fixpoint retune (fuel : nat) (target : R) (h_min h_max : R) (m : M) (calls : list (R * R)) : M * list (R * R) :=
  match fuel with
  | O => (m, calls)
  | S k => if accepted target m then (m, calls)
           else let ratio := Rpower (count m / target) (1 / 3) in
                retune k target (h_min * ratio) (h_max * ratio) (gen (h_min * ratio) (h_max * ratio)) ((h_min * ratio, h_max * ratio) :: calls)
  end.
Definition adaptive_box_mesh (target : option R) (max_retries : nat) (h_min h_max : R) : M * list (R * R) :=
  match target with
  | None => (gen h_min h_max, [(h_min, h_max)])
  | Some t => retune max_retries t h_min h_max (gen h_min h_max) [(h_min, h_max)]
  end.
End Retune.
