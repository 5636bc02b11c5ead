(** Signed distance fields (feax/gene/sdf.py), over the real numbers. *)
From Coq Require Import Reals List Arith Bool.
Import ListNotations.
Open Scope R_scope.

Definition point := list R.

(** ** CSG (sdf.py:56-66 operators, 367-424 classes) *)
(** A primitive is its point evaluation [__call__], its batch evaluation [evaluate] and its
    [_default_bounds] ([None]: the base class raises NotImplementedError). *)
Record prim := { pr_call : point -> R; pr_eval : list point -> list R; pr_bounds : option (list R * list R) }.
Inductive csg :=
| Prim (p : prim)
| Union (a b : csg)
| Inter (a b : csg)
| Diff (a b : csg).
(** [__call__]: sdf.py:373-374, 391-392, 409-410. *)
Fixpoint call (t : csg) (p : point) : R :=
  match t with
  | Prim q => pr_call q p
  | Union a b => Rmin (call a p) (call b p)
  | Inter a b => Rmax (call a p) (call b p)
  | Diff a b => Rmax (call a p) (- call b p)
  end.
Definition zipR (f : R -> R -> R) (l m : list R) : list R := map (fun q => f (fst q) (snd q)) (combine l m).
(** [evaluate]: sdf.py:376-377, 394-395, 412-413. *)
Fixpoint evaluate (t : csg) (ps : list point) : list R :=
  match t with
  | Prim q => pr_eval q ps
  | Union a b => zipR Rmin (evaluate a ps) (evaluate b ps)
  | Inter a b => zipR Rmax (evaluate a ps) (evaluate b ps)
  | Diff a b => zipR Rmax (evaluate a ps) (map Ropp (evaluate b ps))
  end.
(** The base class's [evaluate] (sdf.py:50-52). *)
Definition base_evaluate (f : point -> R) (ps : list point) : list R := map f ps.
(** [_default_bounds]: sdf.py:379-382, 397-400, 415-416. *)
Fixpoint bounds (t : csg) : option (list R * list R) :=
  match t with
  | Prim q => pr_bounds q
  | Union a b => match bounds a, bounds b with
                 | Some (la, ha), Some (lb, hb) => Some (zipR Rmin la lb, zipR Rmax ha hb) | _, _ => None end
  | Inter a b => match bounds a, bounds b with
                 | Some (la, ha), Some (lb, hb) => Some (zipR Rmax la lb, zipR Rmin ha hb) | _, _ => None end
  | Diff a b => bounds a
  end.

(** ** The sampling grid (sdf.py:113-131 [to_mesh], up to the marching cubes call) *)
Definition axis_point (lo hi : R) (resolution i : nat) : R := lo + INR i * ((hi - lo) / INR (resolution - 1)).
Definition linspace (lo hi : R) (n : nat) : list R := map (axis_point lo hi n) (seq 0 n).
Definition grid_points (lo hi : list R) (n : nat) : list point :=
  flat_map (fun x => flat_map (fun y => map (fun z => [x; y; z]) (linspace (nth 2 lo 0) (nth 2 hi 0) n))
    (linspace (nth 1 lo 0) (nth 1 hi 0) n)) (linspace (nth 0 lo 0) (nth 0 hi 0) n).
(** [vol[i, j, k]] after [.reshape(resolution, resolution, resolution)]. *)
Definition vol (t : csg) (lo hi : list R) (n i j k : nat) : R := nth (i * n * n + j * n + k) (evaluate t (grid_points lo hi n)) 0.
Definition padded (padding : R) (b : list R * list R) : list R * list R := (map (fun x => x - padding) (fst b), map (fun x => x + padding) (snd b)).
(** sdf.py:129-131: the world position of a (fractional) grid index. *)
Definition world (lo hi : list R) (n : nat) (v : list R) : point :=
  map (fun q => snd q * ((nth (fst q) hi 0 - nth (fst q) lo 0) / INR (n - 1)) + nth (fst q) lo 0) (combine (seq 0 3) v).

(** ** DensityField (sdf.py:462-830) *)
Definition suml (l : list R) : R := fold_right Rplus 0 l.
Definition dotl (a b : list R) : R := suml (zipR Rmult a b).
Definition minlist (l : list R) : R := match l with [] => 0 | x :: r => fold_left Rmin r x end.
Definition maxlist (l : list R) : R := match l with [] => 0 | x :: r => fold_left Rmax r x end.
Definition leb (x y : R) : bool := if Rle_dec x y then true else false.
Definition ltb (x y : R) : bool := if Rlt_dec x y then true else false.
Inductive ctype := Simplex | Tensor.
(** sdf.py:435-447 [_inside_ref_element]. *)
Definition tol6 : R := / 1000000.
Definition inside_ref (c : ctype) (xi : list R) : bool :=
  match c with
  | Simplex => forallb (leb (- tol6)) xi && leb (suml xi) (1 + tol6)
  | Tensor => forallb (leb (- tol6)) xi && forallb (fun x => leb x (1 + tol6)) xi
  end.
(** sdf.py:646-652 [_ref_element_distance]. *)
Definition ref_distance (c : ctype) (xi : list R) : R :=
  match c with
  | Simplex => Rmax (Rmax 0 (- minlist xi)) (suml xi - 1)
  | Tensor => Rmax (Rmax 0 (- minlist xi)) (maxlist (map (fun x => x - 1) xi))
  end.
(** sdf.py:654-663 [_clamp_to_ref]. *)
Definition clamp_ref (c : ctype) (xi : list R) : list R :=
  match c with
  | Simplex => let y := map (fun x => Rmax x 0) xi in if Rlt_dec 1 (suml y) then map (fun x => x / suml y) y else y
  | Tensor => map (fun x => Rmin (Rmax x 0) 1) xi
  end.
(** The data of a field: densities, cells, table [re_order], candidate and nearest-node queries, the inverse
    map of an element ([None]: Newton diverged) and the basix-order shape functions. *)
Record dfield := { df_rho : list R; df_cells : list (list nat); df_reorder : list nat; df_ctype : ctype;
  df_cands : point -> list nat; df_near : point -> nat; df_inv : nat -> point -> option (list R);
  df_shape : list R -> list R; df_threshold : R; df_close : bool; df_lo : list R; df_hi : list R }.
Definition node_vals (d : dfield) (e : nat) : list R :=
  map (fun j => nth (nth j (nth e (df_cells d) []) 0%nat) (df_rho d) 0) (df_reorder d).
Definition interp_at (d : dfield) (e : nat) (xi : list R) : R := dotl (df_shape d xi) (node_vals d e).
(** sdf.py:566-585: the candidate loop with its best near-miss (distance, coordinates, element). *)
Fixpoint scan (d : dfield) (p : point) (cands : list nat) (best : option (R * list R * nat)) : R + option (R * list R * nat) :=
  match cands with
  | [] => inr best
  | e :: r =>
      match df_inv d e p with
      | None => scan d p r best
      | Some xi =>
          if inside_ref (df_ctype d) xi then inl (interp_at d e xi)
          else let dist := ref_distance (df_ctype d) xi in
               let better := match best with None => true | Some (b, _, _) => ltb dist b end in
               scan d p r (if better then Some (dist, xi, e) else best)
      end
  end.
(** sdf.py:595-599: outside the bounding box by more than one per cent of its size. *)
Definition beyond (d : dfield) (p : point) : bool :=
  existsb (fun i => let m := (nth i (df_hi d) 0 - nth i (df_lo d) 0) / 100 in
    ltb (nth i p 0) (nth i (df_lo d) 0 - m) || ltb (nth i (df_hi d) 0 + m) (nth i p 0)) (seq 0 (length (df_lo d))).
Definition fallback_density (d : dfield) (p : point) (best : option (R * list R * nat)) : R :=
  let far := if df_close d && beyond d p then 0 else nth (df_near d p) (df_rho d) 0 in
  match best with
  | Some (b, xi, e) => if ltb b (1 / 2) then interp_at d e (clamp_ref (df_ctype d) xi) else far
  | None => far
  end.
(** sdf.py:557-601 [_interpolate_single] and [__call__]. *)
Definition density (d : dfield) (p : point) : R :=
  match scan d p (df_cands d p) None with inl v => v | inr best => fallback_density d p best end.
Definition df_call (d : dfield) (p : point) : R := df_threshold d - density d p.

(** sdf.py:667-757 [evaluate] for linear simplices (TET4, TRI3), where the batch inverse map is the single one:
    per-point state of density found (NaN: [None]) and best near-miss, one pass per candidate rank. *)
Definition bstate : Type := option R * option (R * list R * nat).
Definition bpass (d : dfield) (inv : nat -> point -> list R) (k : nat) (st : list (point * bstate)) : list (point * bstate) :=
  map (fun s => let '(p, (found, best)) := s in
    match found with
    | Some _ => s
    | None =>
        let e := nth k (df_cands d p) 0%nat in
        let xi := inv e p in
        if inside_ref (df_ctype d) xi then (p, (Some (interp_at d e xi), best))
        else let dist := ref_distance (df_ctype d) xi in
             let better := match best with None => true | Some (b, _, _) => ltb dist b end in
             (p, (None, if better then Some (dist, xi, e) else best))
    end) st.
Definition bfinish (d : dfield) (s : point * bstate) : R :=
  let '(p, (found, best)) := s in match found with Some v => v | None => fallback_density d p best end.
Definition df_evaluate (d : dfield) (inv : nat -> point -> list R) (n_candidates : nat) (ps : list point) : list R :=
  map (fun s => df_threshold d - bfinish d s)
    (fold_left (fun st k => bpass d inv k st) (seq 0 n_candidates) (map (fun p => (p, (None, None))) ps)).
(** sdf.py:634-641: barycentric shape functions of the linear simplices. *)
Definition simplex_shape (xi : list R) : list R := (1 - suml xi) :: xi.
