(** Model of the parameter container and of how volume variables reach the quadrature points.
    Source: /repo/feax/traced_params.py and /repo/feax/assembler.py. Arrays have at most two
    axes; a batched Solution is not modelled. *)
From Coq Require Import ZArith Bool List Arith.
From Verif Require Import Base Dof_Model.
Import ListNotations.

(** Python list item assignment: negative indices count from the end; [None] is IndexError. *)
Definition py_index (n : nat) (i : Z) : option nat :=
  if (0 <=? i)%Z && (i <? Z.of_nat n)%Z then Some (Z.to_nat i)
  else if (i <? 0)%Z && (- Z.of_nat n <=? i)%Z then Some (Z.to_nat (i + Z.of_nat n)) else None.
Definition py_set {A} (l : list A) (i : Z) (v : A) : option (list A) :=
  match py_index (length l) i with Some k => Some (upd l k v) | None => None end.

Section Container.
  Variable A : Type.
  (** traced_params.py:85-86 (fields) and 88-96 ([surface_vars=None] becomes []). *)
  Record params := { volume_vars : list A; surface_vars : list (list A) }.
  Definition make (v : list A) (s : option (list (list A))) : params :=
    {| volume_vars := v; surface_vars := match s with Some s => s | None => [] end |}.
  (** traced_params.py:425-442. *)
  Definition replace_volume_var (p : params) (i : Z) (v : A) : option params :=
    match py_set (volume_vars p) i v with
    | Some l => Some {| volume_vars := l; surface_vars := surface_vars p |}
    | None => None
    end.
  (** traced_params.py:444-465. *)
  Definition replace_surface_var (p : params) (s i : Z) (v : A) : option params :=
    match py_index (length (surface_vars p)) s with
    | Some k => match py_set (nth k (surface_vars p) []) i v with
                | Some t => Some {| volume_vars := volume_vars p; surface_vars := upd (surface_vars p) k t |}
                | None => None
                end
    | None => None
    end.
  (** traced_params.py:467-489. *)
  Definition tree_flatten (p : params) : list A * (nat * list nat) :=
    (fold_left (fun acc t => acc ++ t) (surface_vars p) (volume_vars p),
     (length (volume_vars p), map (@length A) (surface_vars p))).
  (** traced_params.py:491-519. *)
  Fixpoint take_chunks (counts : list nat) (leaves : list A) : list (list A) :=
    match counts with [] => [] | c :: t => firstn c leaves :: take_chunks t (skipn c leaves) end.
  Definition tree_unflatten (aux : nat * list nat) (leaves : list A) : params :=
    {| volume_vars := firstn (fst aux) leaves; surface_vars := take_chunks (snd aux) (skipn (fst aux) leaves) |}.
End Container.
Arguments volume_vars {A}. Arguments surface_vars {A}. Arguments replace_volume_var {A}. Arguments replace_surface_var {A}.
Arguments tree_flatten {A}. Arguments tree_unflatten {A}. Arguments take_chunks {A}. Arguments make {A}.

Section Vars.
  Variable K : CRing.
  Local Open Scope ring_K.
  (** An array with 0, 1 or 2 axes; [A2 w rows] has shape (length rows, w). *)
  Inductive arr := A0 (x : K) | A1 (l : list K) | A2 (w : nat) (rows : list (list K)).

  (** traced_params.py:22-38, 97-105: a Solution given as a coefficient. [inr]: ValueError. *)
  Inductive given := Arr (a : arr) | Sol (L : layout) (dofs : list K).
  Definition coerce (g : given) : option arr :=
    match g with
    | Arr a => Some a
    | Sol [(n, v)] dofs =>
        match field [(n, v)] dofs 0 with
        | Ok u => Some (if Nat.eqb v 1 then A1 (map (fun row => get row 0) u) else A2 v u)
        | _ => None
        end
    | Sol _ _ => None
    end.
  Fixpoint coerce_all (gs : list given) : option (list arr) :=
    match gs with
    | [] => Some []
    | g :: t => match coerce g, coerce_all t with Some a, Some r => Some (a :: r) | _, _ => None end
    end.

  (** The parts of a finite element variable that matter here: number of nodes, connectivity,
      shape functions at quadrature points (quads x nodes per element). *)
  Record fe := { f_nodes : nat; f_npe : nat; f_cells : list (list nat); f_shape : list (list K) }.
  Record problem := { p_fes : list fe; p_ncells : nat }.
  Definition fe_at (P : problem) (i : nat) : fe := nth i (p_fes P) {| f_nodes := 0; f_npe := 0; f_cells := []; f_shape := [] |}.
  Definition num_quads (P : problem) : nat := length (f_shape (fe_at P 0)).

  (** First variable whose number of nodes is [n]. *)
  Fixpoint find_fe (fes : list fe) (n : nat) : option nat :=
    match fes with
    | [] => None
    | f :: t => if Nat.eqb n (f_nodes f) then Some 0%nat else option_map S (find_fe t n)
    end.
  Inductive kind := KNode (i : nat) | KCell | KQuad | KNone.
  (** assembler.py:69-103 [classify_volume_var]. *)
  Definition classify (P : problem) (v : arr) : kind :=
    match v with
    | A0 _ => KCell
    | A1 l => match find_fe (p_fes P) (length l) with
              | Some i => KNode i
              | None => if Nat.eqb (length l) (p_ncells P) then KCell else KNone
              end
    | A2 w rows => match find_fe (p_fes P) (length rows) with
              | Some i => KNode i
              | None => if Nat.eqb (length rows) (p_ncells P) then (if Nat.eqb w (num_quads P) then KQuad else KCell) else KNone
              end
    end.

  (** What one cell receives after the vmap slice. *)
  Inductive piece := P0 (x : K) | P1 (l : list K) | P2 (rows : list (list K)).
  (** JAX indexing clamps out-of-range indices. *)
  Definition jget {B} (d : B) (l : list B) (n : nat) : B := nth (Nat.min n (length l - 1)) l d.
  (** assembler.py:316-356 [gather_internal_vars], then the per-cell slice. [None]: the vmap
      rejects an array without a cell axis. *)
  Definition gather (P : problem) (v : arr) (c : nat) : option piece :=
    match v with
    | A0 _ => None
    | A1 l => if Nat.eqb (length l) (p_ncells P) then Some (P0 (get l c))
              else let i := match find_fe (p_fes P) (length l) with Some i => i | None => 0%nat end in
                   Some (P1 (map (jget 0 l) (nth c (f_cells (fe_at P i)) [])))
    | A2 w rows => if Nat.eqb (length rows) (p_ncells P) then Some (P1 (nth c rows []))
              else let i := match find_fe (p_fes P) (length rows) with Some i => i | None => 0%nat end in
                   Some (P2 (map (jget [] rows) (nth c (f_cells (fe_at P i)) [])))
    end.

  (** Value at one quadrature point: a scalar or a vector. *)
  Inductive qval := QS (x : K) | QV (l : list K).
  Definition dotl (a b : list K) : K := sumf (fun p => fst p * snd p) (combine a b).
  Definition shape_dot (sv : list (list K)) (p : piece) : option (list qval) :=
    match p with
    | P0 x => Some (map (fun row => QV (map (fun s => s * x) row)) sv)
    | P1 l => if forallb (fun row => Nat.eqb (length row) (length l)) sv then Some (map (fun row => QS (dotl row l)) sv) else None
    | P2 rows => if forallb (fun row => Nat.eqb (length row) (length rows)) sv then
                   Some (map (fun row => QV (map (fun k => dotl row (map (fun r => get r k) rows)) (seq 0 (length (nth 0 rows []))))) sv) else None
    end.
  (** assembler.py:186-242 [interpolate_var]; the operator is that of variable 0 (443, 486, 631).
      [None]: a shape error. *)
  Definition interpolate (P : problem) (p : piece) (k : kind) : option (list qval) :=
    let nq := num_quads P in
    match k with
    | KNode i => shape_dot (f_shape (fe_at P i)) p
    | KCell => match p with
               | P0 x => Some (repeat (QS x) nq)
               | P1 l => match l with [] => None | x :: _ => Some (repeat (QS x) nq) end
               | P2 rows => match concat rows with [] => None | x :: _ => Some (repeat (QS x) nq) end
               end
    | KQuad => match p with P0 _ => None | P1 l => Some (map QS l) | P2 rows => Some (map QV rows) end
    | KNone => match p with
               | P0 x => Some (repeat (QS x) nq)
               | P1 l => if existsb (fun f => Nat.eqb (length l) (f_npe f)) (p_fes P) then shape_dot (f_shape (fe_at P 0)) p
                         else if Nat.eqb (length l) 1 then Some (repeat (QS (get l 0)) nq)
                         else if Nat.eqb (length l) nq then Some (map QS l)
                         else match l with [] => None | x :: _ => Some (repeat (QS x) nq) end
               | P2 rows => Some (map QV rows)
               end
    end.
  (** assembler.py:948-965, 1275-1285, 1422-1433: what the kernel of cell [c] sees. *)
  Definition quad_values (P : problem) (v : arr) (c : nat) : option (list qval) :=
    match gather P v c with Some p => interpolate P p (classify P v) | None => None end.
  (** assembler.py:1912-1926 (the energy functional): values at the quadrature points of cell [c]. *)
  Definition energy_values (P : problem) (v : arr) (c : nat) : option (list qval) :=
    match v with
    | A0 _ => None
    | A1 l => if Nat.eqb (length l) (p_ncells P) then Some (repeat (QS (get l c)) (num_quads P))
              else shape_dot (f_shape (fe_at P 0)) (P1 (map (jget 0 l) (nth c (f_cells (fe_at P 0)) [])))
    | A2 w rows => if Nat.eqb (length rows) (p_ncells P) && Nat.eqb w (num_quads P) then Some (map QS (nth c rows []))
                   else None (* the two vmaps need matching axes *)
    end.
  (** traced_params.py:131-137, 163-165, 195-198. *)
  Definition create_node_var (P : problem) (x : K) (i : nat) : arr := A1 (repeat x (f_nodes (fe_at P i))).
  Definition create_cell_var (P : problem) (x : K) : arr := A1 (repeat x (p_ncells P)).
  Definition create_uniform_volume_var (P : problem) (x : K) : arr := A2 (num_quads P) (repeat (repeat x (num_quads P)) (p_ncells P)).
End Vars.
