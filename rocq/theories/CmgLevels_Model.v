(** The levels of the compact multigrid as the arrays the solve uses. Source: /repo/feax/solvers/cmg.py. *)
From Coq Require Import Reals List Arith Lia Bool ZArith Qreals.
From Verif Require Import Tmc_Model Adaptive_Model CmgSolve_Model.
From Verif Require Grid_Model Cmg_Model.
Import ListNotations.
Local Open Scope R_scope.

(** cmg.py:163-176, 209: the raw level built from active cells; [fixed] is the user's predicate on grid
    indices and level dimensions, [next] the next coarser level. *)
Definition raw_of (fixed : Grid_Model.ijk -> Grid_Model.ijk -> bool) (lv next : Cmg_Model.level) : raw :=
  let node n := nth n (Cmg_Model.l_nodes lv) 0%Z in
  {| nnode := length (Cmg_Model.l_nodes lv); ncell := length (Cmg_Model.l_cells lv);
     r_edof := fun e a => nth a (Cmg_Model.edof_row (Cmg_Model.ncid lv (nth e (Cmg_Model.l_cells lv) 0%Z))) 0%nat;
     r_free := fun i => if fixed (Cmg_Model.node_idx (Cmg_Model.l_dims lv) (node (i / 3)%nat)) (Cmg_Model.l_dims lv) then 0 else 1;
     r_color := fun n => Z.to_nat (Cmg_Model.color (Cmg_Model.l_dims lv) (node n));
     r_idx := fun n k => fst (nth k (Cmg_Model.transfer lv next (node n)) (0%nat, 0%Q));
     r_w := fun n k => Q2R (snd (nth k (Cmg_Model.transfer lv next (node n)) (0%nat, 0%Q))) |}.
(** cmg.py:152-185: all levels; the coarsest has no transfer (its own level stands in, never read). *)
Fixpoint raws_of (fixed : Grid_Model.ijk -> Grid_Model.ijk -> bool) (ls : list Cmg_Model.level) : list raw :=
  match ls with
  | [] => []
  | l :: rest => raw_of fixed l (match rest with [] => l | c :: _ => c end) :: raws_of fixed rest
  end.
