(** The global DOF numbering, stated directly. *)
From Verif Require Import Base Dof_Model.
Set Implicit Arguments.

(** Global number of component [c] of node [a] of variable [i]: all DOFs of the
    earlier variables, then node-major within the variable. *)
Definition dof (L : layout) (i a c : nat) : nat :=
  sum_nat (firstn i (sizes L)) + a * snd (nth i L (0, 0)) + c.

(** [i] is a variable, [a] one of its nodes, [c] one of its components. *)
Definition valid_dof (L : layout) (i a c : nat) : Prop :=
  i < length L /\ a < fst (nth i L (0, 0)) /\ c < snd (nth i L (0, 0)).
