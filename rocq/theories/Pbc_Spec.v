(** Periodic constraints, stated without reference to the matrix construction. *)
From Verif Require Import Base Pbc_Model.
Set Implicit Arguments.

Section Spec.
  Variable Pt : Type.
  Variable close : Pt -> Pt -> bool.
  Variable points : list Pt.
  Variable pt0 : Pt.
  Variable vec : nat.
  Variable pairings : list (pairing Pt).
  Local Notation pt := (point points pt0).
  Local Notation n := (length points).

  (** Node B is the partner of node A in pairing [p]. *)
  Definition partner (p : pairing Pt) (A B : nat) : Prop :=
    A < n /\ B < n /\ pp_master p (pt A) = true /\ pp_slave p (pt B) = true /\
    close (pp_map p (pt A)) (pt B) = true.
  (** DOF [b] is constrained to equal DOF [a]. *)
  Definition linked (a b : nat) : Prop :=
    exists p A B, In p pairings /\ partner p A B /\ a = A * vec + pp_vec p /\ b = B * vec + pp_vec p.
  Definition is_slave (b : nat) : Prop := exists a, linked a b.

  (** Every master has exactly one partner. *)
  Definition well_matched : Prop :=
    forall p A, In p pairings -> A < n -> pp_master p (pt A) = true ->
      exists B, partner p A B /\ forall B', partner p A B' -> B' = B.
  (** No DOF is the slave of two constraints. *)
  Definition single_master : Prop :=
    forall i j p q A A' B B', nth_error pairings i = Some p -> nth_error pairings j = Some q ->
      partner p A B -> partner q A' B' -> B * vec + pp_vec p = B' * vec + pp_vec q -> i = j /\ A = A'.
  (** No master is itself a slave. *)
  Definition independent_masters : Prop := forall a b, linked a b -> ~ is_slave a.
End Spec.
