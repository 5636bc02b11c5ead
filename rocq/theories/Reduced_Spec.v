(** What a reduced (periodic) solve is supposed to satisfy. *)
From Verif Require Import Base Csr_Model Assembly_Model Assembly_Spec Bc_Model LinSolve_Spec Reduced_Model.

Section Spec.
  Variable K : CRing.
  Local Open Scope ring_K.

  (** [P] assigns every full DOF [i] the reduced unknown [col i], with weight one. *)
  Definition master_slave (P : bcoo K) (n : nat) (col : nat -> nat) : Prop :=
    P_rows P = n /\ P_ents P = map (fun i => (i, col i, 1)) (seq 0 n) /\
    (forall i, i < n -> col i < P_cols P).
  (** A prolongation whose entries lie inside its shape. *)
  Definition in_shape (P : bcoo K) (n : nat) : Prop :=
    P_rows P = n /\ forall e, In e (P_ents P) -> e_row e < n /\ e_col e < P_cols P.
  (** Constrained DOFs are constrained as whole periodic classes. *)
  Definition whole_classes (n : nat) (col : nat -> nat) (rows : list nat) : Prop :=
    forall r i, In r rows -> i < n -> col i = col r -> In i rows.
  (** The sum of [f] over the full DOFs of class [c]. *)
  Definition class_sum (n : nat) (col : nat -> nat) (c : nat) (f : nat -> K) : K :=
    sumf f (filter (fun i => col i =? c) (seq 0 n)).
  (** k a = 0 only if a = 0. *)
  Definition torsion_free : Prop :=
    forall (k : nat) (a : K), 0 < k -> sumf (fun _ => a) (seq 0 k) = 0 -> a = 0.

  Variables (Inp FInp : Type) (pb : problem K Inp FInp).
  (** First-order response of a periodic solution to a change [dR] of the residual at
      fixed solution, prescribed values fixed. *)
  Definition periodic_response (col : nat -> nat) (bc : dirichlet K) (sol dR du : list K) : Prop :=
    (forall i j, i < pr_n pb -> j < pr_n pb -> col i = col j -> get du i = get du j) /\
    (forall i, In i (bc_rows bc) -> get du i = 0) /\
    (forall i, i < pr_n pb -> ~ In i (bc_rows bc) ->
       class_sum (pr_n pb) col (col i)
         (fun k => sumf (fun j => spec_jac pb sol k j * get du j) (seq 0 (pr_n pb)) + get dR k) = 0).
End Spec.
Arguments master_slave {K}. Arguments in_shape {K}. Arguments class_sum {K}.
Arguments periodic_response {K Inp FInp}.
