(** What the orientation tensors of a fibre distribution are. *)
From Coq Require Import Reals List.
From Verif Require Import Closure_Model.
Import ListNotations.
Open Scope R_scope.

(** Finite sum over [0 .. n-1]. *)
Fixpoint rsum (n : nat) (f : nat -> R) : R := match n with O => 0 | S k => rsum k f + f k end.

(** A fibre distribution: finitely many directions with weights. *)
Definition odf := list (R * (nat -> R)).
Definition avg (F : odf) (g : (nat -> R) -> R) : R := fold_right (fun wp s => fst wp * g (snd wp) + s) 0 F.
(** Unit directions in [d] dimensions, non-negative weights, total weight one. *)
Definition is_odf (d : nat) (F : odf) : Prop :=
  (forall wp, In wp F -> 0 <= fst wp /\ rsum d (fun i => snd wp i * snd wp i) = 1) /\ avg F (fun _ => 1) = 1.
(** Second and fourth moments. *)
Definition moment2 (F : odf) : T2 := fun i j => avg F (fun p => p i * p j).
Definition moment4 (F : odf) : T4 := fun i j k l => avg F (fun p => p i * p j * p k * p l).

Definition eq2 (d : nat) (a b : T2) : Prop := forall i j, (i < d)%nat -> (j < d)%nat -> a i j = b i j.
Definition eq4 (d : nat) (a b : T4) : Prop :=
  forall i j k l, (i < d)%nat -> (j < d)%nat -> (k < d)%nat -> (l < d)%nat -> a i j k l = b i j k l.
Definition symm2 (d : nat) (a : T2) : Prop := eq2 d a (fun i j => a j i).
Definition trace (d : nat) (a : T2) : R := rsum d (fun i => a i i).
(** The contraction of a fourth-order tensor over its last two indices. *)
Definition contract (d : nat) (a : T4) : T2 := fun i j => rsum d (fun k => a i j k k).
(** Invariance under every permutation of the four indices (generated by adjacent swaps). *)
Definition fully_symmetric (d : nat) (a : T4) : Prop :=
  forall i j k l, (i < d)%nat -> (j < d)%nat -> (k < d)%nat -> (l < d)%nat ->
    a i j k l = a j i k l /\ a i j k l = a i k j l /\ a i j k l = a i j l k.
(** Positive semidefinite matrix. *)
Definition psd2 (d : nat) (a : T2) : Prop :=
  symm2 d a /\ forall x : nat -> R, 0 <= rsum d (fun i => rsum d (fun j => x i * a i j * x j)).
(** Strain energy [e : C : e]. *)
Definition energy (d : nat) (C : T4) (e : T2) : R :=
  rsum d (fun i => rsum d (fun j => rsum d (fun k => rsum d (fun l => e i j * C i j k l * e k l)))).
(** A tensor referred to the axes given by the columns of [Q]. *)
Definition rotate (d : nat) (Q : T2) (C : T4) : T4 := fun i j k l =>
  rsum d (fun a => rsum d (fun b => rsum d (fun c => rsum d (fun e => Q i a * Q j b * Q k c * Q l e * C a b c e)))).
Definition orthogonal (d : nat) (Q : T2) : Prop := eq2 d (fun i j => rsum d (fun a => Q i a * Q j a)) delta.
