(** Periodic unit cells, stated without reference to masters, slaves or pairings. *)
From Coq Require Import ZArith List Bool.
From Verif Require Import Base.
Import ListNotations.
Local Open Scope list_scope. Local Open Scope Z_scope.

Section Spec.
  Variable points : list (list Z).
  Variable dim : nat.
  Local Notation "p .[ k ]" := (nth k p 0) (at level 2, format "p .[ k ]").

  (** [lo] and [hi] bound the mesh tightly along every axis. *)
  Definition bounding_box (lo hi : nat -> Z) : Prop :=
    forall k, (k < dim)%nat ->
      (forall p, In p points -> lo k <= p.[k] <= hi k) /\
      (exists p, In p points /\ p.[k] = lo k) /\ (exists p, In p points /\ p.[k] = hi k).

  (** Two points of the box that differ by whole periods. *)
  Definition periodic_images (lo hi : nat -> Z) (p q : list Z) : Prop :=
    forall k, (k < dim)%nat ->
      p.[k] = q.[k] \/ (p.[k] = lo k /\ q.[k] = hi k) \/ (p.[k] = hi k /\ q.[k] = lo k).

  (** Opposite boundaries carry the same nodes. *)
  Definition periodic_mesh (lo hi : nat -> Z) : Prop :=
    forall p k, In p points -> (k < dim)%nat ->
      (p.[k] = lo k -> In (upd p k (hi k)) points) /\ (p.[k] = hi k -> In (upd p k (lo k)) points).

  (** The mesh is nowhere finer than the tolerances: coordinates that pass [isclose] are equal,
      points within [eps] are equal. *)
  Definition resolved (atol atol0 eps : Z) : Prop :=
    0 < eps /\
    (forall p q k, In p points -> In q points -> (k < dim)%nat -> p.[k] <> q.[k] ->
       100000 * Z.max atol atol0 + Z.abs q.[k] < 100000 * Z.abs (p.[k] - q.[k])) /\
    (forall p q, In p points -> In q points -> p <> q ->
       eps ^ 2 <= fold_right Z.add 0 (map (fun k => (p.[k] - q.[k]) ^ 2) (seq 0 dim))).

  (** A mesh of [dim]-dimensional, pairwise different nodes in a box of positive extent. *)
  Definition cell_mesh (lo hi : nat -> Z) : Prop :=
    NoDup points /\ (forall p, In p points -> length p = dim) /\ bounding_box lo hi /\
    (forall k, (k < dim)%nat -> lo k < hi k).

  (** Field values (one per node and component) that agree at periodic images. *)
  Definition periodic_field {A : Type} (lo hi : nat -> Z) (vec : nat) (u : nat -> A) : Prop :=
    forall i j c, (i < length points)%nat -> (j < length points)%nat -> (c < vec)%nat ->
      periodic_images lo hi (nth i points []) (nth j points []) -> u (i * vec + c)%nat = u (j * vec + c)%nat.
End Spec.
