(** Model of the node classes, box corners and cell centres of a unit cell. Source: /repo/feax/flat/unitcell.py. The predicates are those of UnitCell_Model. *)
From Coq Require Import ZArith List Bool.
From Verif Require Import Base Pbc_Model UnitCell_Model.
Import ListNotations.
Local Open Scope Z_scope.

Section Class.
  Variable points : list (list Z).
  Variable sdim : nat.
  Variable atol : Z.
  (** unitcell.py:222-241 [corner_mask]. *)
  Definition corner_mask : list bool := map (is_corner points atol) points.
  (** unitcell.py:243-262 [edge_mask]. *)
  Definition edge_mask : list bool := map (is_edge points atol) points.
  (** unitcell.py:264-284 [face_mask]. *)
  Definition face_mask : list bool := map (is_face points atol) points.
  (** [itertools.product([0, 1], repeat=n)]: the last entry varies fastest. *)
  Fixpoint bits (n : nat) : list (list bool) :=
    match n with O => [[]] | S m => map (cons false) (bits m) ++ map (cons true) (bits m) end.
  (** [np.where(bits, max_corner, min_corner)]. *)
  Definition pick (b : list bool) : list Z := map (fun kb => if (snd kb : bool) then ub points (fst kb) else lb points (fst kb)) (combine (seq 0 (length b)) b).
  (** unitcell.py:111-138 [corners]. *)
  Definition corners : list (list Z) := map pick (bits sdim).
  (** unitcell.py:73-90 [cell_centers]: the mean as a sum with the number of nodes as denominator. *)
  Definition cell_centers (cells : list (list nat)) : list qpoint :=
    map (fun c => (map (fun k => csum (map (fun n => nth n points []) c) k) (seq 0 sdim), Z.of_nat (length c))) cells.
End Class.
