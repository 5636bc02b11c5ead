(** Model of the element tables and node re-ordering.
    Source: /repo/feax/basis.py. *)
From Coq Require Import String.
From Verif Require Import Base.
From Coq Require Import List Arith.
Import ListNotations.
Local Open Scope string_scope.

(** basix.ElementFamily, as far as the code uses it. *)
Inductive family := Lagrange | Serendipity.

(** basis.py:64-126 [get_elements]: (family, degree, quadrature order, node
    re-ordering); [None] is the NotImplementedError.  The basix cell-type objects
    the code also returns are determined by the element name. *)
Definition get_elements (ele_type : string) : option (family * nat * nat * list nat) :=
  if ele_type =? "HEX8" then Some (Lagrange, 1, 2, [0; 1; 3; 2; 4; 5; 7; 6])
  else if ele_type =? "HEX20" then
    Some (Serendipity, 2, 2,
          [0; 1; 3; 2; 4; 5; 7; 6; 8; 11; 13; 9; 16; 18; 19; 17; 10; 12; 15; 14])
  else if ele_type =? "TET4" then Some (Lagrange, 1, 0, [0; 1; 2; 3])
  else if ele_type =? "TET10" then Some (Lagrange, 2, 2, [0; 1; 2; 3; 9; 6; 8; 7; 5; 4])
  else if ele_type =? "QUAD4" then Some (Lagrange, 1, 2, [0; 1; 3; 2])
  else if ele_type =? "QUAD8" then Some (Serendipity, 2, 2, [0; 1; 3; 2; 4; 6; 7; 5])
  else if ele_type =? "QUAD9" then Some (Lagrange, 2, 4, [0; 1; 3; 2; 4; 6; 7; 5; 8])
  else if ele_type =? "TRI3" then Some (Lagrange, 1, 0, [0; 1; 2])
  else if ele_type =? "TRI6" then Some (Lagrange, 2, 2, [0; 1; 2; 5; 3; 4])
  else None.

Definition re_order_of (ele_type : string) : option (list nat) :=
  option_map snd (get_elements ele_type).

(** [onp.argwhere(re_order == ind)]: the positions of [ind]. *)
Definition argwhere_eq (ro : list nat) (ind : nat) : list nat :=
  filter (fun p => Nat.eqb (nth p ro 0) ind) (seq 0 (length ro)).

(** basis.py:129-152 [reorder_inds] on the flattened index array.  The list of
    argwhere results is stacked and reshaped to the input shape: numpy raises
    unless all results have the same size, and the reshape raises unless the total
    size is that of the input; so for a non-empty input every index must occur
    exactly once.  [None] is that ValueError. *)
Fixpoint reorder_inds (inds ro : list nat) : option (list nat) :=
  match inds with
  | [] => Some []
  | i :: t =>
      match argwhere_eq ro i, reorder_inds t ro with
      | [p], Some r => Some (p :: r)
      | _, _ => None
      end
  end.

(** basis.py:191 (and 231, 321): [tabulate(...)[:, :, re_order, :]] for one
    quadrature point: the basis-function values selected in mesh order.  [None] is
    the IndexError of an out-of-range index. *)
Fixpoint take_inds {A} (vals : list A) (inds : list nat) : option (list A) :=
  match inds with
  | [] => Some []
  | i :: t => match nth_error vals i, take_inds vals t with
              | Some v, Some r => Some (v :: r)
              | _, _ => None
              end
  end.
