(** The first-order element tables as the code builds them.
    Source: /repo/feax/basis.py. *)
From Coq Require Import String.
From Verif Require Import Base Basis_Model.
From Coq Require Import List Arith.
Import ListNotations.

Section Patch.
  Variable K : CRing.
  Local Open Scope ring_K.

  (** basis.py:191-194 [element.tabulate(1, quad_points)[1:]] at the reference point [(x, y, z)]:
      gradients of the first-order Lagrange functions of Basix, in Basix's node order (library
      behaviour: barycentric coordinates on simplices, products of [1 - t] and [t] on
      tensor-product cells, first coordinate fastest).  Only the degree-1 elements. *)
  Definition basix_grads (e : string) (x y z : K) : list (list K) :=
    if (e =? "TRI3")%string then [[- (1); - (1)]; [1; 0]; [0; 1]]
    else if (e =? "QUAD4")%string then
      [[- (1 - y); - (1 - x)]; [1 - y; - x]; [- y; 1 - x]; [y; x]]
    else if (e =? "TET4")%string then
      [[- (1); - (1); - (1)]; [1; 0; 0]; [0; 1; 0]; [0; 0; 1]]
    else if (e =? "HEX8")%string then
      [[- ((1 - y) * (1 - z)); - ((1 - x) * (1 - z)); - ((1 - x) * (1 - y))];
       [(1 - y) * (1 - z); - (x * (1 - z)); - (x * (1 - y))];
       [- (y * (1 - z)); (1 - x) * (1 - z); - ((1 - x) * y)];
       [y * (1 - z); x * (1 - z); - (x * y)];
       [- ((1 - y) * z); - ((1 - x) * z); (1 - x) * (1 - y)];
       [(1 - y) * z; - (x * z); x * (1 - y)];
       [- (y * z); (1 - x) * z; (1 - x) * y];
       [y * z; x * z; x * y]]
    else [].

  (** basis.py:194-196: the gradients re-ordered to the mesh's node order
      ([shape_grads_ref[q, n, e]] of one quadrature point). *)
  Definition mesh_grads (e : string) (x y z : K) : option (list (list K)) :=
    match re_order_of e with
    | Some ro => take_inds (basix_grads e x y z) ro
    | None => None
    end.

End Patch.
