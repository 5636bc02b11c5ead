(** What a linear solve and its adjoint are supposed to satisfy. *)
From Verif Require Import Base Csr_Model Assembly_Model Assembly_Spec Bc_Model.
Set Implicit Arguments.

Section Spec.
  Variable K : CRing.
  Local Open Scope ring_K.
  Variables (Inp FInp : Type).

  (** The weak form is linear: every kernel is affine in the element solution and
      the tangent block it returns is its slope. *)
  Definition affine_kernel (X : Type) (nd : nat) (k : list K -> X -> list K * list K) : Prop :=
    forall u u' x a, length u = nd -> length u' = nd -> a < nd ->
      get (fst (k u' x)) a =
      get (fst (k u x)) a +
      sumf (fun b => get (snd (k u x)) (a * nd + b)%nat * (get u' b - get u b)) (seq 0 nd).
  Definition affine_problem (pb : problem K Inp FInp) : Prop :=
    affine_kernel (pr_nd pb) (pr_kern pb) /\
    forall b, In b (pr_bnd pb) -> affine_kernel (pr_nd pb) (b_kern b).

  (** [A] with its constrained rows replaced by identity rows and, if [sym], the
      other entries of constrained columns by zero. *)
  Definition eliminated (sym : bool) (constrained : nat -> bool) (A : nat -> nat -> K) (i j : nat) : K :=
    if constrained i then (if i =? j then 1 else 0)
    else if sym && constrained j then 0 else A i j.

  (** The discrete equations: prescribed values attained, free residuals zero. *)
  Definition solves_problem (pb : problem K Inp FInp) (bc : dirichlet K) (sol : list K) : Prop :=
    (forall k, k < length (bc_rows bc) -> get sol (nth k (bc_rows bc) 0%nat) = get (bc_vals bc) k) /\
    (forall i, i < pr_n pb -> ~ In i (bc_rows bc) -> spec_res pb sol i = 0).

  (** Implicit function theorem: [du] is the solution's first-order response when
      the prescribed values move by [dvals] and the physical residual (at fixed
      solution) by [dR]. *)
  Definition response (pb : problem K Inp FInp) (bc : dirichlet K) (sol dR dvals du : list K) : Prop :=
    (forall k, k < length (bc_rows bc) -> get du (nth k (bc_rows bc) 0%nat) = get dvals k) /\
    (forall i, i < pr_n pb -> ~ In i (bc_rows bc) ->
       sumf (fun j => spec_jac pb sol i j * get du j) (seq 0 (pr_n pb)) + get dR i = 0).

  (** The pairing of two vectors of length n. *)
  Definition dot (n : nat) (v w : list K) : K := sumf (fun j => get v j * get w j) (seq 0 n).

  (** The free-free block of the tangent is symmetric. *)
  Definition free_block_symmetric (pb : problem K Inp FInp) (bc : dirichlet K) (sol : list K) : Prop :=
    forall i j, i < pr_n pb -> j < pr_n pb -> ~ In i (bc_rows bc) -> ~ In j (bc_rows bc) ->
      spec_jac pb sol i j = spec_jac pb sol j i.
End Spec.
Arguments eliminated {K} sym constrained A i j.
Arguments affine_kernel {K X} nd k.
Arguments dot {K} n v w.
