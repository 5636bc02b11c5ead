(** Iterative solution of the constrained linear systems: what an iterative solver may return when it stops early, the initial guesses
    it is given, and the Newton updates made from its answers.
    Sources: /repo/feax/solvers/common.py:23-81, 216-262, /repo/feax/solvers/linear.py:54-115, 387-417, /repo/feax/solvers/newton.py:955-1000. *)
From Verif Require Import Base Csr_Model Assembly_Model Dof_Model Bc_Model LinSolve_Model.
From Coq Require Import List Arith.
Import ListNotations.

Section Guess.
  Variable K : CRing.
  Local Open Scope ring_K.

  (** scalar times vector *)
  Definition vscale (a : K) (v : list K) : list K := map (cmul a) v.

  (** common.py:229-262: the search space of [jax.scipy.sparse.linalg.cg], [bicgstab] and [gmres] with operator [A], preconditioner [M]
      and first residual [r0], after any number of iterations and for any step lengths. The library's own loops are not modelled: every
      iterate they can produce is the initial guess plus an element of this space. *)
  Inductive search (n : nat) (A M : list K -> list K) (r0 : list K) : list K -> Prop :=
  | s_zero : search n A M r0 (zeros n)
  | s_start : search n A M r0 (M r0)
  | s_next v : search n A M r0 v -> search n A M r0 (M (A v))
  | s_comb a b v w : search n A M r0 v -> search n A M r0 w -> search n A M r0 (vadd (vscale a v) (vscale b w)).
  (** [x] may be returned by [solve(A, b, x0)] of common.py:229-262, converged or not. *)
  Definition iterate (n : nat) (A M : list K -> list K) (b x0 x : list K) : Prop :=
    exists d, search n A M (vsub b (A x0)) d /\ x = vadd x0 d.

  (** common.py:84-92 [create_jacobi_preconditioner]: the inverted shifted diagonal is the argument. *)
  Definition jacobi (dinv v : list K) : list K := map (fun i => get dinv i * get v i) (seq 0 (length v)).

  (** common.py:56-81 [create_x0_parametric] with [P_mat = None]. *)
  Definition x0_parametric (sol : list K) (bc : dirichlet K) : list K :=
    let x1 := scatter_set (zeros (length sol)) (combine (bc_rows bc) (bc_vals bc)) in
    let x2 := scatter_set (zeros (length sol)) (map (fun r => (r, get sol r)) (bc_rows bc)) in
    vsub x1 x2.
  (** common.py:32-41, 68-74: the guess with a prolongation [P] (N rows, m columns), dense here. *)
  Definition pmul (N m : nat) (P : nat -> nat -> K) (v : list K) : list K :=
    map (fun i => sumf (fun j => P i j * get v j) (seq 0 m)) (seq 0 N).
  (** [P.T @ v] *)
  Definition ptmul (N m : nat) (P : nat -> nat -> K) (v : list K) : list K :=
    map (fun j => sumf (fun i => P i j * get v i) (seq 0 N)) (seq 0 m).
  Definition x0_reduced (N m : nat) (P : nat -> nat -> K) (bc : dirichlet K) (sol : list K) : list K :=
    let full := pmul N m P sol in
    ptmul N m P (vsub (scatter_set (zeros N) (combine (bc_rows bc) (bc_vals bc)))
                      (scatter_set (zeros N) (map (fun r => (r, get full r)) (bc_rows bc)))).

  Section WithProblem.
    Variables (Inp FInp : Type) (pb : problem K Inp FInp) (bs0 : nat) (sym : bool) (M : list K -> list K).

    (** newton.py:955-970 [one_step] (and linear.py:387-417, with [alpha = 1]): residual and operator at [sol], the BC-aware guess, any
        answer of the iterative solver, and the update with the accepted step length [alpha]. *)
    Definition step_from (bc : dirichlet K) (sol : list K) (alpha : K) (sol' : list K) : Prop :=
      exists du, iterate (pr_n pb) (snd (matfree_res_J pb bs0 sym sol bc)) M
                   (vneg (fst (matfree_res_J pb bs0 sym sol bc))) (x0_parametric sol bc) du /\
                 sol' = vadd sol (vscale alpha du).
    (** newton.py:985-1000: the loop, for any number of passes; [alphas] lists the accepted step lengths. *)
    Inductive passes (bc : dirichlet K) : list K -> list K -> list K -> Prop :=
    | p_done sol : passes bc sol [] sol
    | p_step sol a sol1 l sol2 : step_from bc sol a sol1 -> passes bc sol1 l sol2 -> passes bc sol (a :: l) sol2.
  End WithProblem.
End Guess.
Arguments vscale {K}. Arguments search {K}. Arguments iterate {K}. Arguments jacobi {K}. Arguments x0_parametric {K}.
Arguments pmul {K}. Arguments ptmul {K}. Arguments x0_reduced {K}. Arguments step_from {K Inp FInp}. Arguments passes {K Inp FInp}.
