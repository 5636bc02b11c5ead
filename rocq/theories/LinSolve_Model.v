(** Model of the single linear solve and of the adjoint solves.
    Sources: /repo/feax/solvers/linear.py, /repo/feax/solvers/common.py:23-53,
    /repo/feax/solvers/newton.py:1033-1101, /repo/feax/assembler.py:1747-1799.

    The linear solver itself is not modelled: it enters as an arbitrary function
    [solve] (of a CSR matrix) or [ksolve] (of a matrix-free product), and theorems
    assume that the one call in question returned an exact solution. *)
From Verif Require Import Base Csr_Model Assembly_Model Dof_Model Bc_Model.
Set Implicit Arguments.

Section LinSolve.
  Variable K : CRing.
  Local Open Scope ring_K.

  Definition vneg (v : list K) : list K := map copp v.

  (** common.py:23-53 [create_x0] with [P_mat = None]:
      [zeros.at[rows].set(vals) - zeros.at[rows].set(sol[rows])]. *)
  Definition vsub (a b : list K) : list K := vadd a (vneg b).
  Definition create_x0 (bc : dirichlet K) (sol : list K) : list K :=
    let z := zeros (length sol) in
    vsub (scatter_set z (combine (bc_rows bc) (bc_vals bc)))
         (scatter_set z (map (fun r => (r, get sol r)) (bc_rows bc))).

  (** linear.py:94-99: the adjoint's initial guess, [b] on the BC rows. *)
  Definition adjoint_x0 (bc : dirichlet K) (b : list K) : list K :=
    scatter_set (zeros (length b)) (map (fun r => (r, get b r)) (bc_rows bc)).

  Section WithProblem.
    Variables (Inp FInp : Type) (pb : problem K Inp FInp) (bs0 : nat).

    (** ** Reverse mode *)

    (** The transposed row-major block. *)
    Definition transpose_block (nd : nat) (m : list K) : list K :=
      map (fun k => get m ((k mod nd) * nd + k / nd)%nat) (seq 0 (nd * nd)%nat).

    (** Reverse mode through [get_res]: the transpose of the scatter-add is the
        gather at the same DOFs, the transpose of the gather is the scatter-add, and
        the kernel contributes its transposed tangent block (AD contract). The
        pullback is therefore the forward tangent product of the problem whose
        blocks are transposed. *)
    Definition transpose_problem : problem K Inp FInp :=
      {| pr_n := pr_n pb; pr_view := pr_view pb; pr_nd := pr_nd pb; pr_cells := pr_cells pb;
         pr_inp := pr_inp pb; pr_inp0 := pr_inp0 pb;
         pr_kern := fun u x => (fst (pr_kern pb u x), transpose_block (pr_nd pb) (snd (pr_kern pb u x)));
         pr_bnd := map (fun b => {| b_cells := b_cells b; b_inp := b_inp b; b_inp0 := b_inp0 b;
                                    b_kern := fun u x => (fst (b_kern b u x),
                                        transpose_block (pr_nd pb) (snd (b_kern b u x))) |}) (pr_bnd pb);
         pr_surface_jac_zero := pr_surface_jac_zero pb |}.

    (** assembler.py:1781-1799 [create_matfree_Kt_parametric]. *)
    Definition residual_vjp (sol w : list K) : list K := residual_jvp transpose_problem bs0 sol w.

    (** newton.py:1051-1053, linear.py:455-458: [jax.vjp] of the BC-applied
        residual with respect to the solution. [.at[rows].set(sol[rows] - ...)]
        drops the residual's cotangent on the BC rows and sends the cotangent of the
        rows straight to [sol[rows]]. *)
    Definition res_bc_vjp (sol : list K) (bc : dirichlet K) (w : list K) : list K :=
      scatter_add (residual_vjp sol (scatter_set w (map (fun r => (r, 0)) (bc_rows bc))))
                  (map (fun r => (r, get w r)) (bc_rows bc)).

    Variable symmetric : bool.
    Variable solve : csr K -> list K -> list K.
    Variable ksolve : (list K -> list K) -> list K -> list K.

    (** ** Forward (linear.py:387-417) *)

    (** The direct branch: [b = -res], [sol = guess + solve(J, b)]. *)
    Definition linear_direct (guess : list K) (bc : dirichlet K) : list K :=
      let res := apply_res bc (get_res pb bs0 guess) guess 1 in
      vadd guess (solve (J_bc pb bs0 symmetric guess bc) (vneg res)).

    (** The Krylov branch: matrix-free. *)
    Definition linear_krylov (guess : list K) (bc : dirichlet K) : list K :=
      let RJ := matfree_res_J pb bs0 symmetric guess bc in
      vadd guess (ksolve (snd RJ) (vneg (fst RJ))).

    (** linear.py:492-497 [solver_wrapper]: the default guess comes from the BC
        captured at construction, also when the call overrides the BC. *)
    Definition linear_solver (direct : bool) (bc0 : dirichlet K)
               (guess : option (list K)) (bc : option (dirichlet K)) : list K :=
      let eff := match bc with Some b => b | None => bc0 end in
      let ig := match guess with Some g => g | None => zero_like_initial_guess (pr_n pb) bc0 end in
      if direct then linear_direct ig eff else linear_krylov ig eff.

    (** ** Adjoint *)

    (** linear.py:437-449, newton.py:1039-1046: the direct adjoint operator, the
        transposed CSR from the compiled maps; a triangular view is not transposed. *)
    Definition adjoint_matrix (sol : list K) (bc : dirichlet K) : csr K :=
      let J := J_bc pb bs0 symmetric sol bc in
      let P := pr_pat pb in
      match pr_view pb with
      | FULL => transpose_with_maps J (p_T_perm P) (p_T_indptr P) (p_T_indices P)
      | _ => J
      end.

    (** linear.py:450-458, newton.py:1047-1053: the matrix-free adjoint operator. *)
    Definition adjoint_operator (sol : list K) (bc : dirichlet K) : list K -> list K :=
      if symmetric then snd (matfree_res_J pb bs0 symmetric sol bc)
      else res_bc_vjp sol bc.

    (** linear.py:426-481 [f_bwd]: the multiplier, no correction. *)
    Definition linear_multiplier (direct : bool) (sol : list K) (bc : dirichlet K) (v : list K) : list K :=
      if direct then solve (adjoint_matrix sol bc) v else ksolve (adjoint_operator sol bc) v.

    (** newton.py:1033-1075 [_adjoint]: with symmetric elimination the BC rows are
        corrected with the un-eliminated transposed Jacobian (newton.py:200-216 is
        the same correction in the host-loop solver). *)
    Definition newton_multiplier (direct : bool) (sol : list K) (bc : dirichlet K) (v : list K) : list K :=
      let a := linear_multiplier direct sol bc v in
      if symmetric then
        let lf := scatter_set a (map (fun r => (r, 0)) (bc_rows bc)) in
        let ktw := if direct then rmatvec (get_jacobian pb bs0 sol) lf else residual_vjp sol lf in
        scatter_set a (map (fun r => (r, get v r - get ktw r)) (bc_rows bc))
      else a.

    (** newton.py:1086-1098, linear.py:467-481: the cotangents, [-vjp(res_bc)(lambda)].
        Paired with a parameter direction whose derivative of the physical residual
        is [dR]: the BC rows of the BC-applied residual do not depend on the
        parameters. *)
    Definition param_cotangent (bc : dirichlet K) (lam dR : list K) : K :=
      copp (sumf (fun i => get lam i * get (scatter_set dR (map (fun r => (r, 0)) (bc_rows bc))) i)
                 (seq 0 (pr_n pb))).
    (** With respect to [bc_vals]: row r of the BC-applied residual is [sol - val],
        so the cotangent is [-(lambda_r * (-1))]. *)
    Definition vals_cotangent (bc : dirichlet K) (lam : list K) : list K :=
      map (fun r => copp (get lam r * copp 1)) (bc_rows bc).
  End WithProblem.
End LinSolve.
Arguments vneg {K} v. Arguments vsub {K} a b.
