(** Model of Newton solves with an extra residual term.
    Source: /repo/feax/solvers/newton.py:394-547 (assembled, direct solvers), 608-795 (hybrid
    matrix-free, Krylov solvers), 127-243 (their common backward pass).

    The extra residual is an arbitrary function; its forward and reverse derivatives (jax.jvp, jax.vjp)
    are the products with one tangent matrix (AD contract). The host loops are those of C18. *)
From Verif Require Import Base Csr_Model Assembly_Model Dof_Model Bc_Model LinSolve_Model Merge_Model Merge_Props.

Section Extra.
  Variable K : CRing.
  Local Open Scope ring_K.
  Variables (Inp FInp : Type) (pb : problem K Inp FInp) (bs0 : nat) (symmetric : bool).
  (** The constrained rows captured at construction ([bc_rows = bc.bc_rows]). *)
  Variable rows : list nat.
  (** [extra_residual_fn] and its tangent: entry (i, j) is the derivative of component i along DOF j. *)
  Variable extra : list K -> list K.
  Variable etan : list K -> nat -> nat -> K.
  Variable solve : csr K -> list K -> list K.
  Variable ksolve : (list K -> list K) -> list K -> list K.

  (** [.at[rows].set(0.0)]. *)
  Definition zero_at (rs : list nat) (v : list K) : list K := scatter_set v (map (fun r => (r, 0)) rs).

  (** newton.py:424-431 and 625-638 [extra_res_bc]: rows zeroed. [stop_gradient] changes no value. *)
  Definition extra_res_bc (sol : list K) : list K := zero_at rows (extra sol).
  (** jax.jvp and jax.vjp of [extra_residual_fn]. *)
  Definition extra_jvp (sol v : list K) : list K :=
    map (fun i => sumf (fun j => etan sol i j * get v j) (seq 0 (pr_n pb))) (seq 0 (pr_n pb)).
  Definition extra_vjp (sol w : list K) : list K :=
    map (fun j => sumf (fun i => etan sol i j * get w i) (seq 0 (pr_n pb))) (seq 0 (pr_n pb)).
  (** jax.jvp of [extra_res_bc]: under symmetric elimination the tangent entering through the constrained
      DOFs is dropped by [stop_gradient]. *)
  Definition extra_res_bc_jvp (sol v : list K) : list K :=
    zero_at rows (extra_jvp sol (if symmetric then zero_at rows v else v)).
  Definition extra_res_bc_vjp (sol w : list K) : list K :=
    let z := extra_vjp sol (zero_at rows w) in if symmetric then zero_at rows z else z.
  (** :433-436 and 640-642 [extra_res_rows]: its pullback keeps the constrained columns. *)
  Definition extra_rows_vjp (sol w : list K) : list K := extra_vjp sol (zero_at rows w).

  (** :476-477, :681-683 the total residual. *)
  Definition total_res (sol : list K) (bc : dirichlet K) : list K :=
    vadd (apply_res bc (get_res pb bs0 sol) sol 1) (extra_res_bc sol).

  (** :439-440 [sparse_jacobian_fn(extra_res_bc, sol0)]: detected positions, and the values asdex
      decompresses at a solution. *)
  Variables (prow pcol : list nat) (pval : list K -> list K).
  Definition jac_extra (sol : list K) : option (csr K) := csr_producer (pr_n pb) (pr_n pb) prow pcol (pval sol).

  (** :443-465 [J_merged_param] and [J_merged_T_param]. The patterns do not depend on the solution, so the
      code merges them once; here they are merged at every call. [None]: an assertion of the merge. *)
  Definition J_merged (sol : list K) (bc : dirichlet K) : option (csr K * csr K) :=
    let A := J_bc pb bs0 symmetric sol bc in
    match jac_extra sol with
    | None => None
    | Some E =>
        match merge_csr_patterns (pat_of A) (pat_of E) with
        | None => None
        | Some m => let d := merged_data m (m_data A) (m_data E) (length (m_indices E)) in
                    Some (merged_csr m d, merged_T m d)
        end
    end.
  (** :497-498 and 708-734 the two Newton directions. *)
  Definition direction_direct (sol : list K) (bc : dirichlet K) : option (list K) :=
    option_map (fun JT => solve (fst JT) (vneg (total_res sol bc))) (J_merged sol bc).
  Definition hybrid_matvec (sol : list K) (bc : dirichlet K) (v : list K) : list K :=
    vadd (matvec (J_bc pb bs0 symmetric sol bc) v) (extra_res_bc_jvp sol v).
  Definition direction_hybrid (sol : list K) (bc : dirichlet K) : list K :=
    ksolve (hybrid_matvec sol bc) (vneg (total_res sol bc)).

  (** :155-172 the hybrid adjoint operator. *)
  Definition adjoint_matvec (sol : list K) (bc : dirichlet K) (w : list K) : list K :=
    vadd (rmatvec (J_bc pb bs0 symmetric sol bc) w) (extra_res_bc_vjp sol w).
  (** :142-216 the multiplier: assembled transposed operator for a direct adjoint, matrix-free otherwise;
      under symmetric elimination the constrained rows are corrected with both couplings. *)
  Definition raw_multiplier (direct : bool) (sol : list K) (bc : dirichlet K) (v : list K) : option (list K) :=
    if direct then option_map (fun JT => solve (snd JT) v) (J_merged sol bc)
    else Some (ksolve (adjoint_matvec sol bc) v).
  Definition correct (sol : list K) (bc : dirichlet K) (v a : list K) : list K :=
    if symmetric then
      let lf := zero_at (bc_rows bc) a in
      let c := vadd (rmatvec (get_jacobian pb bs0 sol) lf) (extra_rows_vjp sol lf) in
      scatter_set a (map (fun r => (r, get v r - get c r)) (bc_rows bc))
    else a.
  Definition extra_multiplier (direct : bool) (sol : list K) (bc : dirichlet K) (v : list K) : option (list K) :=
    option_map (correct sol bc v) (raw_multiplier direct sol bc v).
End Extra.
