(** Model of the detection of load-independent surface tangents and of the flag it
    leaves on the Problem.
    Source: /repo/feax/assembler.py:1321-1359, /repo/feax/solvers/linear.py:313-322. *)
From Verif Require Import Base Csr_Model Assembly_Model.
From Coq Require Import List Arith Bool.
Import ListNotations.

Section Skip.
  Variable K : CRing.
  Variables (Inp FInp : Type).
  (** [float(x) != 0.0] negated, on array entries. *)
  Variable is_zero : K -> bool.
  (** The two probe states [linspace(0.13, 1.0, n)] and [linspace(-0.9, 0.41, n)]. *)
  Variables (probe1 probe2 : list K).
  Variable bs0 : nat.

  (** TracedParams as the assembler uses them: the per-cell kernel inputs and, per
      boundary, the per-face kernel inputs. *)
  Record params := { q_vol : list Inp; q_surf : list (list FInp) }.

  Definition set_binp (b : boundary K FInp) (x : list FInp) : boundary K FInp :=
    @Build_boundary K FInp (b_cells b) x (b_inp0 b) (b_kern b).

  (** The problem evaluated with the given parameters. *)
  Definition with_params (pb : problem K Inp FInp) (q : params) : problem K Inp FInp :=
    @Build_problem K Inp FInp (pr_n pb) (pr_view pb) (pr_nd pb) (pr_cells pb)
      (q_vol q) (pr_inp0 pb) (pr_kern pb)
      (map (fun p => set_binp (fst p) (snd p)) (combine (pr_bnd pb) (q_surf q)))
      (pr_surface_jac_zero pb).

  (** [problem._surface_jac_zero = flag]. *)
  Definition with_flag (pb : problem K Inp FInp) (flag : bool) : problem K Inp FInp :=
    @Build_problem K Inp FInp (pr_n pb) (pr_view pb) (pr_nd pb) (pr_cells pb)
      (pr_inp pb) (pr_inp0 pb) (pr_kern pb) (pr_bnd pb) flag.

  (** assembler.py:1352-1355: [max(abs(j)) != 0.0] for one boundary's tangents; the
      maximum of an empty array raises, which counts as "not zero". *)
  Definition all_zero (j : list (list K * list K)) : bool :=
    let flat := concat (map snd j) in
    match flat with [] => false | _ => forallb is_zero flat end.

  (** assembler.py:1321-1359 [detect_zero_surface_jacobian].  The kernels of the
      model do not raise; the code turns an exception into False. *)
  Definition detect (pb : problem K Inp FInp) : bool :=
    match pr_bnd pb with
    | [] => false
    | _ => forallb (fun s => forallb all_zero (compute_face pb bs0 s)) [probe1; probe2]
    end.

  (** One call of create_linear_solver on the shared problem: whether a direct
      solver is on either path, the traced_params argument, and whether
      FEAX_SKIP_ZERO_SURFACE_JAC leaves detection on (linear.py:319-322). *)
  Record creation := { k_direct : bool; k_params : option params; k_env : bool }.

  Definition create_flag (pb : problem K Inp FInp) (flag : bool) (c : creation) : bool :=
    match k_params c with
    | Some q => if k_direct c && k_env c then detect (with_params pb q) else flag
    | None => flag
    end.

  (** [getattr(problem, '_surface_jac_zero', False)] after a list of creations. *)
  Definition flag_after (pb : problem K Inp FInp) (cs : list creation) : bool :=
    fold_left (create_flag pb) cs false.

  (** The tangent a solver on this problem assembles after those creations. *)
  Definition tangent_after (pb : problem K Inp FInp) (cs : list creation) (q : params)
             (sol : list K) : csr K :=
    get_jacobian (with_flag (with_params pb q) (flag_after pb cs)) bs0 sol.
End Skip.
Arguments q_vol {Inp FInp}. Arguments q_surf {Inp FInp}.
Arguments Build_params {Inp FInp}.
Arguments k_direct {Inp FInp}. Arguments k_params {Inp FInp}. Arguments k_env {Inp FInp}.
Arguments Build_creation {Inp FInp}.
