(** Model of the element kernels and of the geometry they integrate over.
    Sources: /repo/feax/assembler.py, /repo/feax/fe.py, /repo/feax/problem.py.
    Arrays are functions of their indices here; the arguments and results of the
    user's physics functions are lists (nested, row-major). *)
From Verif Require Import Base Csr_Model Assembly_Model Dof_Model.

Section Kernel.
  Variable K : CRing.
  Local Open Scope ring_K.

  (** [sum over i < n] and the array of the values [f 0 .. f (n-1)]. *)
  Definition Sum (n : nat) (f : nat -> K) : K := sumf f (seq 0 n).
  Definition tab {A} (n : nat) (f : nat -> A) : list A := map f (seq 0 n).
  Definition get2 (m : list (list K)) (i j : nat) : K := get (nth i m []) j.
  Definition get3 (m : list (list (list K))) (i j k : nat) : K := get2 (nth i m []) j k.

  (** fe.py:60-85: one finite element variable. Reference data depend on the quadrature
      point [q], the local node [n] and the reference axis. Faces carry their own tables
      (fe.py:74-75). *)
  Record fe := {
    fe_vec : nat;
    fe_nn : nat;                                   (* num_nodes per element *)
    fe_points : list (list K);
    fe_cells : list (list nat);
    fe_sv : nat -> nat -> K;                       (* shape_vals[q, n] *)
    fe_sgref : nat -> nat -> nat -> K;             (* shape_grads_ref[q, n, e] *)
    fe_w : nat -> K;                               (* quad_weights[q] *)
    fe_fsv : nat -> nat -> nat -> K;               (* face_shape_vals[f, q, n] *)
    fe_fsgref : nat -> nat -> nat -> nat -> K;     (* face_shape_grads_ref[f, q, n, e] *)
    fe_fnormal : nat -> nat -> K;                  (* face_normals[f, e] *)
    fe_fw : nat -> nat -> K                        (* face_quad_weights[f, q] *)
  }.

  (** problem.py: [dim], [num_quads] and [num_face_quads] (shared by all variables,
      problem.py:254-267); linear algebra as oracles on dim x dim matrices. *)
  Variables (dim nq nfq : nat).
  Variable det : list (list K) -> K.
  Variable inv : list (list K) -> list (list K).
  Variable norm : list K -> K.

  (** ** Geometry *)

  Definition node_of (f : fe) (c n : nat) : nat := nth n (nth c (fe_cells f) []) 0%nat.
  (** fe.py:117: [physical_coos[c, n, i]]. *)
  Definition coo (f : fe) (c n i : nat) : K := get2 (fe_points f) (node_of f c n) i.
  (** fe.py:119-120: [jacobian_dx_deta[i, e] = sum_n x_n[i] * dN_n/de]. *)
  Definition jac (f : fe) (c q : nat) : list (list K) :=
    tab dim (fun i => tab dim (fun e => Sum (fe_nn f) (fun n => coo f c n i * fe_sgref f q n e))).
  (** fe.py:122-126: [shape_grads_ref @ inv(jacobian)]. *)
  Definition shape_grad (f : fe) (c q n d : nat) : K :=
    Sum dim (fun e => fe_sgref f q n e * get2 (inv (jac f c q)) e d).
  (** fe.py:121, 127. *)
  Definition JxW (f : fe) (c q : nat) : K := det (jac f c q) * fe_w f q.
  (** fe.py:88. *)
  Definition v_grad_JxW (f : fe) (c q n d : nat) : K := shape_grad f c q n d * JxW f c q.
  (** fe.py:214-228 [get_physical_quad_points]. *)
  Definition quad_point (f : fe) (c q : nat) : list K :=
    tab dim (fun i => Sum (fe_nn f) (fun n => fe_sv f q n * coo f c n i)).

  (** fe.py:170-212 [get_face_shape_grads] for face [g] of cell [c]. *)
  Definition face_jac (f : fe) (c g q : nat) : list (list K) :=
    tab dim (fun i => tab dim (fun e => Sum (fe_nn f) (fun n => coo f c n i * fe_fsgref f g q n e))).
  Definition face_shape_grad (f : fe) (c g q n d : nat) : K :=
    Sum dim (fun e => fe_fsgref f g q n e * get2 (inv (face_jac f c g q)) e d).
  Definition nanson (f : fe) (c g q : nat) : K :=
    norm (tab dim (fun d => Sum dim (fun e => fe_fnormal f g e * get2 (inv (face_jac f c g q)) e d)))
    * det (face_jac f c g q) * fe_fw f g q.
  (** fe.py:230-254 [get_physical_surface_quad_points]. *)
  Definition face_point (f : fe) (c g q : nat) : list K :=
    tab dim (fun i => Sum (fe_nn f) (fun n => fe_fsv f g q n * coo f c n i)).

  (** [np.concatenate([... for fe in fes], axis=nodes)] read at concatenated node [m]
      (problem.py:273, 275, 301, 305). *)
  Fixpoint cat (fes : list fe) (g : fe -> nat -> K) (m : nat) : K :=
    match fes with
    | [] => 0
    | f :: t => if m <? fe_nn f then g f m else cat t g (m - fe_nn f)%nat
    end.

  (** ** Kernel inputs *)

  (** Types of the volume and surface variables at one quadrature point (what
      [interpolate_vars] and the vmap slice deliver; Params_Model models that). *)
  Variables (V W : Type).

  (** assembler.py:960-961: the per-cell slice of the volume inputs. *)
  Record vinp := {
    vi_x : nat -> list K;
    vi_sg : nat -> nat -> nat -> K;
    vi_jxw : nat -> nat -> K;
    vi_vg : nat -> nat -> nat -> K;
    vi_vars : nat -> V
  }.
  (** assembler.py:1021-1023: the per-face slice of the surface inputs. *)
  Record finp := {
    fi_x : nat -> list K;
    fi_sv : nat -> nat -> K;
    fi_sg : nat -> nat -> nat -> K;
    fi_nanson : nat -> nat -> K;
    fi_vars : nat -> W
  }.
  Definition fe0 : fe := {| fe_vec := 0; fe_nn := 0; fe_points := []; fe_cells := []; fe_sv := fun _ _ => 0;
    fe_sgref := fun _ _ _ => 0; fe_w := fun _ => 0; fe_fsv := fun _ _ _ => 0; fe_fsgref := fun _ _ _ _ => 0;
    fe_fnormal := fun _ _ => 0; fe_fw := fun _ _ => 0 |}.
  Definition fe_at (fes : list fe) (i : nat) : fe := nth i fes fe0.
  (** problem.py:269-278: geometry of cell [c] for all variables. *)
  Definition vinp_of (fes : list fe) (vars : nat -> nat -> V) (c : nat) : vinp :=
    {| vi_x := quad_point (fe_at fes 0) c;
       vi_sg := fun q m d => cat fes (fun f n => shape_grad f c q n d) m;
       vi_jxw := fun i q => JxW (fe_at fes i) c q;
       vi_vg := fun q m d => cat fes (fun f n => v_grad_JxW f c q n d) m;
       vi_vars := vars c |}.
  (** problem.py:284-311: geometry of one selected face [(cell, local face)]. *)
  Definition finp_of (fes : list fe) (vars : nat -> W) (cg : nat * nat) : finp :=
    {| fi_x := face_point (fe_at fes 0) (fst cg) (snd cg);
       fi_sv := fun q m => cat fes (fun f n => fe_fsv f (snd cg) q n) m;
       fi_sg := fun q m d => cat fes (fun f n => face_shape_grad f (fst cg) (snd cg) q n d) m;
       fi_nanson := fun i q => nanson (fe_at fes i) (fst cg) (snd cg) q;
       fi_vars := vars |}.

  (** ** Operator (assembler.py:106-314) *)

  (** problem.py:239-240 [unflatten_fn_dof]: where variable [i] starts in the flat
      element solution, and (assembler.py:545-547, 610-612) in the concatenated nodes. *)
  Definition local_off (fes : list fe) (i : nat) : nat :=
    sum_nat (firstn i (map (fun f => fe_nn f * fe_vec f)%nat fes)).
  Definition node_off (fes : list fe) (i : nat) : nat := sum_nat (firstn i (map fe_nn fes)).
  Definition num_local (fes : list fe) : nat := sum_nat (map (fun f => fe_nn f * fe_vec f)%nat fes).
  (** [cell_sol_list[i][n, k]]. *)
  Definition cell_sol (fes : list fe) (u : list K) (i n k : nat) : K :=
    get u (local_off fes i + n * fe_vec (fe_at fes i) + k).

  (** assembler.py:129-146 [eval]: all components at one quadrature point. *)
  Definition op_eval (f : fe) (sol : nat -> nat -> K) (sv : nat -> K) : list K :=
    tab (fe_vec f) (fun k => Sum (fe_nn f) (fun n => sol n k * sv n)).
  (** assembler.py:148-163 [grad]. *)
  Definition op_grad (f : fe) (sol : nat -> nat -> K) (sg : nat -> nat -> K) : list (list K) :=
    tab (fe_vec f) (fun k => tab dim (fun d => Sum (fe_nn f) (fun n => sol n k * sg n d))).
  (** assembler.py:272-293 [integrate_grad], entry (n, k). *)
  Definition integrate_grad (val : nat -> list (list K)) (vg : nat -> nat -> nat -> K) (n k : nat) : K :=
    Sum nq (fun q => Sum dim (fun d => get2 (val q) k d * vg q n d)).
  (** assembler.py:295-318 [integrate_val], entry (n, k), over [m] quadrature points. *)
  Definition integrate_val (m : nat) (val : nat -> list K) (w : nat -> K) (sv : nat -> nat -> K) (n k : nat) : K :=
    Sum m (fun q => get (val q) k * sv q n * w q).
  (** [ravel_pytree] of the (num_nodes, vec) array of one variable. *)
  Definition ravel (f : fe) (r : nat -> nat -> K) : list K :=
    flat_map (fun n => tab (fe_vec f) (fun k => r n k)) (seq 0 (fe_nn f)).

  (** ** Kernels *)

  (** The user's physics at one quadrature point. *)
  Definition weak_form := list (list K) -> list (list (list K)) -> list K -> V -> list (list K) * list (list (list K)).
  Definition surface_weak_form := list (list K) -> list K -> W -> list (list K).
  Definition tensor_map := list (list K) -> V -> list (list K).
  Definition mass_map := list K -> list K -> V -> list K.
  Definition surface_map := list K -> list K -> W -> list K.

  (** assembler.py:585-647 [_build_kernel_from_weak_form]. *)
  Definition weak_form_kernel (fes : list fe) (wf : weak_form) (u : list K) (x : vinp) : list K :=
    let nv := length fes in
    let vals q := tab nv (fun i => op_eval (fe_at fes i) (cell_sol fes u i) (fe_sv (fe_at fes i) q)) in
    let grads q := tab nv (fun i => op_grad (fe_at fes i) (cell_sol fes u i)
                                      (fun n d => vi_sg x q (node_off fes i + n) d)) in
    let out q := wf (vals q) (grads q) (vi_x x q) (vi_vars x q) in
    flat_map (fun i =>
      ravel (fe_at fes i) (fun n k =>
        integrate_val nq (fun q => nth i (fst (out q)) []) (vi_jxw x i) (fe_sv (fe_at fes i)) n k +
        integrate_grad (fun q => nth i (snd (out q)) []) (fun q n d => vi_vg x q (node_off fes i + n) d) n k))
      (seq 0 nv).

  (** assembler.py:523-582 [_build_surface_kernel_from_weak_form]. *)
  Definition surface_weak_form_kernel (fes : list fe) (sw : surface_weak_form) (u : list K) (x : finp) : list K :=
    let nv := length fes in
    let sv i q n := fi_sv x q (node_off fes i + n) in
    let vals q := tab nv (fun i => op_eval (fe_at fes i) (cell_sol fes u i) (sv i q)) in
    let out q := sw (vals q) (fi_x x q) (fi_vars x q) in
    flat_map (fun i =>
      ravel (fe_at fes i) (fun n k =>
        integrate_val nfq (fun q => nth i (out q) []) (fi_nanson x i) (sv i) n k))
      (seq 0 nv).

  (** assembler.py:406-450 [get_laplace_kernel] (single variable). *)
  Definition laplace_kernel (fes : list fe) (tm : tensor_map) (u : list K) (x : vinp) : list K :=
    let f := fe_at fes 0 in
    let phys q := tm (op_grad f (cell_sol fes u 0) (vi_sg x q)) (vi_vars x q) in
    ravel f (integrate_grad phys (vi_vg x)).
  (** assembler.py:453-494 [get_mass_kernel]. *)
  Definition mass_kernel (fes : list fe) (mm : mass_map) (u : list K) (x : vinp) : list K :=
    let f := fe_at fes 0 in
    let phys q := mm (op_eval f (cell_sol fes u 0) (fe_sv f q)) (vi_x x q) (vi_vars x q) in
    ravel f (integrate_val nq phys (vi_jxw x 0) (fe_sv f)).
  (** assembler.py:497-520 [get_surface_kernel]. *)
  Definition surface_kernel (fes : list fe) (sm : surface_map) (u : list K) (x : finp) : list K :=
    let f := fe_at fes 0 in
    let phys q := sm (op_eval f (cell_sol fes u 0) (fi_sv x q)) (fi_x x q) (fi_vars x q) in
    ravel f (integrate_val nfq phys (fi_nanson x 0) (fi_sv x)).

  (** What the user's Problem subclass defines ([None]: hook absent or returning None). *)
  Definition vkernel := list K -> vinp -> list K.
  Definition skernel := list K -> finp -> list K.
  Record physics := {
    ph_universal : option vkernel;
    ph_weak : option weak_form;
    ph_mass : option mass_map;
    ph_tensor : option tensor_map;
    ph_energy_grad : option tensor_map;            (* jax.grad(energy_density) *)
    ph_extra : option vkernel
  }.
  (** [base + extra] when both are arrays of the element shape. *)
  Definition add_kernel (a b : vkernel) : vkernel := fun u x => vadd (a u x) (b u x).
  Definition opt_add (a b : option vkernel) : option vkernel :=
    match a, b with
    | Some a, Some b => Some (add_kernel a b)
    | Some a, None => Some a
    | None, b => b
    end.
  (** assembler.py:650-732 [create_volume_kernel]. [None] is the ValueError for a
      multi-variable problem without physics. A single-variable problem that defines no
      volume term at all (the code then returns the scalar 0., not an element vector) is
      outside the model and is [None] too. *)
  Definition volume_kernel (fes : list fe) (ph : physics) : option vkernel :=
    let base :=
      match ph_universal ph with
      | Some k => Some k
      | None =>
        if 1 <? length fes then
          match ph_weak ph with Some wf => Some (weak_form_kernel fes wf) | None => None end
        else
          let tm := match ph_tensor ph with Some t => Some t | None => ph_energy_grad ph end in
          opt_add (option_map (mass_kernel fes) (ph_mass ph)) (option_map (laplace_kernel fes) tm)
      end in
    match ph_universal ph, ph_weak ph with
    | None, None => if 1 <? length fes then None else opt_add base (ph_extra ph)
    | _, _ => opt_add base (ph_extra ph)
    end.

  (** One boundary of the user's problem: which hooks exist for this surface index. *)
  Record bphysics := {
    bp_universal : option skernel;                 (* get_universal_kernels_surface()[i] *)
    bp_weak : option surface_weak_form;            (* get_surface_weak_forms()[i] *)
    bp_map : option surface_map                    (* get_surface_maps()[i] *)
  }.
  (** assembler.py:735-805 [create_surface_kernel]. [None] is the ValueError for
      [get_surface_maps] in a multi-variable problem. Where nothing is defined for the
      boundary the code returns zeros of another shape (a scalar 0. resp.
      [num_total_dofs_all_vars] zeros per face); as the hooks are lists indexed by the
      surface, such boundaries come last and the scatter reads only zeros from them, so the
      model returns zeros of the element shape. *)
  Definition surface_kernel_of (fes : list fe) (bp : bphysics) : option skernel :=
    let zero : skernel := fun _ _ => zeros (num_local fes) in
    if 1 <? length fes then
      match bp_universal bp with
      | Some k => Some k
      | None => match bp_weak bp with
                | Some sw => Some (surface_weak_form_kernel fes sw)
                | None => match bp_map bp with Some _ => None | None => Some zero end
                end
      end
    else
      match bp_map bp, bp_universal bp with
      | Some sm, Some k => Some (fun u x => vadd (surface_kernel fes sm u x) (k u x))
      | Some sm, None => Some (surface_kernel fes sm)
      | None, Some k => Some k
      | None, None => Some zero
      end.

  (** ** The compiled problem *)

  (** One boundary: selected faces [(cell, local face)] (problem.py:156), its physics and
      the surface variables of every face. *)
  Record bdata := { bd_inds : list (nat * nat); bd_ph : bphysics; bd_vars : list (nat -> W) }.
  (** (num_total_nodes, vec) of the variables (problem.py:242). *)
  Definition layout_of (fes : list fe) : layout := map (fun f => (length (fe_points f), fe_vec f)) fes.
  Definition cells_of (fes : list fe) (c : nat) : list (list nat) := map (fun f => nth c (fe_cells f) []) fes.
  Definition num_cells (fes : list fe) : nat := length (fe_cells (fe_at fes 0)).

  (** [split_and_compute_cell] / [compute_face] inputs and the index maps of problem.py
      as the problem record of Assembly_Model. [vj], [sj] are the element tangents (AD,
      abstract); [xv], [xs] are the padding rows. *)
  Definition build_boundary (fes : list fe) (sj : list K -> finp -> list K) (xs : finp) (b : bdata)
    : option (boundary K finp) :=
    match surface_kernel_of fes (bd_ph b) with
    | None => None
    | Some k => Some {| b_cells := map fst (bd_inds b);
                        b_inp := map (fun p => finp_of fes (snd p) (fst p)) (combine (bd_inds b) (bd_vars b));
                        b_inp0 := xs; b_kern := fun u x => (k u x, sj u x) |}
    end.
  Fixpoint all_opt {A} (l : list (option A)) : option (list A) :=
    match l with
    | [] => Some []
    | None :: _ => None
    | Some a :: t => match all_opt t with Some r => Some (a :: r) | None => None end
    end.
  Definition build (fes : list fe) (v : view) (ph : physics) (vars : nat -> nat -> V) (bnd : list bdata)
      (vj : list K -> vinp -> list K) (sj : list K -> finp -> list K) (xv : vinp) (xs : finp)
    : option (problem K vinp finp) :=
    match volume_kernel fes ph, all_opt (map (build_boundary fes sj xs) bnd) with
    | Some k, Some bs =>
      Some {| pr_n := total_dofs (layout_of fes); pr_view := v; pr_nd := num_local fes;
              pr_cells := tab (num_cells fes) (fun c => cell_dofs (layout_of fes) (cells_of fes c));
              pr_inp := tab (num_cells fes) (vinp_of fes vars); pr_inp0 := xv;
              pr_kern := fun u x => (k u x, vj u x); pr_bnd := bs; pr_surface_jac_zero := false |}
    | _, _ => None
    end.

  (** ** Energy (assembler.py:1866-1961 [create_energy_fn], single variable) *)
  Definition energy (fes : list fe) (psi : list (list K) -> V -> K) (vars : nat -> nat -> V) (u : list K) : K :=
    let f := fe_at fes 0 in
    Sum (num_cells fes) (fun c => Sum nq (fun q =>
      psi (op_grad f (fun n k => get u (node_of f c n * fe_vec f + k)) (shape_grad f c q)) (vars c q) * JxW f c q)).
End Kernel.
Arguments Sum {K}. Arguments get2 {K}. Arguments get3 {K}.
Arguments fe_vec {K}. Arguments fe_nn {K}. Arguments fe_points {K}. Arguments fe_cells {K}. Arguments fe_sv {K}.
Arguments fe_sgref {K}. Arguments fe_w {K}. Arguments fe_fsv {K}. Arguments fe_fsgref {K}. Arguments fe_fnormal {K}.
Arguments fe_fw {K}. Arguments node_of {K}. Arguments coo {K}. Arguments jac {K}. Arguments shape_grad {K}.
Arguments JxW {K}. Arguments v_grad_JxW {K}. Arguments quad_point {K}. Arguments face_jac {K}.
Arguments face_shape_grad {K}. Arguments nanson {K}. Arguments face_point {K}. Arguments cat {K}.
Arguments vi_x {K V}. Arguments vi_sg {K V}. Arguments vi_jxw {K V}. Arguments vi_vg {K V}. Arguments vi_vars {K V}.
Arguments fi_x {K W}. Arguments fi_sv {K W}. Arguments fi_sg {K W}. Arguments fi_nanson {K W}. Arguments fi_vars {K W}.
Arguments fe_at {K}. Arguments vinp_of {K} dim det inv {V}. Arguments finp_of {K} dim det inv norm {W}.
Arguments local_off {K}. Arguments node_off {K}. Arguments num_local {K}. Arguments cell_sol {K}.
Arguments op_eval {K}. Arguments op_grad {K}. Arguments integrate_grad {K}. Arguments integrate_val {K}. Arguments ravel {K}.
Arguments weak_form_kernel {K} dim nq {V}. Arguments surface_weak_form_kernel {K} nfq {W}.
Arguments laplace_kernel {K} dim nq {V}. Arguments mass_kernel {K} nq {V}. Arguments surface_kernel {K} nfq {W}.
Arguments ph_universal {K V}. Arguments ph_weak {K V}. Arguments ph_mass {K V}. Arguments ph_tensor {K V}.
Arguments ph_energy_grad {K V}. Arguments ph_extra {K V}.
Arguments add_kernel {K V}. Arguments opt_add {K V}. Arguments volume_kernel {K} dim nq {V}.
Arguments bp_universal {K W}. Arguments bp_weak {K W}. Arguments bp_map {K W}.
Arguments surface_kernel_of {K} nfq {W}.
Arguments bd_inds {K W}. Arguments bd_ph {K W}. Arguments bd_vars {K W}.
Arguments layout_of {K}. Arguments cells_of {K}. Arguments num_cells {K}.
Arguments build_boundary {K} dim nfq det inv norm {W}. Arguments build {K} dim nq nfq det inv norm {V W}.
Arguments energy {K} dim nq det inv {V}.
