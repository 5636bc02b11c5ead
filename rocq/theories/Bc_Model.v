(** Model of Dirichlet boundary conditions.
    Sources: /repo/feax/DCboundary.py, /repo/feax/assembler.py:1670-1778,
    /repo/feax/utils.py:464-499. *)
From Coq Require Import String Ascii.
From Verif Require Import Base Csr_Model Assembly_Model Dof_Model.
Local Open Scope list_scope.
Local Open Scope nat_scope.
Set Implicit Arguments.

(** ** Component names (DCboundary.py:291-318, __post_init__) *)

(** [str.lower()] on ASCII letters. *)
Definition lower_ascii (c : ascii) : ascii :=
  let n := nat_of_ascii c in
  if (65 <=? n) && (n <=? 90) then ascii_of_nat (n + 32) else c.
Fixpoint lower (s : string) : string :=
  match s with
  | EmptyString => EmptyString
  | String c t => String (lower_ascii c) (lower t)
  end.

(** What the user passes: a string or a Python int. *)
Inductive comp_arg := CStr (s : string) | CInt (z : Z).
(** What the spec holds afterwards: one component, or all of them. *)
Inductive component := CAll | COne (c : nat).

(** DCboundary.py:303-314. A numpy integer is neither [str] nor [int] in Python and
    is kept unvalidated; it is not modelled. *)
Definition normalise_component (a : comp_arg) : res component :=
  match a with
  | CStr s =>
      let t := lower s in
      if String.eqb t "x"%string then Ok (COne 0)
      else if String.eqb t "y"%string then Ok (COne 1)
      else if String.eqb t "z"%string then Ok (COne 2)
      else if String.eqb t "all"%string then Ok CAll
      else ValueError
  | CInt z => if (z <? 0)%Z then ValueError else Ok (COne (Z.to_nat z))
  end.

Section Bc.
  Variable K : CRing.
  Local Open Scope ring_K.
  Variable Pt : Type.          (* mesh points *)

  (** A location function by its number of arguments (DCboundary.py:444-451). *)
  Inductive location := Loc1 (f : Pt -> bool) | Loc2 (f : Pt -> nat -> bool) | LocBad.

  (** DCboundary.py:261-318 DirichletBCSpec after __post_init__ (constant values
      have become functions). *)
  Record spec := {
    s_loc : location;
    s_comp : component;
    s_val : Pt -> K;
    s_var : option nat
  }.

  (** One finite element variable: component count and mesh points. *)
  Record fe := { fe_vec : nat; fe_points : list Pt }.

  (** DCboundary.py:25-34. *)
  Record dirichlet := {
    bc_rows : list nat;
    bc_mask : list bool;
    bc_vals : list K;
    bc_total : nat
  }.

  (** DCboundary.py:36-58 [replace_vals]. *)
  Definition replace_vals (bc : dirichlet) (vals : list K) : dirichlet :=
    {| bc_rows := bc_rows bc; bc_mask := bc_mask bc; bc_vals := vals; bc_total := bc_total bc |}.

  Definition fe_layout (fes : list fe) : layout := map (fun f => (length (fe_points f), fe_vec f)) fes.

  (** DCboundary.py:443-456: nodes where the location function holds, or an
      exception for a location function of wrong arity. *)
  Definition node_inds (l : location) (pts : list Pt) : res (list nat) :=
    match l with
    | Loc1 f => Ok (flat_map (fun p : nat * Pt => if f (snd p) then [fst p] else [])
                             (combine (seq 0 (length pts)) pts))
    | Loc2 f => Ok (flat_map (fun p : nat * Pt => if f (snd p) (fst p) then [fst p] else [])
                             (combine (seq 0 (length pts)) pts))
    | LocBad => ValueError
    end.

  (** DCboundary.py:432-441: the components a spec selects for this variable
      ([None]: the spec is skipped). *)
  Definition spec_components (ind : nat) (f : fe) (s : spec) : list nat :=
    if match s_var s with Some k => negb (k =? ind) | None => false end then []
    else match s_comp s with
         | CAll => seq 0 (fe_vec f)
         | COne c => if fe_vec f <=? c then [] else [c]
         end.

  (** DCboundary.py:443-469: the (row, value) pairs of one (variable, spec, component). *)
  Definition one_block (d : Pt) (off : nat) (f : fe) (s : spec) (c : nat) : res (list (nat * K)) :=
    match node_inds (s_loc s) (fe_points f) with
    | Ok nodes => Ok (map (fun a => ((a * fe_vec f + c + off)%nat, s_val s (nth a (fe_points f) d))) nodes)
    | IndexError => IndexError | ValueError => ValueError | TypeError => TypeError
    end.

  (** Sequential execution of blocks that may raise. *)
  Fixpoint collect {A B} (g : A -> res (list B)) (l : list A) : res (list B) :=
    match l with
    | [] => Ok []
    | x :: t =>
        match g x with
        | Ok r => match collect g t with
                  | Ok rs => Ok (r ++ rs)
                  | IndexError => IndexError | ValueError => ValueError | TypeError => TypeError
                  end
        | IndexError => IndexError | ValueError => ValueError | TypeError => TypeError
        end
    end.

  (** DCboundary.py:425-469: the loop over variables, specs and components. *)
  Definition bc_blocks (d : Pt) (fes : list fe) (specs : list spec) : res (list (nat * K)) :=
    let offs := dof_offsets (fe_layout fes) in
    collect (fun p : nat * fe =>
      collect (fun s =>
        collect (one_block d (nth (fst p) offs 0%nat) (snd p) s)
                (spec_components (fst p) (snd p) s))
        specs)
      (combine (seq 0 (length fes)) fes).

  (** DCboundary.py:471-483: stable argsort, then [np.unique(return_index=True)],
      i.e. keep the first of each run of equal rows. *)
  Definition unique_first (l : list (nat * K)) : list (nat * K) :=
    let sorted := gather (0%nat, 0) l (argsort (map fst l)) in
    mask_select sorted (is_new (map fst sorted)).

  (** DCboundary.py:390-503 [create_bc]. *)
  Definition create_bc (d : Pt) (fes : list fe) (specs : list spec) : res dirichlet :=
    let n := total_dofs (fe_layout fes) in
    match specs with
    | [] => Ok {| bc_rows := []; bc_mask := repeat false n; bc_vals := []; bc_total := n |}
    | _ =>
        match bc_blocks d fes specs with
        | Ok blocks =>
            let u := unique_first blocks in
            Ok {| bc_rows := map fst u;
                  bc_mask := scatter_set (repeat false n) (map (fun r => (r, true)) (map fst u));
                  bc_vals := map snd u;
                  bc_total := n |}
        | IndexError => IndexError | ValueError => ValueError | TypeError => TypeError
        end
    end.

  (** ** Application *)

  (** A negative index wraps once in JAX: the sentinel -1 in [csr_diag_slots]
      addresses the last slot. *)
  Definition diag_index (nse : nat) (o : option nat) : nat :=
    match o with Some s => s | None => (nse - 1)%nat end.

  (** DCboundary.py:143-200 [apply_boundary_to_J_csr]. *)
  Definition apply_J (bc : dirichlet) (P : pattern) (symmetric : bool) (data : list K) : list K :=
    let is_bc i := nth i (bc_mask bc) false in
    let zeroed :=
      map (fun s => if is_bc (nth s (p_rows P) 0%nat)
                       || (symmetric && is_bc (nth s (p_indices P) 0%nat))
                    then 0 else get data s)
          (seq 0 (length data)) in
    scatter_set zeroed
      (map (fun r => (diag_index (p_nse P) (nth r (p_diag P) None), 1)) (bc_rows bc)).

  (** DCboundary.py:203-252 [apply_boundary_to_res]. *)
  Definition apply_res (bc : dirichlet) (res sol : list K) (scale : K) : list K :=
    scatter_set res (map (fun p => (fst p, get sol (fst p) - snd p * scale))
                         (combine (bc_rows bc) (bc_vals bc))).

  (** utils.py:464-499 [zero_like_initial_guess]. *)
  Definition zero_like_initial_guess (n : nat) (bc : dirichlet) : list K :=
    scatter_set (zeros n) (combine (bc_rows bc) (bc_vals bc)).

  (** assembler.py:1670-1713 [create_J_bc_csr_function] / [..._parametric]. *)
  Section WithProblem.
    Variables (Inp FInp : Type) (pb : problem K Inp FInp) (bs0 : nat).

    Definition J_bc (symmetric : bool) (sol : list K) (bc : dirichlet) : csr K :=
      csr_of (pr_pat pb) (apply_J bc (pr_pat pb) symmetric (get_J_csr pb bs0 sol)).

    (** assembler.py:1716-1737 [create_res_J_bc_csr_parametric]. *)
    Definition res_J_bc (symmetric : bool) (sol : list K) (bc : dirichlet) : list K * csr K :=
      let RJ := get_res_J_csr pb bs0 sol in
      (apply_res bc (fst RJ) sol 1,
       csr_of (pr_pat pb) (apply_J bc (pr_pat pb) symmetric (snd RJ))).

    (** Dense product of a row-major [nd] x [nd] block with a vector. *)
    Definition block_mul (nd : nat) (m du : list K) : list K :=
      map (fun a => sumf (fun b => get m (a * nd + b)%nat * get du b) (seq 0 nd)) (seq 0 nd).

    (** assembler.py:1768-1770 [jax.jvp(residual, (sol,), (v,))]: forward mode
        pushes the tangent through the same gather, kernel and segment sums; the
        kernel's tangent is its Jacobian block times the element tangent (the AD
        contract, with the Jacobian block that [_value_and_jacfwd] returns).  The
        linearised residual is therefore [get_res] of the problem whose kernels are
        linearised at [sol] (whose own tangent block is not used: zeros). *)
    Definition lin_problem (sol : list K) : problem K (list K * Inp) (list K * FInp) :=
      let loc dofs := map (get sol) dofs in
      {| pr_n := pr_n pb; pr_view := pr_view pb; pr_nd := pr_nd pb; pr_cells := pr_cells pb;
         pr_inp := combine (map loc (pr_cells pb)) (pr_inp pb);
         pr_inp0 := (zeros (pr_nd pb), pr_inp0 pb);
         pr_kern := fun du ux => let m := snd (pr_kern pb (fst ux) (snd ux)) in
                                 (block_mul (pr_nd pb) m du, zeros (pr_nd pb * pr_nd pb)%nat);
         pr_bnd := map (fun b =>
                     {| b_cells := b_cells b;
                        b_inp := combine (map loc (face_dofs pb b)) (b_inp b);
                        b_inp0 := (zeros (pr_nd pb), b_inp0 b);
                        b_kern := fun du ux => let m := snd (b_kern b (fst ux) (snd ux)) in
                                               (block_mul (pr_nd pb) m du, zeros (pr_nd pb * pr_nd pb)%nat) |})
                   (pr_bnd pb);
         pr_surface_jac_zero := pr_surface_jac_zero pb |}.
    Definition residual_jvp (sol v : list K) : list K := get_res (lin_problem sol) bs0 v.

    (** assembler.py:1747-1778 [create_matfree_res_J_parametric]. *)
    Definition matfree_res_J (symmetric : bool) (sol : list K) (bc : dirichlet)
      : list K * (list K -> list K) :=
      (apply_res bc (get_res pb bs0 sol) sol 1,
       fun v =>
         let n := pr_n pb in
         let is_bc i := nth i (bc_mask bc) false in
         let v_in := if symmetric then map (fun i => if is_bc i then 0 else get v i) (seq 0 n) else v in
         let Kv := residual_jvp sol v_in in
         map (fun i => if is_bc i then get v i else get Kv i) (seq 0 n)).
  End WithProblem.
End Bc.
Arguments Loc1 {Pt} f. Arguments Loc2 {Pt} f. Arguments LocBad {Pt}.
Arguments create_bc {K Pt} d fes specs.
