(** Model of computational homogenization.
    Source: /repo/feax/flat/solver.py. Division by a number is multiplication by [kinv]
    of it; [half] is the literal .5. *)
From Verif Require Import Base Csr_Model Assembly_Model Dof_Model Bc_Model LinSolve_Model Reduced_Model Kernel_Model.

Section Homog.
  Variable K : CRing.
  Local Open Scope ring_K.
  Variable half : K.
  Variable kinv : K -> K.

  (** flat/solver.py:31-38 [UNIT_STRAINS_3D] and 41-45 [UNIT_STRAINS_2D]. *)
  Definition unit_strains_3d : list (list (list K)) :=
    [ [[1; 0; 0]; [0; 0; 0]; [0; 0; 0]];
      [[0; 0; 0]; [0; 1; 0]; [0; 0; 0]];
      [[0; 0; 0]; [0; 0; 0]; [0; 0; 1]];
      [[0; 0; 0]; [0; 0; half]; [0; half; 0]];
      [[0; 0; half]; [0; 0; 0]; [half; 0; 0]];
      [[0; half; 0]; [half; 0; 0]; [0; 0; 0]] ].
  Definition unit_strains_2d : list (list (list K)) :=
    [ [[1; 0; 0]; [0; 0; 0]; [0; 0; 0]];
      [[0; 0; 0]; [0; 1; 0]; [0; 0; 0]];
      [[0; half; 0]; [half; 0; 0]; [0; 0; 0]] ].
  (** flat/solver.py:389 (and 386-387: other dimensions are a ValueError, [None] below). *)
  Definition unit_strains (dim : nat) : list (list (list K)) :=
    if dim =? 3 then unit_strains_3d else unit_strains_2d.

  (** flat/solver.py:52-75 [macro_displacement]: points padded to 3D, [pts @ eps.T], the
      first [ndim] components, flattened. *)
  Definition macro_displacement (points : list (list K)) (ndim : nat) (eps : list (list K)) : list K :=
    flat_map (fun p => tab ndim (fun i =>
      Sum 3 (fun j => (if j <? ndim then get p j else 0) * get2 eps i j))) points.

  Variables (dim nq : nat).
  Variable det : list (list K) -> K.
  Variable inv : list (list K) -> list (list K).
  Variable V : Type.

  (** flat/solver.py:108-113: [JxW.sum()]. *)
  Definition total_volume (f : fe K) : K :=
    Sum (length (fe_cells f)) (fun c => Sum nq (fun q => JxW dim det f c q)).
  (** flat/solver.py:78-149 [average_stress], the (vec, dim) array before the Voigt
      selection. The quadrature values [vars] of the volume variables are given
      (see the finding on lines 127-139 in DESIGN.md). *)
  Definition mean_stress (f : fe K) (tm : tensor_map K V) (vars : nat -> nat -> V) (u : list K) (i d : nat) : K :=
    Sum (length (fe_cells f)) (fun c => Sum nq (fun q =>
      JxW dim det f c q *
      get2 (tm (op_grad dim f (fun n k => get u (node_of f c n * fe_vec f + k)) (shape_grad dim inv f c q)) (vars c q)) i d))
    * kinv (total_volume f).
  (** flat/solver.py:151-157. *)
  Definition voigt_pairs (d : nat) : list (nat * nat) :=
    if (d =? 2)%nat then [(0, 0); (1, 1); (0, 1)]%nat
    else [(0, 0); (1, 1); (2, 2); (1, 2); (0, 2); (0, 1)]%nat.
  Definition average_stress (f : fe K) (tm : tensor_map K V) (vars : nat -> nat -> V) (u : list K) (d : nat) : list K :=
    map (fun p => mean_stress f tm vars u (fst p) (snd p)) (voigt_pairs d).

  (** flat/solver.py:173-190 [HomogenizationResult]. *)
  Record hom_result : Type := { h_C : list (list K); h_u : list (list K); h_um : list (list K) }.
  (** [columns.T] of a list of equally long columns. *)
  Definition transpose (m : nat) (cols : list (list K)) : list (list K) :=
    tab m (fun j => map (fun c => get c j) cols).

  Variables (W : Type) (pb : problem K (vinp K V) (finp K W)) (bs0 : nat) (P : bcoo K).

  (** ** Krylov path (flat/solver.py:412-451) *)
  Variable ksolve : (list K -> list K) -> list K -> list K.
  (** flat/solver.py:421-425 [_single_case]; [None] is the pairing ValueError. *)
  Definition single_case (bc : dirichlet K) (points : list (list K)) (eps : list (list K)) : option (list K * list K) :=
    let um := macro_displacement points dim eps in
    match reduced_solver pb bs0 P ksolve bc (Some um) None with
    | Some u => Some (u, um)
    | None => None
    end.
  Definition hom_of_cases (f : fe K) (tm : tensor_map K V) (vars : nat -> nat -> V) (cases : list (list K * list K)) : hom_result :=
    let cols := map (fun p => average_stress f tm vars (fst p) dim) cases in
    {| h_C := transpose (length (voigt_pairs dim)) cols; h_u := map fst cases; h_um := map snd cases |}.
  (** flat/solver.py:427-446 [solve] (lax.map over the unit strains). *)
  Definition hom_krylov (f : fe K) (tm : tensor_map K V) (vars : nat -> nat -> V) (bc : dirichlet K) : option hom_result :=
    if (dim =? 2) || (dim =? 3) then
      match all_opt (map (single_case bc (fe_points f)) (unit_strains dim)) with
      | Some cases => Some (hom_of_cases f tm vars cases)
      | None => None
      end
    else None.

  (** ** Direct path (flat/solver.py:204-324) *)

  Definition min_list (l : list nat) : nat := fold_right Nat.min (hd 0%nat l) l.
  (** flat/solver.py:204-223 [_translation_pin_dofs]: [None] is either ValueError. The
      sorted set of pins is only used as a set here; [len(set)] is the length of [nodup]. *)
  Definition pin_of (vec c : nat) : option nat :=
    match map e_col (filter (fun e => (e_row e mod vec =? c)%nat) (P_ents P)) with
    | [] => None
    | cand => Some (min_list cand)
    end.
  Definition translation_pin_dofs (vec d : nat) : option (list nat) :=
    match all_opt (map (pin_of vec) (seq 0 d)) with
    | None => None
    | Some pins => let s := nodup Nat.eq_dec pins in if length s =? d then Some s else None
    end.

  (** The linear solve of a matrix given by its entries (factorization external). *)
  Variable dsolve : (nat -> nat -> K) -> list K -> list K.
  Definition unit_vec (m c : nat) : list K := tab m (fun i => if (i =? c)%nat then 1 else 0).
  (** flat/solver.py:289-293: the reduced operator at [u = 0], materialised column by
      column (the code probes it with coloured combinations of columns, feax.asd). *)
  Definition reduced_matrix (bc : dirichlet K) (r c : nat) : K :=
    get (reduced_operator pb bs0 P (zeros (pr_n pb)) bc (unit_vec (P_cols P) c)) r.
  (** flat/solver.py:247-266 [_pinned_data]: pinned rows and columns zero, unit diagonal.
      (A diagonal slot missing from the pattern is a ValueError; here every slot exists.) *)
  Definition pinned_matrix (pins : list nat) (A : nat -> nat -> K) (r c : nat) : K :=
    if existsb (Nat.eqb r) pins && (r =? c)%nat then 1
    else if existsb (Nat.eqb r) pins || existsb (Nat.eqb c) pins then 0 else A r c.
  (** flat/solver.py:295-298 [_case_rhs]. *)
  Definition case_rhs (bc : dirichlet K) (pins : list nat) (um : list K) : list K :=
    scatter_set (reduced_rhs pb bs0 P um bc) (map (fun p => (p, 0)) pins).
  (** flat/solver.py:300-304 [_zero_mean]. *)
  Definition zero_mean (vec nn : nat) (u : list K) : list K :=
    let mean k := Sum nn (fun a => get u (a * vec + k)) * kinv (Sum nn (fun _ => 1)) in
    flat_map (fun a => tab vec (fun k => get u (a * vec + k) - mean k)) (seq 0 nn).
  (** flat/solver.py:306-320 [solve]. *)
  Definition direct_case (bc : dirichlet K) (f : fe K) (pins : list nat) (eps : list (list K)) : list K * list K :=
    let um := macro_displacement (fe_points f) dim eps in
    let x := dsolve (pinned_matrix pins (reduced_matrix bc)) (case_rhs bc pins um) in
    (vadd um (zero_mean (fe_vec f) (length (fe_points f)) (P_mul P x)), um).
  Definition hom_direct (f : fe K) (tm : tensor_map K V) (vars : nat -> nat -> V) (bc : dirichlet K) : option hom_result :=
    if (dim =? 2) || (dim =? 3) then
      match translation_pin_dofs (fe_vec f) dim with
      | Some pins => Some (hom_of_cases f tm vars (map (direct_case bc f pins) (unit_strains dim)))
      | None => None
      end
    else None.

  (** flat/solver.py:280-285 [_solve_bwd]: cotangents of the matrix entries (stored slots
      [slots]) and of the right-hand sides. *)
  Definition solve_many_bwd (A : nat -> nat -> K) (slots : list (nat * nat)) (xs xbars : list (list K)) : list K * list (list K) :=
    let lam := map (dsolve A) xbars in
    (map (fun rc => - sumf (fun p => get (fst p) (fst rc) * get (snd p) (snd rc)) (combine lam xs)) slots, lam).
End Homog.
Arguments unit_strains_3d {K}. Arguments unit_strains_2d {K}. Arguments unit_strains {K}.
Arguments macro_displacement {K}. Arguments total_volume {K}. Arguments mean_stress {K} kinv dim nq det inv {V}.
Arguments average_stress {K} kinv dim nq det inv {V}. Arguments h_C {K}. Arguments h_u {K}. Arguments h_um {K}.
Arguments transpose {K}. Arguments single_case {K} dim {V W}. Arguments hom_of_cases {K} kinv dim nq det inv {V}.
Arguments hom_krylov {K} half kinv dim nq det inv {V W}. Arguments pin_of {K}. Arguments translation_pin_dofs {K}.
Arguments unit_vec {K}. Arguments reduced_matrix {K V W}. Arguments pinned_matrix {K}. Arguments case_rhs {K V W}.
Arguments zero_mean {K}. Arguments direct_case {K} kinv dim {V W}. Arguments hom_direct {K} half kinv dim nq det inv {V W}.
Arguments solve_many_bwd {K}.
