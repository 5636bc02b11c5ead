(** Model of residual and Jacobian assembly.
    Source: /repo/feax/assembler.py (and the index maps of problem.py). *)
From Verif Require Import Base Csr_Model.
Set Implicit Arguments.

(** ** Batching *)

(** assembler.py:828-840 [_batching]: (batch size, number of cuts, padded length). *)
Definition batching (n bs0 : nat) : nat * nat * nat :=
  if n =? 0 then (0, 0, 0)
  else
    let bs := Nat.min bs0 n in
    let cuts := (n + bs - 1) / bs in       (* -(-n // bs) *)
    (bs, cuts, cuts * bs).

(** [x.reshape(k, m)] of a flat array, as a list of [k] rows of [m] entries. *)
Fixpoint reshape {A} (k m : nat) (l : list A) : list (list A) :=
  match k with
  | O => []
  | S k' => firstn m l :: reshape k' m (skipn m l)
  end.

(** assembler.py:843-848 [_pad_axis0]: append [pad] rows (the code uses zero
    rows; the model takes the padding row as an argument). *)
Definition pad_axis0 {A} (z : A) (l : list A) (pad : nat) : list A := l ++ repeat z pad.

(** assembler.py:851-904 [_scan_vmap_batched]: map a kernel over the rows, in
    scan batches of at most [bs0] rows with padding sliced off afterwards. *)
Definition scan_vmap_batched {A B} (z : A) (f : A -> B) (bs0 : nat) (l : list A) : list B :=
  let '(bs, cuts, np) := batching (length l) bs0 in
  if cuts <=? 1 then map f l
  else
    let batches := reshape cuts bs (pad_axis0 z l (np - length l)) in
    firstn (length l) (concat (map (map f) batches)).

(** ** Static sorts of the volume maps *)

(** assembler.py:1187-1205 [_vol_slot_sort] and 1231-1247 [_res_vol_slot_sort]
    (the same code with the discard index [fill] = nse resp. num_total_dofs):
    [maps] is the per-cell table of target indices, [w] its row width.
    Result: the batches of (perm, sorted targets); one flat batch when
    [num_cuts <= 1]. *)
Definition slot_sort (maps : list (list nat)) (w fill bs0 : nat)
  : list (list nat * list nat) :=
  let '(bs, cuts, np) := batching (length maps) bs0 in
  if cuts <=? 1 then
    let flat := concat maps in
    [(argsort flat, gather 0 flat (argsort flat))]
  else
    let padded := maps ++ repeat (repeat fill w) (np - length maps) in
    map (fun row => (argsort row, gather 0 row (argsort row)))
        (reshape cuts (bs * w) (concat padded)).

Section Assembly.
  Variable K : CRing.
  Local Open Scope ring_K.

  (** Elementwise sum of two arrays of equal length. *)
  Fixpoint vadd (a b : list K) : list K :=
    match a, b with
    | x :: a', y :: b' => (x + y) :: vadd a' b'
    | _, _ => []
    end.

  (** ** A problem as the assembler sees it *)

  (** One boundary: the cell of every selected face ([boundary_inds[:, 0]]), the
      per-face kernel inputs and the surface kernel, which maps the element
      solution and the face input to (face residual, face Jacobian row-major)
      (compute_face, assembler.py:973-1055; AD is abstracted: the kernel is an
      arbitrary function returning both). *)
  Record boundary (FInp : Type) := {
    b_cells : list nat;
    b_inp : list FInp;
    b_inp0 : FInp;                         (* the padding row of _pad_axis0 *)
    b_kern : list K -> FInp -> list K * list K
  }.

  (** The problem: total DOFs, matrix view, the DOFs of every cell (all
      variables, problem.py:161-186), the volume kernel (assembler.py:650-732 with
      [_value_and_jacfwd], 805-818) and its per-cell inputs, the boundaries. *)
  Record problem (Inp FInp : Type) := {
    pr_n : nat;
    pr_view : view;
    pr_nd : nat;                           (* csr_ndof_vol *)
    pr_cells : list (list nat);            (* inds: (num_cells, ndof) *)
    pr_inp : list Inp;
    pr_inp0 : Inp;                         (* the padding row of _pad_axis0 *)
    pr_kern : list K -> Inp -> list K * list K;
    pr_bnd : list (boundary FInp);
    pr_surface_jac_zero : bool             (* problem._surface_jac_zero *)
  }.

  Section WithProblem.
    Variables (Inp FInp : Type).
    Variable pb : problem Inp FInp.
    Variable bs0 : nat.                    (* _ASSEMBLY_BATCH_SIZE, 256 in the code *)

    (** problem.py:202-212: DOFs of the cell behind every selected face. *)
    Definition face_dofs (b : boundary FInp) : list (list nat) :=
      map (fun c => nth c (pr_cells pb) []) (b_cells b).

    Definition all_face_dofs : list (list nat) := flat_map face_dofs (pr_bnd pb).

    (** problem.py:188-211. *)
    Definition all_pairs : list (nat * nat) := coo_pairs (pr_cells pb) all_face_dofs.

    (** problem.py:252. *)
    Definition pr_pat : pattern := build_csr (pr_n pb) (pr_view pb) all_pairs.

    (** problem.py:414-415, 458-459. *)
    Definition vol_len : nat := length (pr_cells pb) * pr_nd pb * pr_nd pb.
    Definition vol_slots : list (list nat) :=
      reshape (length (pr_cells pb)) (pr_nd pb * pr_nd pb)
              (firstn vol_len (p_full_slot pr_pat)).
    (** problem.py:462-465. *)
    Definition face_slots : list nat := skipn vol_len (p_full_slot pr_pat).

    (** problem.py:469-484. *)
    Definition res_dofs : list nat := res_scatter_dofs (pr_cells pb) all_face_dofs.
    Definition res_vol_len : nat := length (pr_cells pb) * pr_nd pb.
    Definition res_vol_dofs : list (list nat) :=
      reshape (length (pr_cells pb)) (pr_nd pb) (firstn res_vol_len res_dofs).
    Definition res_face_dofs : list nat := skipn res_vol_len res_dofs.

    (** [segment_sum(vals[perm], sorted_ids, num_segments=m)]. *)
    Definition sorted_seg_sum (m : nat) (vals : list K) (ps : list nat * list nat) : list K :=
      segment_sum m (gather 0 vals (fst ps)) (snd ps).

    (** ** Element inputs *)

    (** assembler.py:1381-1382 (and 1121-1122, 1495-1496, 1658-1659):
        [cells_sol_flat]; the element solution gathered at the element's DOFs.
        (Dof_Model.cell_sol_flat models the per-variable gather and
        [ravel_pytree]; Dof_Props.C21_assembly_gather proves it is this gather.) *)
    Definition cell_inputs (sol : list K) : list (list K * Inp) :=
      combine (map (fun dofs => map (get sol) dofs) (pr_cells pb)) (pr_inp pb).

    (** The padding row: a zero element solution and a zero input. *)
    Definition pad_input : list K * Inp := (zeros (pr_nd pb), pr_inp0 pb).

    (** The vmapped volume kernel on a batch. *)
    Definition vkern (x : list K * Inp) : list K * list K := pr_kern pb (fst x) (snd x).

    (** assembler.py:973-1055 [compute_face]: (face residuals, face Jacobians),
        one list of rows per boundary.  [cells_sol_flat[boundary_inds[:, 0]]]. *)
    Definition compute_face (sol : list K) : list (list (list K * list K)) :=
      map (fun b => scan_vmap_batched
                      (zeros (pr_nd pb), b_inp0 b)
                      (fun x => b_kern b (fst x) (snd x))
                      bs0
                      (combine (map (fun dofs => map (get sol) dofs) (face_dofs b))
                               (b_inp b)))
          (pr_bnd pb).

    (** ** Jacobian *)

    (** assembler.py:1253-1318 [_assemble_volume_csr_data]. *)
    Definition assemble_volume_csr_data (sol : list K) : list K :=
      let nse := p_nse pr_pat in
      let inputs := cell_inputs sol in
      let sorts := slot_sort vol_slots (pr_nd pb * pr_nd pb) nse bs0 in
      let '(bs, cuts, np) := batching (length (pr_cells pb)) bs0 in
      let carry := zeros (nse + 1)%nat in
      if cuts <=? 1 then
        vadd carry (sorted_seg_sum (nse + 1)%nat
                      (concat (map (fun x => snd (vkern x)) inputs))
                      (hd ([], []) sorts))
      else
        let batches := reshape cuts bs
                         (pad_axis0 pad_input inputs (np - length (pr_cells pb))%nat) in
        fold_left (fun c b =>
                     vadd c (sorted_seg_sum (nse + 1)%nat
                               (concat (map (fun x => snd (vkern x)) (fst b))) (snd b)))
                  (combine batches sorts) carry.

    (** assembler.py:1394-1402: the surface term (skipped when
        [_surface_jac_zero] is set or there is no boundary). *)
    Definition add_face_jac (skip : bool) (sol : list K) (data : list K) : list K :=
      let jacs := compute_face sol in
      if skip then data
      else match jacs with
           | [] => data
           | _ => vadd data
                    (sorted_seg_sum (p_nse pr_pat + 1)%nat
                       (concat (map (fun b => concat (map snd b)) jacs))
                       (argsort face_slots, gather 0%nat face_slots (argsort face_slots)))
           end.

    (** assembler.py:1362-1404 [_get_J_csr]. *)
    Definition get_J_csr (sol : list K) : list K :=
      firstn (p_nse pr_pat)
             (add_face_jac (pr_surface_jac_zero pb) sol (assemble_volume_csr_data sol)).

    (** assembler.py:1517-1565 [get_jacobian]. *)
    Definition get_jacobian (sol : list K) : csr K := csr_of pr_pat (get_J_csr sol).

    (** assembler.py:1106-1144 [_assemble_jacobian_values]: the raw values. *)
    Definition jacobian_values (sol : list K) : list K :=
      concat (map snd (scan_vmap_batched pad_input vkern bs0 (cell_inputs sol))) ++
      concat (map (fun b => concat (map snd b)) (compute_face sol)).

    (** ** Residual *)

    (** assembler.py:1618-1667 [get_res] with [compute_residual_vars_helper]
        (1058-1103), as a flat vector. *)
    Definition get_res (sol : list K) : list K :=
      let V := concat (map fst (scan_vmap_batched pad_input vkern bs0 (cell_inputs sol))) ++
               concat (map (fun b => concat (map fst b)) (compute_face sol)) in
      sorted_seg_sum (pr_n pb) V (argsort res_dofs, gather 0%nat res_dofs (argsort res_dofs)).

    (** ** Fused residual and Jacobian *)

    (** assembler.py:1407-1480 [_assemble_volume_res_and_J]. *)
    Definition assemble_volume_res_and_J (sol : list K) : list K * list K :=
      let nse := p_nse pr_pat in
      let inputs := cell_inputs sol in
      let jsorts := slot_sort vol_slots (pr_nd pb * pr_nd pb) nse bs0 in
      let rsorts := slot_sort res_vol_dofs (pr_nd pb) (pr_n pb) bs0 in
      let '(bs, cuts, np) := batching (length (pr_cells pb)) bs0 in
      let Jc := zeros (nse + 1)%nat in
      let Rc := zeros (pr_n pb + 1)%nat in
      if cuts <=? 1 then
        (vadd Rc (sorted_seg_sum (pr_n pb + 1)%nat
                    (concat (map (fun x => fst (vkern x)) inputs)) (hd ([], []) rsorts)),
         vadd Jc (sorted_seg_sum (nse + 1)%nat
                    (concat (map (fun x => snd (vkern x)) inputs)) (hd ([], []) jsorts)))
      else
        let batches := reshape cuts bs
                         (pad_axis0 pad_input inputs (np - length (pr_cells pb))%nat) in
        fold_left (fun c b =>
                     let yj := map vkern (fst b) in
                     (vadd (fst c) (sorted_seg_sum (pr_n pb + 1)%nat
                                      (concat (map fst yj)) (snd (snd b))),
                      vadd (snd c) (sorted_seg_sum (nse + 1)%nat
                                      (concat (map snd yj)) (fst (snd b)))))
                  (combine batches (combine jsorts rsorts)) (Rc, Jc).

    (** assembler.py:1483-1514 [_get_res_J_csr]: the surface Jacobian is NOT
        skipped here. *)
    Definition get_res_J_csr (sol : list K) : list K * list K :=
      let RJ := assemble_volume_res_and_J sol in
      let jacs := compute_face sol in
      let J := add_face_jac false sol (snd RJ) in
      let R := match jacs with
               | [] => fst RJ
               | _ => vadd (fst RJ)
                        (sorted_seg_sum (pr_n pb + 1)%nat
                           (concat (map (fun b => concat (map fst b)) jacs))
                           (argsort res_face_dofs,
                            gather 0%nat res_face_dofs (argsort res_face_dofs)))
               end in
      (firstn (pr_n pb) R, firstn (p_nse pr_pat) J).
  End WithProblem.
End Assembly.
Arguments vadd {K} a b.
Arguments sorted_seg_sum {K} m vals ps.
