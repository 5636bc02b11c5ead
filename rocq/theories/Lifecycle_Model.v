(** Model of the life of the host-side assembly arrays of a Problem: building
    TracedStructures, releasing scratch, and assembling with and without a
    TracedStructure.
    Source: /repo/feax/traced_structure.py, problem.py, assembler.py. *)
From Verif Require Import Base Csr_Model Assembly_Model.
From Coq Require Import List Arith.
Import ListNotations.

(** A slot sort: the batches of (perm, sorted targets), see [slot_sort]. *)
Definition sorts := list (list nat * list nat).

(** The attributes of a Problem that may be released ([None] = attribute is None
    or absent): problem.py:512-529.  [I]/[J] are one list of pairs; [csr_slot],
    [csr_full_slot], [I_filtered], [J_filtered] and [_res_scatter_dofs_np] are
    read by no function and are left out. *)
Record host := {
  h_I : option (list (nat * nat));
  h_filter : option (list nat);              (* filter_indices; None for FULL *)
  h_perm : option (list nat);                (* csr_perm *)
  h_seg : option (list nat);                 (* csr_seg_ids *)
  h_vmap : option (list (list nat));         (* csr_volume_slots *)
  h_rmap : option (list (list nat));         (* res_volume_dofs *)
  h_vcache : option sorts;                   (* _vol_slot_sort_cache *)
  h_rcache : option sorts                    (* _res_vol_slot_sort_cache *)
}.

(** problem.py:217-231: [onp.where(mask)[0]]. *)
Definition filter_indices (v : view) (all : list (nat * nat)) : option (list nat) :=
  match v with
  | FULL => None
  | _ => Some (map fst (filter (fun q => in_view v (snd q)) (combine (seq 0 (length all)) all)))
  end.

(** traced_structure.py:38-96: a TracedStructure holds its own copy of the sorts.
    Its other leaves are copies of problem arrays that are never released; the model
    reads those from the problem. *)
Record tstruct := { t_vol : sorts; t_res : sorts }.

(** problem.py:504-529 [free_assembly_scratch]. *)
Definition free_scratch (drop : bool) (h : host) : host :=
  {| h_I := None; h_filter := None; h_perm := None; h_seg := None;
     h_vmap := if drop then None else h_vmap h;
     h_rmap := if drop then None else h_rmap h;
     h_vcache := if drop then None else h_vcache h;
     h_rcache := if drop then None else h_rcache h |}.

Section Life.
  Variable K : CRing.
  Variables (Inp FInp : Type).
  Variable pb : problem K Inp FInp.
  Variable bs0 : nat.

  (** The attributes after construction (problem.py:188-231, 440-484). *)
  Definition fresh : host :=
    {| h_I := Some (all_pairs pb);
       h_filter := filter_indices (pr_view pb) (all_pairs pb);
       h_perm := Some (p_perm (pr_pat pb));
       h_seg := Some (p_seg_ids (pr_pat pb));
       h_vmap := Some (vol_slots pb);
       h_rmap := Some (res_vol_dofs pb);
       h_vcache := None;
       h_rcache := None |}.

  (** assembler.py:1164-1208 [_vol_slot_sort]: the cache, else the RuntimeError
      ([None]), else compute and cache. *)
  Definition vol_slot_sort (h : host) : host * option sorts :=
    match h_vcache h with
    | Some c => (h, Some c)
    | None =>
        match h_vmap h with
        | None => (h, None)
        | Some m =>
            let out := slot_sort m (pr_nd pb * pr_nd pb) (p_nse (pr_pat pb)) bs0 in
            ({| h_I := h_I h; h_filter := h_filter h; h_perm := h_perm h; h_seg := h_seg h;
                h_vmap := h_vmap h; h_rmap := h_rmap h;
                h_vcache := Some out; h_rcache := h_rcache h |}, Some out)
        end
    end.

  (** assembler.py:1211-1250 [_res_vol_slot_sort]. *)
  Definition res_vol_slot_sort (h : host) : host * option sorts :=
    match h_rcache h with
    | Some c => (h, Some c)
    | None =>
        match h_rmap h with
        | None => (h, None)
        | Some m =>
            let out := slot_sort m (pr_nd pb) (pr_n pb) bs0 in
            ({| h_I := h_I h; h_filter := h_filter h; h_perm := h_perm h; h_seg := h_seg h;
                h_vmap := h_vmap h; h_rmap := h_rmap h;
                h_vcache := h_vcache h; h_rcache := Some out |}, Some out)
        end
    end.

  (** traced_structure.py:118-164 [from_problem]. *)
  Definition from_problem (free : bool) (h : host) : host * option tstruct :=
    match vol_slot_sort h with
    | (h1, None) => (h1, None)
    | (h1, Some vs) =>
        match res_vol_slot_sort h1 with
        | (h2, None) => (h2, None)
        | (h2, Some rs) =>
            (if free then free_scratch true h2 else h2, Some {| t_vol := vs; t_res := rs |})
        end
    end.

  (** assembler.py:1289-1318: the volume accumulation for given slot sorts. *)
  Definition volume_csr_with (ss : sorts) (sol : list K) : list K :=
    let nse := p_nse (pr_pat pb) in
    let inputs := cell_inputs pb sol in
    let '(bs, cuts, np) := batching (length (pr_cells pb)) bs0 in
    let carry := zeros (nse + 1) in
    if cuts <=? 1 then
      vadd carry (sorted_seg_sum (nse + 1)
                    (concat (map (fun x => snd (vkern pb x)) inputs))
                    (hd ([], []) ss))
    else
      let batches := reshape cuts bs
                       (pad_axis0 (pad_input pb) inputs (np - length (pr_cells pb))) in
      fold_left (fun c b =>
                   vadd c (sorted_seg_sum (nse + 1)
                             (concat (map (fun x => snd (vkern pb x)) (fst b))) (snd b)))
                (combine batches ss) carry.

  (** assembler.py:1362-1404 [_get_J_csr] with an optional TracedStructure. *)
  Definition get_J_csr_ts (ts : option tstruct) (h : host) (sol : list K) : host * option (list K) :=
    let '(h', ss) := match ts with
                     | Some t => (h, Some (t_vol t))
                     | None => vol_slot_sort h
                     end in
    (h', option_map (fun ss => firstn (p_nse (pr_pat pb))
                                 (add_face_jac pb bs0 (pr_surface_jac_zero pb) sol
                                    (volume_csr_with ss sol))) ss).

  (** assembler.py:1407-1480 for given sorts. *)
  Definition volume_res_J_with (js rs : sorts) (sol : list K) : list K * list K :=
    let nse := p_nse (pr_pat pb) in
    let inputs := cell_inputs pb sol in
    let '(bs, cuts, np) := batching (length (pr_cells pb)) bs0 in
    let Jc := zeros (nse + 1) in
    let Rc := zeros (pr_n pb + 1) in
    if cuts <=? 1 then
      (vadd Rc (sorted_seg_sum (pr_n pb + 1)
                  (concat (map (fun x => fst (vkern pb x)) inputs)) (hd ([], []) rs)),
       vadd Jc (sorted_seg_sum (nse + 1)
                  (concat (map (fun x => snd (vkern pb x)) inputs)) (hd ([], []) js)))
    else
      let batches := reshape cuts bs
                       (pad_axis0 (pad_input pb) inputs (np - length (pr_cells pb))) in
      fold_left (fun c b =>
                   let yj := map (vkern pb) (fst b) in
                   (vadd (fst c) (sorted_seg_sum (pr_n pb + 1)
                                    (concat (map fst yj)) (snd (snd b))),
                    vadd (snd c) (sorted_seg_sum (nse + 1)
                                    (concat (map snd yj)) (fst (snd b)))))
                (combine batches (combine js rs)) (Rc, Jc).

  (** assembler.py:1484-1525 [_get_res_J_csr] with an optional TracedStructure. *)
  Definition get_res_J_csr_ts (ts : option tstruct) (h : host) (sol : list K)
    : host * option (list K * list K) :=
    let '(h', ss) :=
      match ts with
      | Some t => (h, Some (t_vol t, t_res t))
      | None =>
          match vol_slot_sort h with
          | (h1, None) => (h1, None)
          | (h1, Some js) => match res_vol_slot_sort h1 with
                             | (h2, None) => (h2, None)
                             | (h2, Some rs) => (h2, Some (js, rs))
                             end
          end
      end in
    (h', option_map (fun ss =>
           let RJ := volume_res_J_with (fst ss) (snd ss) sol in
           let jacs := compute_face pb bs0 sol in
           let J := add_face_jac pb bs0 false sol (snd RJ) in
           let R := match jacs with
                    | [] => fst RJ
                    | _ => vadd (fst RJ)
                             (sorted_seg_sum (pr_n pb + 1)
                                (concat (map (fun b => concat (map fst b)) jacs))
                                (argsort (res_face_dofs pb),
                                 gather 0 (res_face_dofs pb) (argsort (res_face_dofs pb))))
                    end in
           (firstn (pr_n pb) R, firstn (p_nse (pr_pat pb)) J)) ss).

  (** assembler.py:1106-1144 [_assemble_jacobian_values]: reads [problem.I] for the
      order check ([None.shape] is an AttributeError; the assert an AssertionError). *)
  Definition assemble_values (h : host) (sol : list K) : option (list K) :=
    let V := jacobian_values pb bs0 sol in
    match h_I h with
    | None => None
    | Some coo => if length V =? length coo then Some V else None
    end.

  (** assembler.py:1147-1161 [_csr_data_from_values].  A released [filter_indices]
      is indistinguishable from the FULL view here, but then [csr_seg_ids] is
      released too and the segment_sum raises. *)
  Definition data_from_values (h : host) (V : list K) : option (list K) :=
    let V_f := match h_filter h with None => V | Some fi => gather c0 V fi end in
    match h_perm h, h_seg h with
    | Some p, Some s => Some (segment_sum (p_nse (pr_pat pb)) (gather c0 V_f p) s)
    | _, _ => None
    end.

  (** What a user can do with one Problem. *)
  Inductive op :=
  | OFrom (free : bool)                         (* TracedStructure.from_problem *)
  | OFree (drop : bool)                         (* problem.free_assembly_scratch *)
  | OJac (ts : option nat) (sol : list K)       (* get_jacobian / _get_J_csr *)
  | OResJac (ts : option nat) (sol : list K)    (* fused residual and Jacobian *)
  | ORes (sol : list K)                         (* get_res: released arrays not read *)
  | OValues (sol : list K)                      (* _assemble_jacobian_values *)
  | OData (V : list K).                         (* _csr_data_from_values *)

  (** What the user sees. *)
  Inductive out :=
  | Nothing | Handle (k : nat) | Vec (v : list K) | Pair (r j : list K) | Error.

  Definition vec_out (o : option (list K)) : out :=
    match o with Some v => Vec v | None => Error end.

  (** The Problem's attributes and the TracedStructures built so far; a
      TracedStructure is named by its position.  Naming one that does not exist is
      an error. *)
  Definition world := (host * list tstruct)%type.

  Definition step (w : world) (o : op) : world * out :=
    let '(h, tss) := w in
    match o with
    | OFrom free =>
        match from_problem free h with
        | (h', Some t) => ((h', tss ++ [t]), Handle (length tss))
        | (h', None) => ((h', tss), Error)
        end
    | OFree drop => ((free_scratch drop h, tss), Nothing)
    | OJac None sol => let '(h', r) := get_J_csr_ts None h sol in ((h', tss), vec_out r)
    | OJac (Some k) sol =>
        match nth_error tss k with
        | None => (w, Error)
        | Some t => let '(h', r) := get_J_csr_ts (Some t) h sol in ((h', tss), vec_out r)
        end
    | OResJac None sol =>
        let '(h', r) := get_res_J_csr_ts None h sol in
        ((h', tss), match r with Some p => Pair (fst p) (snd p) | None => Error end)
    | OResJac (Some k) sol =>
        match nth_error tss k with
        | None => (w, Error)
        | Some t =>
            let '(h', r) := get_res_J_csr_ts (Some t) h sol in
            ((h', tss), match r with Some p => Pair (fst p) (snd p) | None => Error end)
        end
    | ORes sol => (w, Vec (get_res pb bs0 sol))
    | OValues sol => (w, vec_out (assemble_values h sol))
    | OData V => (w, vec_out (data_from_values h V))
    end.

  Fixpoint run (w : world) (ops : list op) : list out :=
    match ops with
    | [] => []
    | o :: t => let '(w', r) := step w o in r :: run w' t
    end.

  (** A session on a freshly constructed Problem. *)
  Definition session (ops : list op) : list out := run (fresh, []) ops.
End Life.
Arguments OFrom {K}. Arguments OFree {K}. Arguments OJac {K}. Arguments OResJac {K}.
Arguments ORes {K}. Arguments OValues {K}. Arguments OData {K}.
Arguments Nothing {K}. Arguments Handle {K}. Arguments Vec {K}. Arguments Pair {K}.
Arguments Error {K}.
