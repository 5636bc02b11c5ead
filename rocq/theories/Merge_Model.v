(** Model of the sparsity-pattern algebra of /repo/feax/asd.py and of its use by
    the assembled extra-residual Newton solver (/repo/feax/solvers/newton.py).
    scipy is modelled by what its methods compute: [sum_duplicates] +
    [sort_indices] give the strictly sorted (row, col) entries with the values of
    equal positions added (for booleans: or-ed); [A + B] adds entry by entry and
    keeps the entries whose sum is non-zero.  Index dtypes (int32/int64 casts) are
    not modelled. *)
From Verif Require Import Base Csr_Model.

(** A scipy CSR matrix of booleans: every stored position with its value. *)
Record spcsr := {
  sp_nr : nat; sp_nc : nat;
  sp_indptr : list nat;
  sp_indices : list nat;
  sp_data : list bool
}.

(** [onp.repeat(onp.arange(n), onp.diff(indptr))] (asd.py:91-92, 165-166). *)
Definition expand (n : nat) (indptr : list nat) : list nat :=
  flat_map (fun p => repeat (fst p) (snd p)) (combine (seq 0 n) (diff indptr)).

(** Sorted distinct keys. *)
Definition uniq (ks : list nat) : list nat :=
  let s := gather 0 ks (argsort ks) in mask_select s (is_new s).

(** The CSR matrix storing exactly the given sorted positions. *)
Definition compress (nr nc : nat) (keys : list nat) (data : list bool) : spcsr :=
  {| sp_nr := nr; sp_nc := nc;
     sp_indptr := indptr_of nr (map (fun k => k / nc) keys);
     sp_indices := map (fun k => k mod nc) keys;
     sp_data := data |}.

(** scipy [tocsr(); sum_duplicates(); sort_indices()] on a list of stored entries
    (asd.py:76-78). *)
Definition canonical (nr nc : nat) (entries : list (nat * nat * bool)) : spcsr :=
  let keys := uniq (map (fun e => key_of nc (fst e)) entries) in
  compress nr nc keys
    (map (fun k => existsb (fun e => (key_of nc (fst e) =? k) && snd e) entries) keys).

(** What [_to_scipy_pattern] accepts (asd.py:58-75).  [PScipy] is any scipy sparse
    matrix, as its list of stored entries with [astype(bool)] of each value: an
    explicitly stored zero stays stored, with value [false]. *)
Inductive pat_in :=
| PCoo (nr nc : nat) (rows cols : list nat)        (* asdex.SparsityPattern, BCOO *)
| PCsr (nr nc : nat) (indptr indices : list nat)   (* CSRMatrix *)
| PScipy (nr nc : nat) (entries : list (nat * nat * bool))
| PDense (nr nc : nat) (mask : list (list bool)).  (* onp.asarray(pattern) != 0 *)

Definition in_nr (p : pat_in) : nat :=
  match p with PCoo n _ _ _ | PCsr n _ _ _ | PScipy n _ _ | PDense n _ _ => n end.
Definition in_nc (p : pat_in) : nat :=
  match p with PCoo _ n _ _ | PCsr _ n _ _ | PScipy _ n _ | PDense _ n _ => n end.

(** The stored entries before canonicalisation (asd.py:58-75). *)
Definition in_entries (p : pat_in) : list (nat * nat * bool) :=
  match p with
  | PCoo _ _ rows cols => map (fun q => (q, true)) (combine rows cols)
  | PCsr nr _ indptr indices => map (fun q => (q, true)) (combine (expand nr indptr) indices)
  | PScipy _ _ es => es
  | PDense nr nc mask =>
      flat_map (fun i => flat_map (fun j =>
        if nth j (nth i mask []) false then [(i, j, true)] else []) (seq 0 nc)) (seq 0 nr)
  end.

(** asd.py:55-79 [_to_scipy_pattern]. *)
Definition to_scipy_pattern (p : pat_in) : spcsr :=
  canonical (in_nr p) (in_nc p) (in_entries p).

(** The stored positions of a scipy CSR matrix, in storage order
    ([tocoo] of asd.py:82-86, and rows/indices of asd.py:165-168). *)
Definition sp_pairs (A : spcsr) : list (nat * nat) :=
  combine (expand (sp_nr A) (sp_indptr A)) (sp_indices A).

(** asd.py:89-93 [_slot_keys]. *)
Definition slot_keys (A : spcsr) : list nat := map (key_of (sp_nc A)) (sp_pairs A).

(** asd.py:96-103 [_csr_slots].  [None]: the assertion fails, or [keys[slots]]
    raises IndexError because a slot is past the end. *)
Definition csr_slots (A : spcsr) (qs : list (nat * nat)) : option (list nat) :=
  let keys := slot_keys A in
  let q := map (key_of (sp_nc A)) qs in
  let slots := map (searchsorted keys) q in
  if forallb (fun p => (fst p <? length keys) && (nth (fst p) keys 0 =? snd p)) (combine slots q)
  then Some slots else None.

Record merged := {
  g_nr : nat; g_nc : nat;
  g_indptr : list nat; g_indices : list nat; g_nnz : nat;
  g_slots_a : list nat; g_slots_b : list nat;
  g_T_perm : list nat; g_T_indptr : list nat; g_T_indices : list nat
}.

(** scipy [A + B] on booleans (asd.py:161-163): positions of both, values or-ed,
    [false] results dropped. *)
Definition sp_add (A B : spcsr) : spcsr :=
  let entries := combine (sp_pairs A) (sp_data A) ++ combine (sp_pairs B) (sp_data B) in
  let keys := filter (fun k => existsb (fun e => (key_of (sp_nc A) (fst e) =? k) && snd e) entries)
                     (uniq (map (fun e => key_of (sp_nc A) (fst e)) entries)) in
  compress (sp_nr A) (sp_nc A) keys (map (fun _ => true) keys).

(** asd.py:150-187 [merge_csr_patterns].  [None]: one of the assertions fails.
    [S.T.tocsr(); sort_indices()] lists the slots by (column, row). *)
Definition merge_csr_patterns (pa pb : pat_in) : option merged :=
  let A := to_scipy_pattern pa in
  let B := to_scipy_pattern pb in
  if (sp_nr A =? sp_nr B) && (sp_nc A =? sp_nc B) then
    let M := sp_add A B in
    match csr_slots M (sp_pairs A), csr_slots M (sp_pairs B) with
    | Some sa, Some sb =>
        let rows := map fst (sp_pairs M) in
        let cols := map snd (sp_pairs M) in
        let t_order := argsort (map (fun p => key_of (sp_nr M) (snd p, fst p)) (sp_pairs M)) in
        Some {| g_nr := sp_nr M; g_nc := sp_nc M;
                g_indptr := sp_indptr M; g_indices := sp_indices M;
                g_nnz := length (sp_indices M);
                g_slots_a := sa; g_slots_b := sb;
                g_T_perm := t_order;
                g_T_indptr := indptr_of (sp_nc M) (gather 0 cols t_order);
                g_T_indices := gather 0 rows t_order |}
    | _, _ => None
    end
  else None.

(** asd.py:119-133: [connectivity_pattern] requires the FULL view. *)
Definition connectivity_pattern (v : view) (P : pattern) : option pat_in :=
  match v with
  | FULL => Some (PCsr (p_n P) (p_n P) (p_indptr P) (p_indices P))
  | _ => None
  end.

(** asd.py:136-147 [reduced_operator_pattern]: the positions (i, j) with a stored
    non-zero path P[k,i] K[k,l] P[l,j].  Products and sums of the 0/1 values are
    non-negative integers, so the numeric product is non-zero exactly there. *)
Definition true_pairs (A : spcsr) : list (nat * nat) :=
  map fst (filter snd (combine (sp_pairs A) (sp_data A))).
Definition reduced_operator_pattern (P Kp : pat_in) : spcsr :=
  let Pp := true_pairs (to_scipy_pattern P) in
  let Kk := true_pairs (to_scipy_pattern Kp) in
  canonical (in_nc P) (in_nc P)
    (flat_map (fun kl =>
       flat_map (fun ki => if fst ki =? fst kl then
         flat_map (fun lj => if fst lj =? snd kl then [(snd ki, snd lj, true)] else []) Pp
       else []) Pp) Kk).

(** asd.py:282-311 [verify_jacobian_pattern]: [(detected - conn) > 0] counts the
    detected positions that the connectivity pattern does not store. *)
Definition num_missing (detected conn : spcsr) : nat :=
  length (filter (fun p => negb (existsb (fun q => (fst q =? fst p) && (snd q =? snd p))
                                         (true_pairs conn)))
                 (true_pairs detected)).
Definition verify_ok (detected conn : spcsr) : bool := num_missing detected conn =? 0.

Section Data.
  Variable K : CRing.
  Local Open Scope ring_K.

  (** newton.py:455-460 [J_merged_param]: zeros, add the bulk data at [slots_a],
      then the extra data at [slots_b] (skipped when the extra pattern is empty). *)
  Definition merged_data (m : merged) (da db : list K) (extra_nnz : nat) : list K :=
    let d := scatter_add (zeros (g_nnz m)) (combine (g_slots_a m) da) in
    if (extra_nnz =? 0)%nat then d else scatter_add d (combine (g_slots_b m) db).
  Definition merged_csr (m : merged) (data : list K) : csr K :=
    @Build_csr K data (g_indptr m) (g_indices m) (g_nr m) (g_nc m).
  (** newton.py:462-465 [J_merged_T_param]. *)
  Definition merged_T (m : merged) (data : list K) : csr K :=
    transpose_with_maps (merged_csr m data) (g_T_perm m) (g_T_indptr m) (g_T_indices m).

  (** asd.py:194-210 [_csr_producer]: values in the order of the detected (row, col)
      list are set into the slots of the canonical pattern. [None]: assertion. *)
  Definition csr_producer (nr nc : nat) (rows cols : list nat) (data_pat : list K)
    : option (csr K) :=
    let pat := to_scipy_pattern (PCoo nr nc rows cols) in
    match csr_slots pat (combine rows cols) with
    | Some slots =>
        let nnz := length (sp_indices pat) in
        Some (@Build_csr K (if (nnz =? 0)%nat then [] else scatter_set (zeros nnz) (combine slots data_pat))
                (sp_indptr pat) (sp_indices pat) nr nc)
    | None => None
    end.
End Data.
Arguments merged_data {K}. Arguments merged_csr {K}. Arguments merged_T {K}.
Arguments csr_producer {K}.
