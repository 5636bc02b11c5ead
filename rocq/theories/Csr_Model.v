(** Model of the compiled CSR structure of a Problem and of [CSRMatrix].
    Sources: /repo/feax/problem.py and /repo/feax/csr.py. *)
From Verif Require Import Base.
Set Implicit Arguments.

(** ** Element DOF numbering (problem.py:157-214) *)

(** problem.py:157-159: [offset[i+1] = offset[i] + fes[i].num_total_dofs]. *)
Fixpoint offsets_from (acc : nat) (ndofs : list nat) : list nat :=
  match ndofs with
  | [] => []
  | d :: t => acc :: offsets_from (acc + d) t
  end.
Definition offsets (ndofs : list nat) : list nat := offsets_from 0 ndofs.

(** problem.py:174-177: DOFs of one variable in one element,
    [vec*c[:, :, None] + arange(vec) + offset] flattened node-major. *)
Definition var_dofs (vec off : nat) (nodes : list nat) : list nat :=
  flat_map (fun c => map (fun k => vec * c + k + off) (seq 0 vec)) nodes.

(** problem.py:161-181 [_build_inds] for one element: concatenation over the
    variables.  [vars] lists (vec, offset, nodes of this element). *)
Definition elem_dofs (vars : list (nat * nat * list nat)) : list nat :=
  flat_map (fun v => var_dofs (fst (fst v)) (snd (fst v)) (snd v)) vars.

(** problem.py:188-189 (and 206-207 for faces): the (row, col) pairs of one
    element block, [I = repeat(inds[:, :, None])], [J = repeat(inds[:, None, :])]. *)
Definition elem_pairs (dofs : list nat) : list (nat * nat) :=
  flat_map (fun i => map (fun j => (i, j)) dofs) dofs.

(** problem.py:188-211: all COO pairs, volume elements first, then faces.
    [vol] and [faces] list the DOFs of every element / selected face cell
    (all boundary regions concatenated). *)
Definition coo_pairs (vol faces : list (list nat)) : list (nat * nat) :=
  flat_map elem_pairs vol ++ flat_map elem_pairs faces.

(** problem.py:195-214: the DOF of every raw residual entry. *)
Definition res_scatter_dofs (vol faces : list (list nat)) : list nat :=
  concat vol ++ concat faces.

(** ** Matrix view filter (problem.py:218-231; enum at the top of the file) *)
Inductive view := FULL | UPPER | LOWER.

Definition in_view (v : view) (p : nat * nat) : bool :=
  match v with
  | FULL => true
  | UPPER => fst p <=? snd p          (* J >= I *)
  | LOWER => snd p <=? fst p          (* J <= I *)
  end.

(** ** [_build_csr_assembly_structure] (problem.py:316-484) *)

(** problem.py:364: one sort key per entry. *)
Definition key_of (n : nat) (p : nat * nat) : nat := fst p * n + snd p.

(** problem.py:370-372: [is_new[0] = True; is_new[1:] = k[1:] != k[:-1]]. *)
Fixpoint neq_prev (prev : nat) (l : list nat) : list bool :=
  match l with
  | [] => []
  | x :: t => negb (x =? prev) :: neq_prev x t
  end.
Definition is_new (l : list nat) : list bool :=
  match l with
  | [] => []
  | x :: t => true :: neq_prev x t
  end.

(** problem.py:373: [cumsum(is_new) - 1]. *)
Definition seg_ids_of (flags : list bool) : list nat :=
  map (fun c => c - 1) (cumsum (map (fun b : bool => if b then 1 else 0) flags)).

(** problem.py:380-382: [indptr = zeros(n+1); add.at(indptr, rows+1, 1); cumsum]. *)
Definition count_rows (n : nat) (rows : list nat) : list nat :=
  fold_left (fun acc r => upd acc (r + 1) (nth (r + 1) acc 0 + 1)) rows (repeat 0 (n + 1)).
Definition indptr_of (n : nat) (rows : list nat) : list nat :=
  cumsum (count_rows n rows).

(** problem.py:391-394: [diag_slot = full(n, -1); diag_slot[rows[d]] = d] for the
    slots [d] with row = col.  [None] is the sentinel -1. *)
Definition diag_slots_of (n : nat) (rows cols : list nat) : list (option nat) :=
  scatter_set (repeat None n)
    (flat_map (fun s => if nth s rows 0 =? nth s cols 0
                        then [(nth s rows 0, Some s)] else [])
              (seq 0 (length rows))).

(** problem.py:401-410: unfiltered entry -> slot, or [nse] (discard bucket).
    [unique_keys[min(pos, nse-1)] == key] decides whether the entry is kept. *)
Definition full_slot_of (unique_keys : list nat) (k : nat) : nat :=
  let nse := length unique_keys in
  if nse =? 0 then 0
  else
    let pos := searchsorted unique_keys k in
    if nth (Nat.min pos (nse - 1)) unique_keys 0 =? k then pos else nse.

Record pattern := {
  p_n : nat;                       (* num_total_dofs_all_vars *)
  p_nse : nat;                     (* csr_nse *)
  p_indptr : list nat;             (* csr_indptr *)
  p_indices : list nat;            (* csr_indices *)
  p_rows : list nat;               (* csr_row_of_slot *)
  p_perm : list nat;               (* csr_perm *)
  p_seg_ids : list nat;            (* csr_seg_ids *)
  p_slot : list nat;               (* csr_slot *)
  p_diag : list (option nat);      (* csr_diag_slots *)
  p_full_slot : list nat;          (* csr_full_slot *)
  p_T_perm : list nat;             (* csr_T_perm *)
  p_T_indptr : list nat;           (* csr_T_indptr *)
  p_T_indices : list nat;          (* csr_T_indices *)
  p_struct_sym : bool              (* csr_structurally_symmetric *)
}.

Definition list_eqb (a b : list nat) : bool :=
  (length a =? length b) && forallb (fun p => fst p =? snd p) (combine a b).

(** problem.py:357-451.  [all] is (I, J); [v] the matrix view.  Index dtypes
    (int32 casts) are not modelled: all values are < 2^31 by the documented
    size limit (problem.py:434-437). *)
Definition build_csr (n : nat) (v : view) (all : list (nat * nat)) : pattern :=
  let filtered := filter (in_view v) all in
  let keys := map (key_of n) filtered in
  let order := argsort keys in
  let sorted_keys := gather 0 keys order in
  let flags := is_new sorted_keys in
  let seg := seg_ids_of flags in
  let unique_keys := mask_select sorted_keys flags in
  let rows := map (fun k => k / n) unique_keys in
  let cols := map (fun k => k mod n) unique_keys in
  let indptr := indptr_of n rows in
  let nse := length unique_keys in
  let t_keys := map (fun p => snd p * n + fst p) (combine rows cols) in
  let t_order := argsort t_keys in
  let t_rows := gather 0 cols t_order in
  let t_cols := gather 0 rows t_order in
  let t_indptr := indptr_of n t_rows in
  {| p_n := n;
     p_nse := nse;
     p_indptr := indptr;
     p_indices := cols;
     p_rows := rows;
     p_perm := order;
     p_seg_ids := seg;
     p_slot := scatter_set (repeat 0 (length keys)) (combine order seg);
     p_diag := diag_slots_of n rows cols;
     p_full_slot := map (fun p => full_slot_of unique_keys (key_of n p)) all;
     p_T_perm := t_order;
     p_T_indptr := t_indptr;
     p_T_indices := t_cols;
     p_struct_sym := list_eqb cols t_cols && list_eqb indptr t_indptr |}.

(** ** [CSRMatrix] (csr.py:24-127) *)

(** [np.diff(indptr)]. *)
Fixpoint diff (l : list nat) : list nat :=
  match l with
  | x :: ((y :: _) as t) => (y - x) :: diff t
  | _ => []
  end.

Section CSR.
  Variable K : CRing.
  Local Open Scope ring_K.

  Record csr := {
    m_data : list K;
    m_indptr : list nat;
    m_indices : list nat;
    m_nrows : nat;
    m_ncols : nat
  }.

  (** csr.py:74-78: [repeat(arange(n), diff(indptr), total_repeat_length=nse)].
      (When the repeats do not add up to nse JAX pads/truncates; the theorems
      only use pointers that add up.) *)
  Definition row_of_slot (A : csr) : list nat :=
    flat_map (fun p => repeat (fst p) (snd p))
             (combine (seq 0 (m_nrows A)) (diff (m_indptr A))).

  (** csr.py:81-90 [A @ v]. *)
  Definition matvec (A : csr) (v : list K) : list K :=
    segment_sum (m_nrows A)
      (map (fun p => fst p * get v (snd p)) (combine (m_data A) (m_indices A)))
      (row_of_slot A).

  (** csr.py:92-100 [A.rmatvec(w)], also [A.T @ w] (CSRTranspose, csr.py:144-172). *)
  Definition rmatvec (A : csr) (w : list K) : list K :=
    segment_sum (m_ncols A)
      (map (fun p => fst p * get w (snd p)) (combine (m_data A) (row_of_slot A)))
      (m_indices A).

  (** csr.py:115-121 [A.diagonal()]. *)
  Definition diagonal (A : csr) : list K :=
    segment_sum (m_nrows A)
      (map (fun p => if fst (snd p) =? snd (snd p) then fst p else 0)
           (combine (m_data A) (combine (row_of_slot A) (m_indices A))))
      (row_of_slot A).

  (** csr.py:124-127 [A.todense()[i, j]]: zeros, then [.at[rows, indices].add(data)]. *)
  Definition todense (A : csr) (i j : nat) : K :=
    sumf (fun p => if (fst (fst p) =? i) && (snd (fst p) =? j) then snd p else 0)
         (combine (combine (row_of_slot A) (m_indices A)) (m_data A)).

  (** csr.py:130-141 [transpose_with_maps]. *)
  Definition transpose_with_maps (A : csr) (T_perm T_indptr T_indices : list nat) : csr :=
    {| m_data := gather 0 (m_data A) T_perm;
       m_indptr := T_indptr; m_indices := T_indices;
       m_nrows := m_ncols A; m_ncols := m_nrows A |}.

  (** A matrix carrying a compiled pattern (assembler.py wraps
      [CSRMatrix(data, problem.csr_indptr, problem.csr_indices, (n, n))]). *)
  Definition csr_of (P : pattern) (data : list K) : csr :=
    {| m_data := data; m_indptr := p_indptr P; m_indices := p_indices P;
       m_nrows := p_n P; m_ncols := p_n P |}.

  (** assembler.py:1147-1161 [_csr_data_from_values]: filter, permute to sorted
      order, one sorted segment-sum. [all] is needed for the filter indices. *)
  Definition csr_data_from_values (P : pattern) (v : view) (all : list (nat * nat))
             (V : list K) : list K :=
    let V_f := map snd (filter (fun q => in_view v (fst q)) (combine all V)) in
    segment_sum (p_nse P) (gather 0 V_f (p_perm P)) (p_seg_ids P).

  (** The scatter form [zeros(nse+1).at[full_slot].add(V)][:nse]: entries of the
      discard bucket are dropped. *)
  Definition csr_data_scatter (P : pattern) (V : list K) : list K :=
    firstn (p_nse P) (segment_sum (p_nse P + 1) V (p_full_slot P)).

  (** solvers/common.py:364-373 [_matvec_with_matrix_view] for UPPER/LOWER:
      [A @ x + A.T @ x - diag * x]; FULL: [A @ x]. *)
  Definition matvec_with_view (v : view) (A : csr) (x : list K) : list K :=
    match v with
    | FULL => matvec A x
    | _ => map (fun i => get (matvec A x) i + get (rmatvec A x) i
                         - get (diagonal A) i * get x i)
               (seq 0 (m_nrows A))
    end.
End CSR.
Arguments csr_of {K} P data.
Arguments csr_data_from_values {K} P v all V.
Arguments csr_data_scatter {K} P V.
Arguments Build_csr {K} _ _ _ _ _.
