(** Model of the host-callback direct solvers: the batched block-diagonal solve and the cached
    factorisation.  Source: /repo/feax/solvers/direct/{_callback_utils,spsolve,umfpack,cholmod}.py.
    Index dtypes are not modelled (block pointers are int32 in the code: total batch x nnz below
    2^31 is assumed); JAX tracing and buffers are not modelled, arrays are values (the code copies
    every cached array). *)
From Verif Require Import Base Assembly_Model.
Import ListNotations.

Section Direct.
  Variable K : CRing.
  Local Open Scope ring_K.

  (** An array: shape and row-major data. *)
  Record tensor := { t_shape : list nat; t_data : list K }.
  Definition ndim (t : tensor) : nat := length (t_shape t).
  Definition prod (l : list nat) : nat := fold_right Nat.mul 1%nat l.

  (** A host sparse solve: dimension, CSR data, columns, row pointers, right-hand-side columns. *)
  Definition host_solver := nat -> list K -> list nat -> list nat -> list (list K) -> option (list (list K)).

  (** _callback_utils.py:78-113 [assemble_batched_csr_arrays_np]. *)
  Definition assemble_batched (blocks : list (list K)) (cols ptr : list nat) (ncols : nat) : option (list K * list nat * list nat) :=
    let nnz := last ptr 0%nat in
    if (length cols <? nnz)%nat then None
    else if existsb (fun r => (length r <? nnz)%nat) blocks then None
    else
      let cols := firstn nnz cols in
      let blocks := map (firstn nnz) blocks in
      let ks := seq 0 (length blocks) in
      Some (concat blocks,
            concat (map (fun k => map (fun c => c + k * ncols)%nat cols) ks),
            hd 0%nat ptr :: concat (map (fun k => map (fun p => p + k * nnz)%nat (tl ptr)) ks)).

  (** _callback_utils.py:116-119 [build_csr_matrix] (scipy rejects data and indices of different
      length) followed by one library solve. *)
  Definition host_solve (S : host_solver) (n : nat) (vals : list K) (cols ptr : list nat) (bs : list (list K)) : option (list (list K)) :=
    let nnz := last ptr 0%nat in
    let v := firstn nnz vals in let c := firstn nnz cols in
    if (length v =? length c)%nat then S n v c ptr bs else None.

  (** spsolve.py:61-92 / umfpack.py:116-152 / cholmod.py:104-142 and the non-batched branch of the
      host callbacks, with _callback_utils.py:16-38. *)
  Definition solve_single (S : host_solver) (b vals : tensor) (cols ptr : list nat) : option tensor :=
    match t_shape b with
    | [n] =>
        if negb (length ptr =? n + 1)%nat then None
        else if negb (ndim vals =? 1)%nat then None
        else if negb (length (t_data vals) =? length cols)%nat then None
        else match host_solve S n (t_data vals) cols ptr [t_data b] with
             | Some [x] => Some {| t_shape := [n]; t_data := x |}
             | _ => None
             end
    | _ => None
    end.

  (** _callback_utils.py:41-75 [prepare_batched_csr_payload]: batch shape, batch count, n and the
      values as one row per system, or the shared row when [bcast] is false. *)
  Inductive payload := Shared (v : list K) | Rows (r : list (list K)).
  Definition nat_list_eqb (a b : list nat) : bool := (length a =? length b)%nat && forallb (fun p => (fst p =? snd p)%nat) (combine a b).
  Definition prepare_batched (b vals : tensor) (cols ptr : list nat) (bcast : bool) : option (list nat * nat * nat * payload) :=
    if (ndim b <? 2)%nat then None
    else
      let bshape := removelast (t_shape b) in
      let n := last (t_shape b) 0%nat in
      let total := prod bshape in
      let nnz := length cols in
      if negb (length ptr =? n + 1)%nat then None
      else if (ndim vals =? 1)%nat then
        if negb (length (t_data vals) =? nnz)%nat then None
        else Some (bshape, total, n, if bcast then Rows (repeat (t_data vals) total) else Shared (t_data vals))
      else if (2 <=? ndim vals)%nat then
        if negb (nat_list_eqb (t_shape vals) (bshape ++ [nnz])) then None
        else Some (bshape, total, n, Rows (reshape total nnz (t_data vals)))
      else None.

  (** spsolve.py:95-130 and 44-58; cholmod.py:145-188 and 73-97 (batched branch). *)
  Definition solve_batched (S : host_solver) (b vals : tensor) (cols ptr : list nat) : option tensor :=
    match prepare_batched b vals cols ptr true with
    | Some (bshape, total, n, Rows rows) =>
        match assemble_batched rows cols ptr n with
        | Some (d, i, p) =>
            match host_solve S (total * n) d i p [concat (reshape total n (t_data b))] with
            | Some [x] => Some {| t_shape := bshape ++ [n]; t_data := x |}
            | _ => None
            end
        | None => None
        end
    | _ => None
    end.

  (** Transpose of an r x c array given by rows. *)
  Definition transp (r c : nat) (M : list (list K)) : list (list K) := map (fun j => map (fun i => get (nth i M []) j) (seq 0 r)) (seq 0 c).
  (** umfpack.py:155-202 and 87-110: right-hand sides packed as columns; a shared matrix is
      factorised once, otherwise one block-diagonal system in column-major order. *)
  Definition umf_batched (S : host_solver) (b vals : tensor) (cols ptr : list nat) : option tensor :=
    match prepare_batched b vals cols ptr false with
    | Some (bshape, total, n, pl) =>
        let b_cols := transp total n (reshape total n (t_data b)) in  (* (n, total) *)
        let x_cols :=
          match pl with
          | Shared v =>
              match host_solve S n v cols ptr (transp n total b_cols) with
              | Some xs => Some (transp total n xs)
              | None => None
              end
          | Rows rows =>
              match assemble_batched rows cols ptr n with
              | Some (d, i, p) =>
                  match host_solve S (n * total) d i p [concat (transp n total b_cols)] with
                  | Some [x] => Some (transp total n (reshape total n x))
                  | _ => None
                  end
              | None => None
              end
          end in
        match x_cols with
        | Some xc => Some {| t_shape := bshape ++ [n]; t_data := concat (transp n total xc) |}
        | None => None
        end
    | None => None
    end.

  (** A possibly mapped index array. *)
  Inductive mapped := One (l : list nat) | Many (ls : list (list nat)).
  Definition first_of (m : mapped) : option (list nat) :=
    match m with One l => Some l | Many (l :: _) => Some l | Many [] => None end.
  (** [jnp.broadcast_to(x, (axis,) + x.shape)]. *)
  Definition bcast (axis : nat) (t : tensor) : tensor := {| t_shape := axis :: t_shape t; t_data := concat (repeat (t_data t) axis) |}.
  (** _callback_utils.py:122-148 [prepare_solver_vmap_inputs] and the vmap rules (spsolve.py:153-180,
      umfpack.py:228-256, cholmod.py:215-245). [B] is the batched solve of the backend. *)
  Definition vmap_rule (B : tensor -> tensor -> list nat -> list nat -> option tensor) (axis : nat) (bb vb : bool) (b vals : tensor) (ptr cols : mapped) : option tensor :=
    match first_of ptr, first_of cols with
    | Some p, Some c =>
        if Bool.eqb bb vb then B b vals c p
        else if bb then B b (bcast axis vals) c p
        else B (bcast axis b) vals c p
    | _, _ => None
    end.
End Direct.

(** ** The cached factorisation *)
Section Cache.
  Variable K : CRing.

  (** The matrix handed to the library: dimension and entries ((row, column), value) by column. *)
  Record csc := { cs_n : nat; cs_ents : list (nat * nat * K) }.
  Definition cs_pat (A : csc) : nat * list (nat * nat) := (cs_n A, map fst (cs_ents A)).
  (** scipy csr_matrix(...).tocsc(): rows from the pointers, stable by column; None when scipy
      rejects the arrays. *)
  Fixpoint rows_of (r : nat) (ptr : list nat) : list nat :=
    match ptr with
    | a :: ((b :: _) as t) => repeat r (b - a) ++ rows_of (r + 1) t
    | _ => []
    end.
  Definition to_csc (n : nat) (vals : list K) (cols ptr : list nat) : option csc :=
    let nnz := last ptr 0%nat in
    let v := firstn nnz vals in let c := firstn nnz cols in
    if (length v =? length c)%nat then
      Some {| cs_n := n; cs_ents := sort_key (fun e => snd (fst e)) (combine (combine (rows_of 0 ptr) c) v) |}
    else None.

  (** The factorisation library (scikit-sparse): [fac] analyses and factorises, [refac] refills the
      numeric factor of an existing object in place (false: it raised), [sol] solves one column. *)
  Variables (cfg F : Type) (fac : cfg -> csc -> option F) (refac : F -> csc -> F * bool) (sol : F -> list K -> list K).

  (** cholmod.py:22-28, umfpack.py:27-33: the four fields are set together. *)
  Record state := { st_factor : F; st_cols : list nat; st_ptr : list nat; st_n : nat }.
  Definition leqb (a b : list nat) : bool := (length a =? length b)%nat && forallb (fun p => (fst p =? snd p)%nat) (combine a b).
  (** cholmod.py:31-56, umfpack.py:36-60. Returns the new state and the answer (None: raised). *)
  Definition cached_solve (c : cfg) (st : option state) (n : nat) (vals : list K) (cols ptr : list nat) (bs : list (list K)) : option state * option (list (list K)) :=
    match to_csc n vals cols ptr with
    | None => (st, None)
    | Some A =>
        let changed := match st with
                       | None => true
                       | Some s => negb (st_n s =? n)%nat || negb (leqb (st_cols s) cols) || negb (leqb (st_ptr s) ptr)
                       end in
        if changed then
          match fac c A with
          | Some f => (Some {| st_factor := f; st_cols := cols; st_ptr := ptr; st_n := n |}, Some (map (sol f) bs))
          | None => (st, None)
          end
        else
          match st with
          | Some s => let (f, ok) := refac (st_factor s) A in
                      (Some {| st_factor := f; st_cols := st_cols s; st_ptr := st_ptr s; st_n := st_n s |},
                       if ok then Some (map (sol f) bs) else None)
          | None => (st, None)
          end
    end.

  (** cholmod.py:59-65, umfpack.py:63-70: [lru_cache] keeps one callback, with its own state and
      the configuration it was created with, per key (configuration, namespace, batched, shared). *)
  Variable cfg_eqb : cfg -> cfg -> bool.
  Definition key := (cfg * nat * bool * bool)%type.
  Definition key_eqb (a b : key) : bool :=
    match a, b with (c, ns, ba, sh), (c', ns', ba', sh') => cfg_eqb c c' && (ns =? ns')%nat && Bool.eqb ba ba' && Bool.eqb sh sh' end.
  Definition registry := list (key * (cfg * option state)).
  Definition key_cfg (k : key) : cfg := fst (fst (fst k)).
  Fixpoint find_cb (r : registry) (k : key) : option (cfg * option state) :=
    match r with [] => None | (k', e) :: t => if key_eqb k k' then Some e else find_cb t k end.
  Fixpoint set_cb (r : registry) (k : key) (e : cfg * option state) : registry :=
    match r with [] => [(k, e)] | (k', e') :: t => if key_eqb k k' then (k', e) :: t else (k', e') :: set_cb t k e end.
  (** One solve request. *)
  Record request := { q_key : key; q_n : nat; q_vals : list K; q_cols : list nat; q_ptr : list nat; q_rhs : list (list K) }.
  Definition serve (r : registry) (q : request) : registry * option (list (list K)) :=
    let '(c, st) := match find_cb r (q_key q) with Some e => e | None => (key_cfg (q_key q), None) end in
    let (st', a) := cached_solve c st (q_n q) (q_vals q) (q_cols q) (q_ptr q) (q_rhs q) in
    (set_cb r (q_key q) (c, st'), a).
  Fixpoint serve_all (r : registry) (qs : list request) : list (option (list (list K))) :=
    match qs with [] => [] | q :: t => let (r', a) := serve r q in a :: serve_all r' t end.
  (** What a fresh factorisation of the request's own matrix gives. *)
  Definition fresh (q : request) : option (list (list K)) :=
    match to_csc (q_n q) (q_vals q) (q_cols q) (q_ptr q) with
    | Some A => match fac (key_cfg (q_key q)) A with Some f => Some (map (sol f) (q_rhs q)) | None => None end
    | None => None
    end.
End Cache.
Arguments t_shape {K}. Arguments t_data {K}. Arguments ndim {K}. Arguments Shared {K}. Arguments Rows {K}.
Arguments assemble_batched {K}. Arguments host_solve {K}. Arguments solve_single {K}. Arguments prepare_batched {K}. Arguments solve_batched {K}.
Arguments transp {K}. Arguments umf_batched {K}. Arguments bcast {K}. Arguments vmap_rule {K}.
Arguments cs_n {K}. Arguments cs_ents {K}. Arguments cs_pat {K}. Arguments to_csc {K}.
Arguments st_factor {F}. Arguments st_cols {F}. Arguments st_ptr {F}. Arguments st_n {F}.
Arguments cached_solve {K cfg F}. Arguments serve {K cfg F}. Arguments serve_all {K cfg F}. Arguments fresh {K cfg F}.
Arguments key_cfg {cfg}. Arguments find_cb {cfg F}. Arguments set_cb {cfg F}. Arguments key_eqb {cfg}.
Arguments q_key {K cfg}. Arguments q_n {K cfg}. Arguments q_vals {K cfg}. Arguments q_cols {K cfg}. Arguments q_ptr {K cfg}. Arguments q_rhs {K cfg}.
