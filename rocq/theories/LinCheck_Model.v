(** The linear-solve wrappers of /repo/feax/solvers/common.py and /repo/feax/solvers/linear.py:
    the residual check that replaces an unconverged solution by NaN, the Jacobi preconditioner,
    and the direct-solver closure that keeps the sparsity pattern of its first call.
    Numbers are exact reals or NaN ([None]); infinities and rounding are not modelled. *)
From Coq Require Import Reals List Arith Bool Lra Lia.
From Verif Require Import Base Tmc_Model.
Import ListNotations.
Open Scope R_scope.

(** A floating-point value: finite or NaN; every operation on NaN gives NaN. *)
Definition fl : Type := option R.
(** a sum of floats *)
Definition fadd (a b : fl) : fl := match a, b with Some x, Some y => Some (x + y) | _, _ => None end.
(** a difference of floats *)
Definition fsub (a b : fl) : fl := match a, b with Some x, Some y => Some (x - y) | _, _ => None end.
(** a product of floats *)
Definition fmul (a b : fl) : fl := match a, b with Some x, Some y => Some (x * y) | _, _ => None end.
(** a vector of length [n] is a function read below [n] *)
Definition fvec : Type := nat -> fl.

(** One stored entry of a sparse matrix (BCOO triple, or CSR entry with its row): row, column, value.
    Simplification: one list of triples for both formats; duplicates are summed by every product. *)
Definition entry : Type := (nat * nat * R)%type.
(** its row *)
Definition erow (e : entry) : nat := fst (fst e).
(** its column *)
Definition ecol (e : entry) : nat := snd (fst e).
(** its value *)
Definition eval (e : entry) : R := snd e.

(** [A @ x] of an [n] by [n] sparse matrix; padding entries (index [n] or more) are dropped. *)
Fixpoint spmv (n : nat) (T : list entry) (x : fvec) (i : nat) : fl :=
  match T with
  | [] => Some 0
  | e :: t => if (erow e =? i) && (ecol e <? n) then fadd (fmul (Some (eval e)) (x (ecol e))) (spmv n t x i) else spmv n t x i
  end.

(** [A.transpose()] *)
Definition transpose (T : list entry) : list entry := map (fun e => ((ecol e, erow e), eval e)) T.

(** common.py:351-361 [_extract_sparse_diagonal]: off-diagonal entries are sent to the index [n],
    where the scatter drops them. *)
Fixpoint sp_diag (n : nat) (T : list entry) (i : nat) : R :=
  match T with
  | [] => 0
  | e :: t =>
      let mask := erow e =? ecol e in
      let idx := if mask then erow e else n in
      let v := if mask then eval e else 0 in
      if (idx <? n) && (idx =? i) then v + sp_diag n t i else sp_diag n t i
  end.

(** problem.py [MatrixView] *)
Inductive view := FULL | UPPER | LOWER.

(** common.py:364-373 [_matvec_with_matrix_view] for a stored matrix. *)
Definition view_mv (n : nat) (v : view) (T : list entry) (x : fvec) (i : nat) : fl :=
  match v with
  | FULL => spmv n T x i
  | _ => fsub (fadd (spmv n T x i) (spmv n (transpose T) x i)) (fmul (Some (sp_diag n T i)) (x i))
  end.

(** the sum of squares of a float vector *)
Fixpoint fsq (n : nat) (x : fvec) : fl := match n with O => Some 0 | S k => fadd (fsq k x) (fmul (x k) (x k)) end.
(** [np.linalg.norm] *)
Definition fnorm (n : nat) (x : fvec) : fl := option_map sqrt (fsq n x).

(** common.py:376-395 [check_convergence]: [x] if the relative residual is below the threshold,
    and NaN everywhere otherwise; a comparison with NaN is false. *)
Definition check_conv (n : nat) (v : view) (T : list entry) (x b : fvec) (thr : R) : fvec :=
  let rn := fnorm n (fun i => fsub (view_mv n v T x i) (b i)) in
  let bn := fnorm n b in
  match rn, bn with
  | Some r, Some s => if Rlt_dec (r / (s + / 10 ^ 12)) thr then x else (fun _ => None)
  | _, _ => fun _ => None
  end.

(** linear.py:119-165 [linear_solve] after assembly: [b = -res], the increment [delta] from the
    configured solver, the optional check, and [sol = initial_guess + delta_sol]. *)
Definition linear_solve (n : nat) (v : view) (J : list entry) (res u0 : fvec) (solve : list entry -> fvec -> fvec)
    (check : bool) (thr : R) : fvec :=
  let b := fun i => fsub (Some 0) (res i) in
  let delta := solve J b in
  let delta := if check then check_conv n v J delta b thr else delta in
  fun i => fadd (u0 i) (delta i).

(** common.py:86-94 [create_jacobi_preconditioner] *)
Definition jacobi (n : nat) (T : list entry) (shift : R) (x : nat -> R) (i : nat) : R :=
  / (sp_diag n T i + shift) * x i.

(** ** the direct-solver closure *)
(** A CSR matrix as the solver sees it: values, row offsets, column indices (arrays may be padded). *)
Record csr := mkCsr { c_data : list R; c_offs : list nat; c_cols : list nat }.
(** [int(csr_offsets[-1])] *)
Definition nnz_of (offs : list nat) : nat := last offs 0%nat.

(** What the closure holds after its first call: offsets, trimmed columns, number of entries. *)
Record cstate := mkSt { s_offs : list nat; s_cols : list nat; s_nnz : nat }.

(** common.py:180-204: the first call builds the solver from the pattern of its matrix; each call
    passes only the first [nnz] values to the solver held by the closure. *)
Definition cudss_call (be : list nat -> list nat -> list R -> list R -> list R) (st : option cstate) (A : csr) (b : list R) : cstate * list R :=
  let st' := match st with
             | None => let k := nnz_of (c_offs A) in mkSt (c_offs A) (firstn k (c_cols A)) k
             | Some s => s
             end in
  (st', be (s_offs st') (s_cols st') (firstn (s_nnz st') (c_data A)) b).

(** a history of calls of one closure, from its current state: the answers in order *)
Fixpoint cudss_run be (st : option cstate) (calls : list (csr * list R)) : list (list R) :=
  match calls with
  | [] => []
  | (A, b) :: t => let (s, x) := cudss_call be st A b in x :: cudss_run be (Some s) t
  end.

(** common.py:299-348 [prewarm_direct_solvers]: which closures are called once on the sample
    Jacobian; with one closure for both directions it is called once. The pair is the state of the
    forward and the adjoint closure; [same] says that they are one object. *)
Definition prewarm be (have_params fwd_direct adj_direct same : bool) (J : csr) (zero : list R) (fwd adj : option cstate) : option cstate * option cstate :=
  if negb have_params then (fwd, adj)
  else if negb (fwd_direct || adj_direct) then (fwd, adj)
  else
    let fwd1 := if fwd_direct then Some (fst (cudss_call be fwd J zero)) else fwd in
    let adj0 := if same then fwd1 else adj in
    let adj1 := if adj_direct && negb same then Some (fst (cudss_call be adj0 J zero)) else adj0 in
    (fwd1, adj1).
