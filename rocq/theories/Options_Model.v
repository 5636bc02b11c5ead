(** Model of solver options, automatic selection and the create_solver dispatch.
    Source: /repo/feax/solvers/options.py, /repo/feax/solver.py, and the option handling of
    /repo/feax/solvers/{linear,newton,reduced,amg,common}.py.  Callables (preconditioners, x0
    functions) are opaque tags; warnings, logging and verbose output are not modelled. *)
From Coq Require Import String ZArith QArith Bool List Arith.
Import ListNotations.
Local Open Scope string_scope.

(** A Python call that returns or raises. *)
Inductive out (A : Type) := Ret (a : A) | ValErr | TypErr | RunErr.
Arguments Ret {A} a. Arguments ValErr {A}. Arguments TypErr {A}. Arguments RunErr {A}.
Definition bind {A B} (x : out A) (f : A -> out B) : out B :=
  match x with Ret a => f a | ValErr => ValErr | TypErr => TypErr | RunErr => RunErr end.
Definition mem (s : string) (l : list string) : bool := existsb (String.eqb s) l.

(** The runtime: JAX default backend and importable packages. *)
Inductive backend := CPU | GPU | OtherBackend.
Record env := { e_backend : backend; e_spineax : bool; e_cholmod : bool; e_umfpack : bool }.

(** options.py:84-110: the three probes. *)
Definition has_cudss (e : env) : bool := match e_backend e with GPU => e_spineax e | _ => false end.
Definition has_cholmod (e : env) : bool := match e_backend e with CPU => e_cholmod e | _ => false end.
Definition has_umfpack (e : env) : bool := match e_backend e with CPU => e_umfpack e | _ => false end.
(** options.py:112-142, a specific solver. *)
Definition detect_one (e : env) (s : string) : out (list string) :=
  if s =? "spsolve" then match e_backend e with CPU => Ret ["spsolve"] | _ => RunErr end
  else if s =? "cudss" then match e_backend e with GPU => if e_spineax e then Ret ["cudss"] else RunErr | _ => RunErr end
  else if s =? "cholmod" then match e_backend e with CPU => if e_cholmod e then Ret ["cholmod"] else RunErr | _ => RunErr end
  else if s =? "umfpack" then match e_backend e with CPU => if e_umfpack e then Ret ["umfpack"] else RunErr | _ => RunErr end
  else ValErr.
(** options.py:144-152, "auto" (the order of the returned tuple is immaterial). *)
Definition detect_all (e : env) : list string :=
  (match e_backend e with CPU => ["spsolve"] | _ => [] end ++ (if has_cudss e then ["cudss"] else []) ++
   (if has_cholmod e then ["cholmod"] else []) ++ (if has_umfpack e then ["umfpack"] else []))%list.

(** options.py:159-171 [MatrixProperty]; problem.py [MatrixView]. *)
Inductive mprop := MGeneral | MSymmetric | MSpd.
Inductive mview := VFull | VUpper | VLower.
(** options.py:173-185. *)
Definition view_of (p : mprop) : mview := match p with MGeneral => VFull | _ => VUpper end.

(** options.py:261-276 (enumerations; HERMITIAN and HPD are rejected at construction). *)
Inductive cmtype := CGeneral | CSymmetric | CHermitian | CSpd | CHpd.
Definition cm_value (t : cmtype) : Z := match t with CGeneral => 0 | CSymmetric => 1 | CHermitian => 2 | CSpd => 3 | CHpd => 4 end.
Record cudss := { c_type : cmtype; c_view : mview; c_device : Z }.
(** options.py:374-379 (enum arguments; string and integer spellings are [cm_of_value] below). *)
Definition make_cudss (t : cmtype) (v : mview) (d : Z) : out cudss :=
  match t with CHermitian | CHpd => ValErr | _ => Ret {| c_type := t; c_view := v; c_device := d |} end.
(** options.py:349-355, 366-372: integer spellings. *)
Definition cm_of_value (z : Z) : out cmtype :=
  if (z =? 0)%Z then Ret CGeneral else if (z =? 1)%Z then Ret CSymmetric else if (z =? 2)%Z then Ret CHermitian
  else if (z =? 3)%Z then Ret CSpd else if (z =? 4)%Z then Ret CHpd else ValErr.
Definition cv_of_value (z : Z) : out mview :=
  if (z =? 0)%Z then Ret VFull else if (z =? 1)%Z then Ret VUpper else if (z =? 2)%Z then Ret VLower else ValErr.
Definition default_cudss : cudss := {| c_type := CSymmetric; c_view := VFull; c_device := 0 |}.

(** options.py:423-441. *)
Record sksparse := { s_vmap : string; s_order : option string; s_lower : bool }.
Definition make_sksparse (vm : string) (ord : option string) (low : bool) : out sksparse :=
  match ord with
  | Some o => if mem o ["default"; "best"; "metis"; "nesdis"; "amd"; "colamd"; "postordered"; "natural"] then
                if mem vm ["expand_dims"; "sequential"; "broadcast_all"] then Ret {| s_vmap := vm; s_order := Some o; s_lower := low |} else ValErr
              else ValErr
  | None => ValErr
  end.
Definition default_sksparse : sksparse := {| s_vmap := "broadcast_all"; s_order := Some "amd"; s_lower := false |}.

(** options.py:444-463: fields common to all option classes. *)
Record common := { b_verbose : bool; b_check : bool; b_threshold : Q }.

(** options.py:613-633. *)
Record direct := { d_solver : string; d_cudss : cudss; d_sk : sksparse; d_reuse : bool; d_common : common }.
Definition make_direct (s : string) (c : option cudss) (k : option sksparse) (r : bool) (b : common) : out direct :=
  if mem s ["auto"; "cudss"; "spsolve"; "umfpack"; "cholmod"] then
    Ret {| d_solver := s; d_cudss := match c with Some c => c | None => default_cudss end;
           d_sk := match k with Some k => k | None => default_sksparse end; d_reuse := r; d_common := b |}
  else ValErr.

(** options.py:637-776 [resolve_direct_solver]. *)
Definition cudss_type_of (p : mprop) : cmtype := match p with MSpd => CSpd | MSymmetric => CSymmetric | MGeneral => CGeneral end.
Definition pick_host (avail : list string) (p : mprop) : out string :=
  match p with
  | MSpd => if mem "cholmod" avail then Ret "cholmod" else if mem "umfpack" avail then Ret "umfpack"
            else if mem "spsolve" avail then Ret "spsolve" else RunErr
  | _ => if mem "umfpack" avail then Ret "umfpack" else if mem "spsolve" avail then Ret "spsolve" else RunErr
  end.
Definition resolve_direct (e : env) (o : direct) (p : mprop) (v : mview) : out direct :=
  if negb (d_solver o =? "auto") then
    bind (detect_one e (d_solver o)) (fun _ => make_direct (d_solver o) (Some (d_cudss o)) (Some (d_sk o)) (d_reuse o) (d_common o))
  else
    let avail := detect_all e in
    if mem "cudss" avail then
      let cv := match v with VUpper => VUpper | VLower => VLower | VFull => c_view (d_cudss o) end in
      bind (make_cudss (cudss_type_of p) cv (c_device (d_cudss o))) (fun c =>
      make_direct "cudss" (Some c) (Some (d_sk o)) (d_reuse o) (d_common o))
    else
      bind (pick_host avail p) (fun s =>
      let low := match p, v with
                 | MSpd, VUpper => false | MSpd, _ => true | _, _ => s_lower (d_sk o) end in
      bind (make_sksparse (s_vmap (d_sk o)) (s_order (d_sk o)) low) (fun k =>
      make_direct s (Some (d_cudss o)) (Some k) (d_reuse o) (d_common o))).

(** options.py:816-835. *)
Inductive precond := PNone | PUser (tag : nat) | PAmg.
Record krylov := { k_solver : string; k_tol : Q; k_atol : Q; k_maxiter : Z; k_pre : precond; k_jacobi : bool; k_shift : Q;
                   k_restart : option Z; k_x0 : option nat; k_common : common }.
Definition make_krylov (s : string) (tol atol : Q) (mi : Z) (pre : precond) (jac : bool) (sh : Q) (re : option Z) (x0 : option nat) (b : common) : out krylov :=
  if mem s ["auto"; "cg"; "bicgstab"; "gmres"] then
    Ret {| k_solver := s; k_tol := tol; k_atol := atol; k_maxiter := mi; k_pre := pre; k_jacobi := jac; k_shift := sh; k_restart := re; k_x0 := x0; k_common := b |}
  else ValErr.
(** options.py:837-889 [resolve_iterative_solver]: note that [restart] is not passed on. *)
Definition resolve_iterative (o : krylov) (p : mprop) : out krylov :=
  if negb (k_solver o =? "auto") then Ret o
  else make_krylov (match p with MSpd => "cg" | MSymmetric => "bicgstab" | MGeneral => "gmres" end)
         (k_tol o) (k_atol o) (k_maxiter o) (k_pre o) (k_jacobi o) (k_shift o) None (k_x0 o) (k_common o).
(** common.py:221-227 [choose_preconditioner] for a matrix-free operator ([callable]) or an
    assembled one. *)
Inductive used_pre := UNone | UUser (tag : nat) | UAmg | UJacobi (shift : Q).
Definition choose_pre (o : krylov) (callable : bool) : used_pre :=
  match k_pre o with
  | PNone => if k_jacobi o then (if callable then UNone else UJacobi (k_shift o)) else UNone
  | PUser t => UUser t
  | PAmg => UAmg
  end.
(** common.py:253-263: GMRES restart ([restart or 20]). *)
Definition gmres_restart (o : krylov) : Z := match k_restart o with Some r => if (r =? 0)%Z then 20 else r | None => 20 end.

(** options.py:971-1005 (fields that matter for dispatch). [a_rebuild]: None, Some 0, Some k. *)
Record amg := { a_solver : string; a_tol : Q; a_atol : Q; a_maxiter : Z; a_restart : option Z; a_rebuild : option Z; a_common : common }.
Definition make_amg (s : string) (tol atol : Q) (mi : Z) (re rb : option Z) (b : common) : out amg :=
  if mem s ["auto"; "cg"; "gmres"; "bicgstab"] then
    Ret {| a_solver := s; a_tol := tol; a_atol := atol; a_maxiter := mi; a_restart := re; a_rebuild := rb; a_common := b |}
  else ValErr.
(** amg.py:224-275 [amg_to_krylov_options]; [p] is the property detected on the sample. *)
Definition amg_to_krylov (o : amg) (traced : bool) (p : mprop) : out krylov :=
  if negb traced then ValErr
  else make_krylov (if a_solver o =? "auto" then match p with MSpd => "cg" | _ => "gmres" end else a_solver o)
         (a_tol o) (a_atol o) (a_maxiter o) PAmg false (1 # 1000000000000) (a_restart o) None (a_common o).

(** Objects a caller can pass as solver options. [Foreign]: an object of another class. The
    removed SolverOptions cannot be constructed (options.py:582-586 raises). *)
Inductive lin := Direct (d : direct) | Krylov (k : krylov) | Amg (a : amg) | Foreign.
Definition is_direct (l : lin) : bool := match l with Direct _ => true | _ => false end.
Definition is_krylov (l : lin) : bool := match l with Krylov _ => true | _ => false end.
Definition known (l : lin) : bool := match l with Foreign => false | _ => true end.
(** The adjoint argument: omitted, the same object, or another object. *)
Inductive adj := AdjDefault | AdjSame | AdjOther (l : lin).

(** Arguments of create_solver (solver.py:48-61) that select behaviour; [g_mp s] is the
    property detect_matrix_property reports for the sample tangent built with elimination mode
    [s]; [g_pairing_ok]: reduced.py:45-77 accepts the boundary conditions. *)
Record args := { g_opts : option lin; g_adj : adj; g_linear : bool; g_P : bool; g_traced : bool; g_extra : bool; g_sym : bool;
                 g_view : mview; g_mp : bool -> mprop; g_pairing_ok : bool }.

(** What was built. [pl_extra]: the extra residual is part of the solved equations; [pl_sym]: the
    elimination mode used; [pl_adj_matfree]: the adjoint operator is a matvec, not a matrix. *)
Inductive kind := KReduced | KLinear | KNewton | KNewtonAmg | KNewtonExtraDirect | KNewtonExtraKrylov.
Record plan := { pl_kind : kind; pl_fwd : lin; pl_adj : lin; pl_sym : bool; pl_extra : bool; pl_adj_matfree : bool }.

(** reduced.py:117-150: one side of the reduced solve. *)
Definition reduced_side (e : env) (v : mview) (l : lin) : out lin :=
  match l with
  | Direct d => if d_solver d =? "auto" then bind (resolve_direct e d MSpd v) (fun d => Ret (Direct d)) else Ret (Direct d)
  | Amg a => Ret (Amg {| a_solver := if a_solver a =? "auto" then "cg" else a_solver a; a_tol := a_tol a; a_atol := a_atol a; a_maxiter := a_maxiter a;
                         a_restart := a_restart a; a_rebuild := a_rebuild a; a_common := a_common a |})
  | Krylov k => bind (resolve_iterative k MSpd) (fun k => Ret (Krylov k))
  | Foreign => TypErr
  end.
(** reduced.py:153-345. *)
Definition create_reduced (e : env) (g : args) (f a : lin) : out plan :=
  if negb (known f) then TypErr else if negb (known a) then TypErr
  else if negb (g_pairing_ok g) then ValErr
  else bind (reduced_side e (g_view g) f) (fun f => bind (reduced_side e (g_view g) a) (fun a =>
       Ret {| pl_kind := KReduced; pl_fwd := f; pl_adj := a; pl_sym := true; pl_extra := false; pl_adj_matfree := is_krylov a |})).

(** linear.py:166-354 [create_linear_solver] with both options given. *)
Definition lower_linear (e : env) (g : args) (sym : bool) (l : lin) : out lin :=
  bind (match l with Amg a => bind (amg_to_krylov a (g_traced g) (g_mp g sym)) (fun k => Ret (Krylov k)) | _ => Ret l end) (fun l =>
  match l with
  | Krylov k => bind (resolve_iterative k MSpd) (fun k => Ret (Krylov k))
  | Direct d => bind (resolve_direct e d MSpd (g_view g)) (fun d => Ret (Direct d))
  | _ => TypErr
  end).
Definition create_linear (e : env) (g : args) (f : lin) (a : option lin) (sym : bool) : out plan :=
  let a' := match a with Some a => a | None => f end in
  if negb (known f) then TypErr else if negb (known a') then TypErr
  else bind (lower_linear e g sym f) (fun f =>
       bind (match a with None => Ret f | Some a => lower_linear e g sym a end) (fun a =>
       Ret {| pl_kind := KLinear; pl_fwd := f; pl_adj := a; pl_sym := sym; pl_extra := false; pl_adj_matfree := negb (is_direct a) |})).

(** common.py:115-125, 207-219, 267-296 [create_linear_solve_fn]: unresolved options are rejected. *)
Definition solve_fn (l : lin) : out unit :=
  match l with
  | Direct d => if d_solver d =? "auto" then ValErr else if mem (d_solver d) ["cudss"; "spsolve"; "umfpack"; "cholmod"] then Ret tt else ValErr
  | Krylov k => if k_solver k =? "auto" then ValErr else if mem (k_solver k) ["cg"; "bicgstab"; "gmres"] then Ret tt else ValErr
  | _ => TypErr
  end.
(** newton.py:550-806 [create_newton_solver] (and 276-391, 394-547, 863-936). *)
Definition create_newton (e : env) (g : args) (f : lin) (a : option lin) : out plan :=
  let rebuild := match f with Amg o => match a_rebuild o with Some r => negb (r =? 0)%Z | None => true end | _ => false end in
  if rebuild then
    (* the adjoint options and the extra residual are not passed on (589-593) *)
    Ret {| pl_kind := KNewtonAmg; pl_fwd := f; pl_adj := f; pl_sym := g_sym g; pl_extra := false; pl_adj_matfree := false |}
  else
    bind (match f with Amg o => bind (amg_to_krylov o (g_traced g) (g_mp g (g_sym g))) (fun k => Ret (Krylov k)) | _ => Ret f end) (fun f =>
    bind (match a with
          | None => Ret f
          | Some (Amg o) => bind (amg_to_krylov o (g_traced g) (g_mp g (g_sym g))) (fun k => Ret (Krylov k))
          | Some a => Ret a
          end) (fun a =>
    bind (if g_extra g && is_direct f then match g_view g with VFull => Ret tt | _ => ValErr end
          else if g_extra g && negb (is_krylov f) then TypErr else Ret tt) (fun _ =>
    bind (solve_fn f) (fun _ => bind (solve_fn a) (fun _ =>
    if g_extra g then
      if is_direct f then
        Ret {| pl_kind := KNewtonExtraDirect; pl_fwd := f; pl_adj := a; pl_sym := g_sym g; pl_extra := true; pl_adj_matfree := negb (is_direct a) |}
      else
        Ret {| pl_kind := KNewtonExtraKrylov; pl_fwd := f; pl_adj := a; pl_sym := g_sym g; pl_extra := true; pl_adj_matfree := true |}
    else
      Ret {| pl_kind := KNewton; pl_fwd := f; pl_adj := a; pl_sym := g_sym g; pl_extra := false; pl_adj_matfree := negb (is_direct a) |}))))).

(** solver.py:308-310. *)
Definition auto (l : lin) : bool := match l with Direct d => d_solver d =? "auto" | Krylov k => k_solver k =? "auto" | _ => false end.
(** solver.py:357-373. *)
Definition resolve_auto (e : env) (g : args) (l : lin) : out lin :=
  match l with
  | Direct d => if d_solver d =? "auto" then bind (resolve_direct e d (g_mp g (g_sym g)) (g_view g)) (fun d => Ret (Direct d)) else Ret l
  | Krylov k => if k_solver k =? "auto" then bind (resolve_iterative k (g_mp g (g_sym g))) (fun k => Ret (Krylov k)) else Ret l
  | _ => Ret l
  end.
Definition default_common : common := {| b_verbose := false; b_check := false; b_threshold := 1 # 10 |}.
Definition default_direct : direct := {| d_solver := "auto"; d_cudss := default_cudss; d_sk := default_sksparse; d_reuse := false; d_common := default_common |}.
Definition default_krylov : krylov :=
  {| k_solver := "auto"; k_tol := 1 # 10000000000; k_atol := 1 # 10000000000; k_maxiter := 10000; k_pre := PNone; k_jacobi := false;
     k_shift := 1 # 1000000000000; k_restart := None; k_x0 := None; k_common := default_common |}.
(** solver.py:232-416 [create_solver]. *)
Definition create_solver (e : env) (g : args) : out plan :=
  if g_extra g && g_linear g then ValErr
  else if g_extra g && g_P g then ValErr
  else if g_P g then
    let f := match g_opts g with Some l => l | None => Krylov default_krylov end in
    let a := match g_adj g with AdjOther l => l | _ => f end in
    if negb (known f) then ValErr else if negb (known a) then ValErr
    else create_reduced e g f a
  else
    let f := match g_opts g with Some l => l | None => Direct default_direct end in
    let a := match g_adj g with AdjOther l => Some l | _ => None end in (* None: the same object *)
    let needs := auto f || match a with Some a => auto a | None => false end in
    if needs && negb (g_traced g) then ValErr
    else if negb (known f) then TypErr
    else if negb (match a with Some a => known a | None => true end) then TypErr
    else
      bind (if needs then resolve_auto e g f else Ret f) (fun f =>
      bind (match a with
            | None => Ret None
            | Some a => bind (if needs then resolve_auto e g a else Ret a) (fun a => Ret (Some a))
            end) (fun a =>
      if g_linear g then create_linear e g f a true (* symmetric_elimination is not passed on (396-403) *)
      else create_newton e g f a)).

(** ** Property detection and what the chosen backend factorises *)
Definition mat := nat -> nat -> Q.
Definition qsumn (n : nat) (f : nat -> Q) : Q := fold_right Qplus 0 (map f (seq 0 n)).
(** options.py:188-259 [detect_matrix_property] on an n x n matrix with stored entries [A]; [x] is
    the random probe, [nrm] the norm, tolerance [tol]. *)
Definition mat_apply (n : nat) (A : mat) (x : nat -> Q) : nat -> Q := fun i => qsumn n (fun j => A i j * x j).
Definition mat_t (A : mat) : mat := fun i j => A j i.
Definition detect_property (n : nat) (nrm : (nat -> Q) -> Q) (tol : Q) (A : mat) (x : nat -> Q) (v : mview) : mprop :=
  let sym := match v with
             | VFull => let ax := mat_apply n A x in
                        negb (Qle_bool tol (nrm (fun i => ax i - mat_apply n (mat_t A) x i) / (nrm ax + (1 # 1000000000000000000000000000000))))
             | _ => true
             end in
  if negb sym then MGeneral
  else if forallb (fun i => negb (Qle_bool (A i i) 0)) (seq 0 n) then MSpd else MSymmetric.

(** problem.py: the entries a view keeps. *)
Definition store (v : mview) (A : mat) : mat := fun i j =>
  match v with VFull => A i j | VUpper => if (i <=? j)%nat then A i j else 0 | VLower => if (j <=? i)%nat then A i j else 0 end.
(** Library semantics (assumed, not feax code): UMFPACK and SuperLU factorise the matrix they are
    given; CHOLMOD with [lower] reads one triangle and mirrors it; cuDSS reads the view for
    symmetric types and the whole matrix for GENERAL. *)
Definition mirror (lower : bool) (S : mat) : mat := fun i j => if lower then (if (j <=? i)%nat then S i j else S j i) else (if (i <=? j)%nat then S i j else S j i).
Definition factorised (d : direct) (S : mat) : mat :=
  if d_solver d =? "cholmod" then mirror (s_lower (d_sk d)) S
  else if d_solver d =? "cudss" then
    match c_type (d_cudss d) with
    | CGeneral => S
    | _ => match c_view (d_cudss d) with VFull => S | VUpper => mirror false S | VLower => mirror true S end
    end
  else S.
