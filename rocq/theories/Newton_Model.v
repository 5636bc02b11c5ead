(** Model of the Newton loops and their line searches.
    Source: /repo/feax/solvers/newton.py. *)
From Coq Require Import QArith Bool List Lia.
From Verif Require Import Num_Model.
Import ListNotations.
Open Scope Q_scope.
Set Implicit Arguments.

(** [sol + alpha * delta] on vectors. *)
Definition axpy (sol : list Q) (alpha : Q) (delta : list Q) : list Q :=
  map (fun p => fst p + alpha * snd p) (combine sol delta).

(** A residual vector, reduced to what the loops look at: [np.any(np.isnan(r))] and
    [np.linalg.norm(r)]. [np.dot(r, r)] is the norm squared (exact arithmetic). *)
Record resid : Type := { r_nan : bool; r_norm : num }.
Definition r_dot (r : resid) : num := nmul (r_norm r) (r_norm r).

(** The literal [1e-30]. *)
Definition tiny : Q := 1 # 10 ^ 30.

Section Newton.
  (** The BC-applied residual and the linear solve [du = J(sol)^{-1} (-res)], both
      arbitrary. *)
  Variable res : list Q -> resid.
  Variable direction : list Q -> list Q.

  (** NewtonOptions (options.py). *)
  Record newton_opts : Type := {
    o_tol : Q; o_rel_tol : Q; o_max_iter : nat;
    o_c1 : Q; o_rho : Q; o_backtracks : nat; o_raise : bool }.

  (** newton.py:809-859 [create_armijo_line_search_scan]. The carry is
      [(alpha, best_sol, best_norm, best_alpha, found_good)]; [lax.scan] of fixed
      length. *)
  Record carry : Type := { k_alpha : Q; k_sol : list Q; k_norm : num; k_best : num; k_found : bool }.
  Definition acceptable (c1 : Q) (sol delta : list Q) (r : resid) (alpha : Q) : bool :=
    let t := res (axpy sol alpha delta) in
    let merit := nmul (Fin (1 # 2)) (nsub (nmul (r_norm t) (r_norm t)) (nmul (r_norm r) (r_norm r))) in
    negb (r_nan t) && nle merit (nmul (Fin (c1 * alpha)) (nneg (r_dot r))).
  Definition scan_step (c1 rho : Q) (sol delta : list Q) (r : resid) (c : carry) : carry :=
    let ok := acceptable c1 sol delta r (k_alpha c) in
    let upd := ok && negb (k_found c) in
    let trial := axpy sol (k_alpha c) delta in
    {| k_alpha := k_alpha c * rho;
       k_sol := if upd then trial else k_sol c;
       k_norm := if upd then r_norm (res trial) else k_norm c;
       k_best := if upd then Fin (k_alpha c) else k_best c;
       k_found := k_found c || ok |}.
  Fixpoint scan (n : nat) (f : carry -> carry) (c : carry) : carry :=
    match n with O => c | S n => scan n f (f c) end.
  (** Returns [(sol, norm, alpha, found)]. *)
  Definition armijo (o : newton_opts) (sol delta : list Q) (r : resid) : list Q * num * num * bool :=
    let c := scan (o_backtracks o) (scan_step (o_c1 o) (o_rho o) sol delta r)
                  {| k_alpha := 1; k_sol := sol; k_norm := r_norm r; k_best := NaN; k_found := false |} in
    let fallback := axpy sol (1 # 100000000) delta in
    if k_found c then (k_sol c, k_norm c, k_best c, true)
    else (fallback, r_norm (res fallback), Fin (1 # 100000000), false).

  (** newton.py:948-965 [one_step]. *)
  Definition one_step (o : newton_opts) (sol : list Q) : list Q * num * bool :=
    let '(s, n, _, f) := armijo o sol (direction sol) (res sol) in (s, n, f).

  (** newton.py:988-1024 [_forward]: the [lax.while_loop]. [cond] reads
      [it < max_iter] and two comparisons that are false on NaN. *)
  Record nstate : Type := { n_sol : list Q; n_rn : num; n_it : nat; n_found : bool }.
  Definition ncond (o : newton_opts) (res00 : num) (s : nstate) : bool :=
    Nat.ltb (n_it s) (o_max_iter o) &&
    (nlt (Fin (o_tol o)) (n_rn s) &&
     nlt (Fin (o_rel_tol o)) (ndiv_pos (n_rn s) (nmax res00 (Fin tiny)))) &&
    n_found s.
  Definition nbody (o : newton_opts) (s : nstate) : nstate :=
    let '(sol, rn, f) := one_step o (n_sol s) in
    {| n_sol := sol; n_rn := rn; n_it := S (n_it s); n_found := f |}.
  (** The loop with fuel; [None] = fuel exhausted while the condition still holds. *)
  Fixpoint while (A : Type) (fuel : nat) (cond : A -> bool) (body : A -> A) (s : A) : option A :=
    if cond s then match fuel with O => None | S f => while f cond body (body s) end
    else Some s.
  Definition ninit (sol0 : list Q) : nstate :=
    {| n_sol := sol0; n_rn := r_norm (res sol0); n_it := 0; n_found := true |}.
  Definition newton_loop (o : newton_opts) (sol0 : list Q) : option nstate :=
    while (o_max_iter o) (ncond o (r_norm (res sol0))) (nbody o) (ninit sol0).
  (** The eager call: [NewtonLineSearchError] if requested, else the solution. *)
  Inductive outcome := Returned (sol : list Q) | LineSearchError (it : nat) | NotTerminated.
  Definition newton_forward (o : newton_opts) (eager : bool) (sol0 : list Q) : outcome :=
    match newton_loop o sol0 with
    | None => NotTerminated
    | Some s => if o_raise o && eager && negb (n_found s) then LineSearchError (n_it s)
                else Returned (n_sol s)
    end.

  (** ** The host loops *)

  (** newton.py:343-352 (AMG) and 733-742 (hybrid): simple backtracking, accept any
      decrease. Returns the accepted trial with its norm. *)
  Fixpoint backtrack (n : nat) (rho : Q) (sol delta : list Q) (rn : num) (alpha : Q) : option (list Q * num) :=
    match n with
    | O => None
    | S n => let trial := axpy sol alpha delta in
             let tn := r_norm (res trial) in
             if nlt tn rn then Some (trial, tn) else backtrack n rho sol delta rn (alpha * rho)
    end.
  (** newton.py:679-778 [hybrid_solve_fn] and 319-377 [solve_fn] (AMG rebuild). The
      two loops differ in the linear solve (here [direction]) and in the hybrid
      loop's stop on a zero increment: [zero_du] is [du_norm < 1e-30], constantly
      false for AMG. [it] is the Python loop variable; the result carries the number
      of accepted steps and the last value of [it] ([None] if the loop never ran). *)
  Record hres : Type := { h_sol : list Q; h_rn : num; h_steps : nat; h_last : option nat }.
  Fixpoint host_loop (zero_du : list Q -> bool) (o : newton_opts) (init : num)
           (todo it : nat) (sol : list Q) (rn : num) (steps : nat) (last : option nat) : hres :=
    match todo with
    | O => {| h_sol := sol; h_rn := rn; h_steps := steps; h_last := last |}
    | S todo =>
        let stop := {| h_sol := sol; h_rn := rn; h_steps := steps; h_last := Some it |} in
        if nlt rn (Fin (o_tol o)) then stop
        else if negb (Nat.eqb it 0) &&
                nlt (ndiv_pos rn (nadd init (Fin tiny))) (Fin (o_rel_tol o)) then stop
        else let du := direction sol in
             if zero_du du then stop
             else match backtrack (o_backtracks o) (o_rho o) sol du rn 1 with
                  | None => stop
                  | Some (s, n) => host_loop zero_du o init todo (S it) s n (S steps) (Some it)
                  end
    end.
  Definition host_run (zero_du : list Q -> bool) (o : newton_opts) (sol0 : list Q) : hres :=
    host_loop zero_du o (r_norm (res sol0)) (o_max_iter o) 0 sol0 (r_norm (res sol0)) 0 None.
  (** newton.py:364-366, 756-757. *)
  Definition converged (o : newton_opts) (init rn : num) : bool :=
    nlt rn (Fin (o_tol o)) || nlt (ndiv_pos rn (nadd init (Fin tiny))) (Fin (o_rel_tol o)).
  (** newton.py:763-770: the hybrid solver's warning formats [it + 1], which is an
      unbound variable if the loop body never ran: [None] is UnboundLocalError. *)
  Definition hybrid_solve (zero_du : list Q -> bool) (o : newton_opts) (sol0 : list Q) :
    option (list Q * num * bool) :=
    let h := host_run zero_du o sol0 in
    let c := converged o (r_norm (res sol0)) (h_rn h) in
    match h_last h with
    | None => if c then Some (h_sol h, h_rn h, c) else None
    | Some _ => Some (h_sol h, h_rn h, c)
    end.
  (** The AMG solver formats [it] only when verbose. *)
  Definition amg_solve (o : newton_opts) (sol0 : list Q) : list Q * num * bool :=
    let h := host_run (fun _ => false) o sol0 in
    (h_sol h, h_rn h, converged o (r_norm (res sol0)) (h_rn h)).
End Newton.
