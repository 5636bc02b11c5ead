(** Model of the Newton solve that rebuilds its algebraic multigrid hierarchy.
    Source: /repo/feax/solvers/newton.py:276-391. The hierarchy construction
    ([build_amg_preconditioner]) and the Krylov iteration are arbitrary functions; the
    loop skeleton, line search and numbers are those of Newton_Model. *)
From Coq Require Import QArith ZArith Bool List Lia.
From Verif Require Import Num_Model Newton_Model.
Import ListNotations.
Open Scope Q_scope.

(** options.py:991: [rebuild_every]. newton.py:297-298: [None] is adaptive lag, a
    number [k] is [max(1, int(k))]. The value 0 never gets here (newton.py:588). *)
Inductive policy : Type := Adaptive | Period (k : nat).
Definition policy_of (rebuild_every : option Z) : policy :=
  match rebuild_every with None => Adaptive | Some k => Period (Z.to_nat (Z.max 1 k)) end.
(** newton.py:588: is the rebuilding solver chosen? *)
Definition rebuilds (rebuild_every : option Z) : bool :=
  match rebuild_every with Some k => negb (k =? 0)%Z | None => true end.

Section Lag.
  Context (T H : Type).
  (** The BC-applied residual, the eliminated tangent, the hierarchy built from a
      tangent, the Krylov solve with a hierarchy for a tangent at [sol] (right-hand
      side [-res sol]), and the norm of its linear residual [|J du - b|]. *)
  Context (res : list Q -> resid) (tangent : list Q -> T) (build : T -> H).
  Context (ksolve : H -> T -> list Q -> list Q) (lin_norm : T -> list Q -> list Q -> num).

  (** One linear solve: the hierarchy afterwards, was one built, the direction, the
      number of Krylov solves. *)
  Record lin_step : Type := { l_hier : H; l_built : bool; l_du : list Q; l_solves : nat }.
  (** newton.py:341, 357: [|J du - b| / (|b| + 1e-30)]; [|b| = |res|]. *)
  Definition lin_res (sol du : list Q) : num :=
    ndiv_pos (lin_norm (tangent sol) sol du) (nadd (r_norm (res sol)) (Fin tiny)).
  (** newton.py:343-361. *)
  Definition lin_stage (p : policy) (lag_tol : Q) (it : nat) (M : option H) (sol : list Q) : lin_step :=
    let J := tangent sol in
    let due := match p with Adaptive => false | Period k => Nat.eqb (it mod k) 0 end in
    let fresh := {| l_hier := build J; l_built := true; l_du := ksolve (build J) J sol; l_solves := 1 |} in
    match M with
    | None => fresh
    | Some m =>
        if due then fresh
        else
          let du := ksolve m J sol in
          let keep := {| l_hier := m; l_built := false; l_du := du; l_solves := 1 |} in
          match p with
          | Period _ => keep
          | Adaptive =>
              if nlt (Fin lag_tol) (lin_res sol du)
              then {| l_hier := build J; l_built := true; l_du := ksolve (build J) J sol; l_solves := 2 |}
              else keep
          end
    end.

  (** The iterate and linear solve of one pass of the loop. *)
  Record event : Type := { e_sol : list Q; e_step : lin_step }.
  Record run : Type := { a_out : hres; a_trace : list event; a_builds : nat }.
  (** newton.py:323-374; [nb] is [nbuild]. *)
  Fixpoint amg_loop (p : policy) (lag_tol : Q) (o : newton_opts) (init : num)
           (todo it : nat) (sol : list Q) (rn : num) (M : option H) (nb steps : nat)
           (last : option nat) : run :=
    match todo with
    | O => {| a_out := {| h_sol := sol; h_rn := rn; h_steps := steps; h_last := last |};
              a_trace := []; a_builds := nb |}
    | S todo =>
        let out := {| h_sol := sol; h_rn := rn; h_steps := steps; h_last := Some it |} in
        let stop := {| a_out := out; a_trace := []; a_builds := nb |} in
        if nlt rn (Fin (o_tol o)) then stop
        else if negb (Nat.eqb it 0) &&
                nlt (ndiv_pos rn (nadd init (Fin tiny))) (Fin (o_rel_tol o)) then stop
        else
          let l := lin_stage p lag_tol it M sol in
          let nb := if l_built l then S nb else nb in
          let e := {| e_sol := sol; e_step := l |} in
          match backtrack res (o_backtracks o) (o_rho o) sol (l_du l) rn 1 with
          | None => {| a_out := out; a_trace := [e]; a_builds := nb |}
          | Some (s, n) =>
              let r := amg_loop p lag_tol o init todo (S it) s n (Some (l_hier l)) nb (S steps) (Some it) in
              {| a_out := a_out r; a_trace := e :: a_trace r; a_builds := a_builds r |}
          end
    end.
  (** newton.py:319-377. *)
  Definition amg_run (p : policy) (lag_tol : Q) (o : newton_opts) (sol0 : list Q) : run :=
    let n0 := r_norm (res sol0) in
    amg_loop p lag_tol o n0 (o_max_iter o) 0 sol0 n0 None 0 0 None.
  Definition amg_converged (o : newton_opts) (sol0 : list Q) (r : run) : bool :=
    converged o (r_norm (res sol0)) (h_rn (a_out r)).
End Lag.
Arguments l_hier {H}. Arguments l_built {H}. Arguments l_du {H}. Arguments l_solves {H}.
Arguments e_sol {H}. Arguments e_step {H}.
Arguments a_out {H}. Arguments a_trace {H}. Arguments a_builds {H}.
Arguments lin_res {T}. Arguments lin_stage {T H}. Arguments amg_loop {T H}. Arguments amg_run {T H}.
Arguments amg_converged {H}.
