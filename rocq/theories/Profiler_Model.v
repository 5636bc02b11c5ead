(** Model of the profiling tools (feax/profiler.py). The clock is a function from the number of readings taken so far to
    the time read; states, residuals and user functions are arguments. *)
From Coq Require Import Reals List Arith Bool String.
From Verif Require Import Layered_Model.
Import ListNotations.
Open Scope R_scope.

(** profiler.py:104-109 [_count_primitives]: a dict in insertion order. *)
Definition counts := list (string * nat).
Fixpoint bump (name : string) (d : counts) : counts :=
  match d with [] => [(name, 1%nat)] | (k, c) :: d => if String.eqb k name then (k, (c + 1)%nat) :: d else (k, c) :: bump name d end.
Definition count_primitives (eqns : list string) : counts := fold_left (fun d e => bump e d) eqns [].
(** profiler.py:100-101 [_top_n]: [sorted] by decreasing count (stable), then a prefix. *)
Fixpoint place (x : string * nat) (l : counts) : counts :=
  match l with [] => [x] | y :: l => if (snd y <? snd x)%nat then x :: y :: l else y :: place x l end.
Definition sort_desc (l : counts) : counts := fold_left (fun acc x => place x acc) l [].
Definition top_n (d : counts) (n : nat) : counts := firstn n (sort_desc d).

(** profiler.py:160-177 [TimingRecord], [TimingResult.total_s]. *)
Record trecord := { t_label : string; t_wall : R }.
Definition total_s (l : list trecord) : R := rsuml (map t_wall l).

Section Clocked.
Variable clk : nat -> R.
(** profiler.py:190-215 [profile]: the block returns or raises; one record either way. *)
Inductive ended (A : Type) := Returned (a : A) | Raised.
Arguments Returned {A}. Arguments Raised {A}.
Definition profile {A} (label : string) (body : nat -> nat * ended A) (tick : nat) : nat * ended A * list trecord :=
  let start := clk tick in
  let '(tick, out) := body (tick + 1)%nat in
  ((tick + 1)%nat, out, [{| t_label := label; t_wall := clk tick - start |}]).

(** profiler.py:218-266 [time_fn]; [fn] changes the world and returns a value; [None]: no call was made, [out] is unbound. *)
Section TimeFn.
Variables W A : Type.
Variable fn : W -> W * A.
Fixpoint warm (n : nat) (w : W) (out : option A) : W * option A :=
  match n with O => (w, out) | S n => let '(w, a) := fn w in warm n w (Some a) end.
Variable run_label : nat -> string.
Fixpoint timed (n i : nat) (w : W) (out : option A) (tick : nat) (recs : list trecord) : W * option A * nat * list trecord :=
  match n with
  | O => (w, out, tick, recs)
  | S n => let start := clk tick in let '(w, a) := fn w in
           timed n (i + 1)%nat w (Some a) (tick + 2)%nat (recs ++ [{| t_label := run_label i; t_wall := clk (tick + 1)%nat - start |}])
  end.
Definition time_fn (warmup n_runs : nat) (w : W) (tick : nat) : option (W * A * list trecord) :=
  let '(w, out) := warm warmup w None in
  let '(w, out, tick, recs) := timed n_runs 0 w out tick [] in
  match out with Some a => Some (w, a, recs) | None => None end.
End TimeFn.

(** profiler.py:323-347 [SolverProfile] (data), 408-498 [profile_solver_py]: [norm] is the residual norm, [small] the test
    against the tolerance, [step] one Newton update. *)
Section Newton.
Variables St N : Type.
Variable norm : St -> N.
Variable small : N -> bool.
Variable step : St -> St.
Record sprofile := { p_wall : R; p_times : list R; p_norms : list N; p_conv : bool }.
Fixpoint iterate (fuel : nat) (sol : St) (tick : nat) (times : list R) (norms : list N) : St * nat * list R * list N * bool :=
  match fuel with
  | O => (sol, tick, times, norms, false)
  | S fuel =>
      let iter_start := clk tick in
      let norms := norms ++ [norm sol] in
      if small (norm sol) then (sol, (tick + 2)%nat, times ++ [clk (tick + 1)%nat - iter_start], norms, true)
      else iterate fuel (step sol) (tick + 2)%nat (times ++ [clk (tick + 1)%nat - iter_start]) norms
  end.
Definition profile_newton (max_iter : nat) (sol : St) (tick : nat) : St * sprofile :=
  let start := clk tick in
  let '(sol, tick, times, norms, conv) := iterate max_iter sol (tick + 1)%nat [] [] in
  (sol, {| p_wall := clk tick - start; p_times := times; p_norms := norms; p_conv := conv |}).
End Newton.
End Clocked.
Arguments Returned {A}. Arguments Raised {A}.

(** profiler.py:545-552 [_si] without the two-digit formatting: [None] is "N/A". *)
Inductive prefix := Giga | Mega | Kilo | Unit.
Definition si_scale (p : prefix) : R := match p with Giga => 1000000000 | Mega => 1000000 | Kilo => 1000 | Unit => 1 end.
Definition Rlt_b (a b : R) : bool := if Rlt_dec a b then true else false.
Definition si (v : R) : option (R * prefix) :=
  if Rlt_b v 0 then None
  else if negb (Rlt_b v (si_scale Giga)) then Some (v / si_scale Giga, Giga)
  else if negb (Rlt_b v (si_scale Mega)) then Some (v / si_scale Mega, Mega)
  else if negb (Rlt_b v (si_scale Kilo)) then Some (v / si_scale Kilo, Kilo)
  else Some (v, Unit).
