(** The clock of the time loop in floating-point arithmetic. Source: /repo/feax/solvers/time_solver.py:536-573. The state, the
    history and the files are in TimeRun_Model (exact time); here only [t] and [dt] are kept, with every operation rounded. *)
From Coq Require Import ZArith Reals List Bool.
From Coq Require Import Floats.SpecFloat.
From Flocq Require Import Core.
Import ListNotations.

(** The operations of the loop on one type of numbers. *)
Record arith (T : Type) := { ar_add : T -> T -> T; ar_sub : T -> T -> T; ar_mul : T -> T -> T; ar_lt : T -> T -> bool }.
Arguments ar_add {T}. Arguments ar_sub {T}. Arguments ar_mul {T}. Arguments ar_lt {T}.

Section Clock.
  Variables (T : Type) (A : arith T).
  Variable slack : T.           (* the literal 1e-14 *)
  Variables (t_end dt0 : T).    (* time.t_end, time.dt *)
  Variable dts : nat -> T.      (* the value of [dt] in pass [k]: [dt0] throughout unless the step size is adapted *)
  (** time_solver.py:541 [t < time.t_end - 1e-14 * time.dt]. *)
  Definition clock_on (t : T) : bool := ar_lt A t (ar_sub A t_end (ar_mul A slack dt0)).
  (** time_solver.py:543 [min(dt, time.t_end - t)]: the first argument unless the second is smaller. *)
  Definition clock_eff (k : nat) (t : T) : T := let r := ar_sub A t_end t in if ar_lt A r (dts k) then r else dts k.
  (** time_solver.py:547 [t += dt_eff]. *)
  Definition clock_tick (k : nat) (t : T) : T := ar_add A t (clock_eff k t).
  (** time_solver.py:541-573 from pass [k] at time [t]: the step sizes and the final time; [None] if more than [n] passes are needed. *)
  Fixpoint clock_run (n k : nat) (t : T) : option (list T * T) :=
    if clock_on t then
      match n with
      | O => None
      | S n' => match clock_run n' (S k) (clock_tick k t) with
                | Some (l, tf) => Some (clock_eff k t :: l, tf)
                | None => None
                end
      end
    else Some ([], t).
End Clock.
Arguments clock_on {T}. Arguments clock_eff {T}. Arguments clock_tick {T}. Arguments clock_run {T}.

(** time_solver.py:568-572, the next [dt] from the current one and the pipeline's proposal; Python's [min(a, b)] is [b] if [b < a], [max(a, b)] is
    [b] if [a < b]. *)
Definition py_min {T} (A : arith T) (a b : T) : T := if ar_lt A b a then b else a.
Definition py_max {T} (A : arith T) (a b : T) : T := if ar_lt A a b then b else a.
Definition adapted {T} (A : arith T) (dt_min dt_max growth dt proposal : T) : T :=
  py_min A (py_max A dt_min (py_min A dt_max proposal)) (ar_mul A dt growth).
(** The values of [dt] over the passes of one run. *)
Fixpoint adapted_dts {T} (A : arith T) (dt_min dt_max growth dt0 : T) (proposals : nat -> T) (k : nat) : T :=
  match k with O => dt0 | S j => adapted A dt_min dt_max growth (adapted_dts A dt_min dt_max growth dt0 proposals j) (proposals j) end.

(** Binary64 as computed by IEEE 754 arithmetic, and as real numbers rounded to nearest even with 53 bits and smallest exponent -1074
    (overflow is not modelled: times stay near [t_end]). *)
Definition sf64 : arith spec_float := {| ar_add := SFadd 53 1024; ar_sub := SFsub 53 1024; ar_mul := SFmul 53 1024; ar_lt := SFltb |}.
Definition fexp64 : Z -> Z := FLT_exp (-1074) 53.
Definition rnd64 (x : R) : R := round radix2 fexp64 ZnearestE x.
Definition r64 : arith R :=
  {| ar_add := fun a b => rnd64 (a + b); ar_sub := fun a b => rnd64 (a - b); ar_mul := fun a b => rnd64 (a * b); ar_lt := fun a b => if Rlt_dec a b then true else false |}.
