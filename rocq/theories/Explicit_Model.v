(** Model of the explicit time integrators over the real numbers. Source: /repo/feax/solvers/time_solver.py. A state is a vector given by its entries
    (the pytree operations of the code are entrywise); rounding is not modelled. *)
From Coq Require Import Reals List String.
Import ListNotations.
Local Open Scope R_scope.

(** [_axpy]: time_solver.py:324-326. *)
Definition raxpy (a : R) (x y : nat -> R) : nat -> R := fun i => y i + a * x i.
(** [step]: time_solver.py:320-351. [None]: ValueError. *)
Definition explicit_step (rhs : (nat -> R) -> R -> nat -> R) (scheme : string) (u : nat -> R) (t dt : R) : option (nat -> R) :=
  if String.eqb scheme "euler" then Some (raxpy dt (rhs u t) u)
  else if String.eqb scheme "rk2" then
    let k1 := rhs u t in
    let mid := raxpy (1 / 2 * dt) k1 u in
    let k2 := rhs mid (t + 1 / 2 * dt) in
    Some (raxpy dt k2 u)
  else if String.eqb scheme "rk4" then
    let k1 := rhs u t in
    let k2 := rhs (raxpy (1 / 2 * dt) k1 u) (t + 1 / 2 * dt) in
    let k3 := rhs (raxpy (1 / 2 * dt) k2 u) (t + 1 / 2 * dt) in
    let k4 := rhs (raxpy dt k3 u) (t + dt) in
    Some (raxpy (dt / 6) (fun i => k1 i + 2 * k2 i + 2 * k3 i + k4 i) u)
  else None.
(** The passes of [run] with the step sizes [dts] that the loop chose (time_solver.py:541-547; C29, C30 and C125 say which). Monitoring and saving do not change the state. *)
Fixpoint integrate (rhs : (nat -> R) -> R -> nat -> R) (scheme : string) (u : nat -> R) (t : R) (dts : list R) : option (nat -> R) :=
  match dts with
  | [] => Some u
  | dt :: rest => match explicit_step rhs scheme u t dt with Some v => integrate rhs scheme v (t + dt) rest | None => None end
  end.
