(** Differentiating a chain of implicit time steps (/repo/feax/solvers/time_solver.py:240-260 [ImplicitPipeline.step], with the
    reverse rule of the differentiable solvers, newton.py:129-245, linear.py:426-481). Real vectors as functions of the index;
    linear solves by their contract. *)
From Coq Require Import Reals List Arith Bool.
From Verif Require Import Tmc_Model Eigen_Model.
Import ListNotations.
Open Scope R_scope.

(** The derivatives of one step's residual, at the step's solution: with respect to the new state, and, through [update_vars],
    with respect to the previous state and the parameters. *)
Record stepd := mkStep { dJ : mat; dM : mat; dB : mat }.

(** Reverse pass over the steps (in time order), from the cotangent [v] of the last state to the cotangents of the parameters
    and of the initial state. One step: the adjoint solve [J' lam = v] (newton.py:129-245), minus the transposed derivative of
    the residual applied to [lam] for parameters and previous state, nothing for the initial guess ([None] in the returned
    cotangents, newton.py:245), and with [pseudo_time] the previous state is detached (time_solver.py:250-252
    [stop_gradient]). [n] is the number of unknowns. *)
Inductive sweep (n : nat) (pseudo : bool) : list stepd -> vec -> vec -> vec -> Prop :=
| sweep_nil v : sweep n pseudo [] v (fun _ => 0) v
| sweep_step steps s v lam g v0 :
    (forall i, (i < n)%nat -> mv n (tr (dJ s)) lam i = v i) ->
    sweep n pseudo steps (if pseudo then (fun _ => 0) else (fun i => - mv n (tr (dM s)) lam i)) g v0 ->
    sweep n pseudo (steps ++ [s]) v (fun k => g k - mv n (tr (dB s)) lam k) v0.
