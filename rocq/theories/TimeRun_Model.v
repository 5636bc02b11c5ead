(** Model of the time-stepping driver. Source: /repo/feax/solvers/time_solver.py.
    Times are exact rationals (floating-point rounding of [t += dt] is not modelled); the
    controller's output may also be NaN or infinite. Console output is not modelled. *)
From Coq Require Import QArith Bool List Arith.
From Verif Require Import Num_Model.
Import ListNotations.
Local Open Scope Q_scope.

(** Python's [min(a, b)] and [max(a, b)]: the first argument unless the second is strictly
    better, so a NaN second argument is ignored. *)
Definition pymin (a b : num) : num := if nlt b a then b else a.
Definition pymax (a b : num) : num := if nlt a b then b else a.
Definition fin (x : num) : Q := match x with Fin q => q | _ => 0 end.
Definition qmin (a b : Q) : Q := if negb (Qle_bool a b) then b else a.

(** time_solver.py:353-377 [TimeConfig]; [c_print] is [print_every]. *)
Record time_config := { c_dt : Q; c_t_end : Q; c_t_start : Q; c_save : nat; c_print : nat }.
(** time_solver.py:380-399 [AdaptiveDtConfig]. *)
Record adaptive_config := { a_min : Q; a_max : Q; a_growth : Q }.

Section Run.
  Variables (S V : Type).
  (** The pipeline: [step], [monitor], [initial_state], and [adapt_dt] if it has one. *)
  Variable p_step : S -> Q -> Q -> S.
  Variable p_monitor : S -> nat -> Q -> V.
  Variable p_init : S.
  Variable p_adapt : option (S -> nat -> Q -> Q -> num).
  Variable cfg : time_config.
  Variable adaptive : option adaptive_config.
  Variable output : bool.           (* output_dir given *)
  Variable cb_every : list nat.     (* the callbacks' periods *)

  (** Observable effects in program order. *)
  Inductive event :=
  | EStep (s : S) (t dt : Q)                (* pipeline.step(state, t, dt_eff) *)
  | EHist (k : nat) (t : Q) (v : V)         (* row appended to the history *)
  | ECsv (k : nat) (t : Q) (v : V)          (* row written to history.csv *)
  | ESave (s : S) (k : nat) (t : Q)         (* pipeline.save *)
  | ECall (c : nat) (s : S) (k : nat) (t : Q). (* callback number c *)

  Record loop := { l_t : Q; l_dt : Q; l_step : nat; l_state : S }.

  (** time_solver.py:539 [t < t_end - 1e-14 * time.dt] (the configured dt). *)
  Definition slack : Q := 1 # 100000000000000.
  Definition goes_on (l : loop) : bool := negb (Qle_bool (c_t_end cfg - slack * c_dt cfg) (l_t l)).
  (** time_solver.py:541. *)
  Definition dt_eff (l : loop) : Q := qmin (l_dt l) (c_t_end cfg - l_t l).
  (** time_solver.py:569-573. *)
  Definition next_dt (a : adaptive_config) (proposal : num) (dt : Q) : Q :=
    let x := pymax (Fin (a_min a)) (pymin (Fin (a_max a)) proposal) in
    fin (pymin x (Fin (dt * a_growth a))).
  (** One pass of the loop body, time_solver.py:539-573. *)
  Definition advance (l : loop) : loop :=
    let d := dt_eff l in
    let k := Datatypes.S (l_step l) in
    let s := p_step (l_state l) (l_t l) d in
    let t := l_t l + d in
    {| l_t := t; l_step := k; l_state := s;
       l_dt := match adaptive, p_adapt with
               | Some a, Some f => next_dt a (f s k t (l_dt l)) (l_dt l)
               | _, _ => l_dt l
               end |}.
  Definition due (every k : nat) : bool := (k mod every =? 0)%nat.
  Fixpoint callbacks (i : nat) (es : list nat) (s : S) (k : nat) (t : Q) : list event :=
    match es with
    | [] => []
    | e :: es => (if due e k then [ECall i s k t] else []) ++ callbacks (Datatypes.S i) es s k t
    end.
  Definition body_events (l : loop) : list event :=
    let n := advance l in
    let v := p_monitor (l_state n) (l_step n) (l_t n) in
    [EStep (l_state l) (l_t l) (dt_eff l); EHist (l_step n) (l_t n) v] ++
    (if output then [ECsv (l_step n) (l_t n) v] else []) ++
    (if output && due (c_save cfg) (l_step n) then [ESave (l_state n) (l_step n) (l_t n)] else []) ++
    callbacks 0 cb_every (l_state n) (l_step n) (l_t n).

  (** A zero period raises ZeroDivisionError: [print_every] and the callbacks' in the first
      step, [save_every] (with an output directory) in the first step or at the end. *)
  Definition body_ok : bool :=
    negb (c_print cfg =? 0)%nat && forallb (fun e => negb (e =? 0)%nat) cb_every &&
    negb (output && (c_save cfg =? 0)%nat).

  Inductive outcome := Done (l : loop) | ZeroDivision | OutOfFuel.
  (** The while loop; [OutOfFuel] stands for "not finished yet". *)
  Fixpoint while_loop (fuel : nat) (l : loop) (log : list event) : outcome * list event :=
    match fuel with
    | O => (OutOfFuel, log)
    | Datatypes.S fuel =>
      if goes_on l then
        if body_ok then while_loop fuel (advance l) (log ++ body_events l)
        else (ZeroDivision, log)
      else (Done l, log)
    end.

  (** time_solver.py:448-596 [run]: outcome and log. *)
  Definition start : loop :=
    {| l_t := c_t_start cfg; l_dt := c_dt cfg; l_step := 0; l_state := p_init |}.
  Definition first_events : list event :=
    EHist 0 (c_t_start cfg) (p_monitor p_init 0 (c_t_start cfg)) ::
    (if output then [ESave p_init 0 (c_t_start cfg)] else []).
  Definition run (fuel : nat) : outcome * list event :=
    match while_loop fuel start first_events with
    | (Done l, log) =>
      if output then
        if (c_save cfg =? 0)%nat then (ZeroDivision, log)
        else if due (c_save cfg) (l_step l) then (Done l, log)
        else (Done l, log ++ [ESave (l_state l) (l_step l) (l_t l)])
      else (Done l, log)
    | r => r
    end.
End Run.
Arguments EStep {S V}. Arguments EHist {S V}. Arguments ECsv {S V}. Arguments ESave {S V}. Arguments ECall {S V}.
Arguments l_t {S}. Arguments l_dt {S}. Arguments l_step {S}. Arguments l_state {S}.
Arguments Done {S}. Arguments ZeroDivision {S}. Arguments OutOfFuel {S}.

(** ** Explicit schemes (time_solver.py:320-351), on vectors as functions of the index. *)
Section Explicit.
  Variable rhs : (nat -> Q) -> Q -> (nat -> Q).
  Definition axpy (a : Q) (x y : nat -> Q) : nat -> Q := fun i => y i + a * x i.
  Definition step_euler (u : nat -> Q) (t dt : Q) : nat -> Q := axpy dt (rhs u t) u.
  Definition step_rk2 (u : nat -> Q) (t dt : Q) : nat -> Q :=
    let k1 := rhs u t in
    let mid := axpy ((1 # 2) * dt) k1 u in
    axpy dt (rhs mid (t + (1 # 2) * dt)) u.
  Definition step_rk4 (u : nat -> Q) (t dt : Q) : nat -> Q :=
    let k1 := rhs u t in
    let k2 := rhs (axpy ((1 # 2) * dt) k1 u) (t + (1 # 2) * dt) in
    let k3 := rhs (axpy ((1 # 2) * dt) k2 u) (t + (1 # 2) * dt) in
    let k4 := rhs (axpy dt k3 u) (t + dt) in
    axpy (dt / 6) (fun i => k1 i + 2 * k2 i + 2 * k3 i + k4 i) u.
End Explicit.
