(** Vocabulary for the line-search and Newton-loop properties. *)
From Coq Require Import QArith Bool List Lia.
From Verif Require Import Num_Model Newton_Model.
Open Scope Q_scope.

(** The k-th trial step length: 1, rho, rho^2, ... *)
Fixpoint step_length (rho : Q) (k : nat) : Q :=
  match k with O => 1 | S k => step_length rho k * rho end.

(** A Euclidean norm as computed: non-negative, infinite or NaN, and NaN whenever an
    entry is. *)
Definition norm_ok (r : resid) : Prop :=
  match r_norm r with Fin q => 0 <= q | NInf => False | _ => True end /\
  (r_nan r = true -> r_norm r = NaN).

(** Sufficient decrease of half the squared norm from [old] to [new] along a step of
    length [alpha] in a Newton direction, with a finite new residual. From an
    infinite residual every finite one is a decrease. *)
Definition sufficient (c1 alpha : Q) (old new : num) : Prop :=
  match old, new with
  | Fin a, Fin b => b * b <= a * a - 2 * c1 * alpha * (a * a)
  | PInf, Fin _ => True
  | _, _ => False
  end.

(** [f] applied [k] times. *)
Fixpoint times {A : Type} (k : nat) (f : A -> A) (x : A) : A :=
  match k with O => x | S k => f (times k f x) end.

(** Strict decrease between finite norms (an infinite old norm allowed). *)
Definition decreases (old new : num) : Prop :=
  match old, new with Fin a, Fin b => b < a | PInf, Fin _ => True | _, _ => False end.
