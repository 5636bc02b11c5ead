(** Model of the near-null-space handling of the reduced (periodic) solver.
    Source: /repo/feax/solvers/reduced.py:80-114. *)
From Coq Require Import Reals List String Ascii Lia Lra.
Import ListNotations.
Open Scope R_scope.

(** The prolongation as stored: shape and [(row, column, value)] entries (BCOO). *)
Record prol : Type := { p_rows : nat; p_cols : nat; p_ents : list (nat * nat * R) }.

Definition ent_row (e : nat * nat * R) : nat := fst (fst e).
Definition ent_col (e : nat * nat * R) : nat := snd (fst e).
Definition ent_val (e : nat * nat * R) : R := snd e.

Definition lsum (l : list R) : R := fold_right Rplus 0 l.

(** reduced.py:88-91: [P_sp.T @ y], row [c]; the COO to CSR conversion sums duplicates, so
    the sum runs over all stored entries. *)
Definition col_dot (es : list (nat * nat * R)) (y : nat -> R) (c : nat) : R :=
  lsum (map (fun e => if Nat.eqb (ent_col e) c then ent_val e * y (ent_row e) else 0) es).

(** reduced.py:90 [w = P_sp.T @ ones]. *)
Definition col_weight (es : list (nat * nat * R)) (c : nat) : R := col_dot es (fun _ => 1) c.

(** The literal [1e-30]. *)
Definition tiny : R := / (10 ^ 30).

(** reduced.py:80-91 [_project_reduced_nullspace]: entry [(c, j)] of the result. *)
Definition project_nullspace (P : prol) (B : nat -> nat -> R) (c j : nat) : R :=
  col_dot (p_ents P) (fun r => B r j) c / Rmax (col_weight (p_ents P) c) tiny.

(** [str.lower] on ASCII strings. *)
Definition lower_char (a : ascii) : ascii :=
  let n := nat_of_ascii a in
  if andb (Nat.leb 65 n) (Nat.leb n 90) then ascii_of_nat (n + 32) else a.
Fixpoint lower (s : string) : string :=
  match s with EmptyString => EmptyString | String a t => String (lower_char a) (lower t) end.

(** A matrix of modes: number of rows, number of columns, entries. *)
Record modes : Type := { m_rows : nat; m_cols : nat; m_val : nat -> nat -> R }.

(** The [near_nullspace] option (the rest of the AMG options is carried over unchanged by
    [dataclasses.replace], reduced.py:114, and left out). *)
Inductive nullspace : Type :=
| NsNone
| NsName (s : string)
| NsModes (B : modes).

Definition project_modes (P : prol) (B : modes) : modes :=
  {| m_rows := p_cols P; m_cols := m_cols B; m_val := project_nullspace P (m_val B) |}.

(** reduced.py:94-114 [_reduced_amg_options]; [rbm] is the result of
    [rigid_body_modes(problem, bc)] and [None] the [ValueError]. *)
Definition reduced_nullspace (rbm : option modes) (P : prol) (n_red : nat) (ns : nullspace)
  : option nullspace :=
  let rigid := match rbm with
    | Some B => NsModes (project_modes P B)
    | None => NsName "constant"
    end in
  match ns with
  | NsNone => Some rigid
  | NsName s => if String.eqb (lower s) "rigid_body" then Some rigid else Some (NsName s)
  | NsModes B =>
      if Nat.eqb (m_rows B) (p_rows P) then Some (NsModes (project_modes P B))
      else if Nat.eqb (m_rows B) n_red then Some (NsModes B)
      else None
  end.
