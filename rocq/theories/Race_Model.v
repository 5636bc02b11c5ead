(** Model of concurrent calls of the caching host callbacks of the direct solvers, at the
    granularity of single reads and writes of the shared state.
    Source: /repo/feax/solvers/direct/umfpack.py:26-113 and
    /repo/feax/solvers/direct/cholmod.py:22-102 (the same structure).
    Simplifications: one statement of [_factorize_and_solve_with_cache] that touches the shared
    dict is one step (the four tests of [pattern_changed] are four steps); a call of the library
    is atomic; right-hand sides always have the length of their own matrix. *)
From Coq Require Import List Arith Lia.
Import ListNotations.

(** Sparsity pattern: size, column indices, row offsets. *)
Record pat : Type := { p_n : nat; p_cols : list nat; p_offs : list nat }.
Definition pat_eq_dec (a b : pat) : {a = b} + {a <> b}.
Proof. decide equality; try apply list_eq_dec; apply Nat.eq_dec. Defined.

Section Race.
  Variables V B X : Type.                 (* values, right-hand sides, solutions *)
  Record mat : Type := { m_pat : pat; m_vals : list V }.
  (** The library: which matrices it cannot factorise, and its solve. *)
  Variable singular : mat -> bool.
  Variable lib_solve : mat -> B -> X.

  (** A factor object: the pattern it was analysed for and the matrix last factorised
      ([None] after a failed numeric factorisation). *)
  Record factor : Type := { f_sym : pat; f_num : option mat }.

  (** umfpack.py:26-32, cholmod.py:22-28: the shared dict. *)
  Record cst : Type := {
    s_factor : option factor; s_cols : option (list nat); s_offs : option (list nat); s_n : option nat }.
  Definition empty : cst := {| s_factor := None; s_cols := None; s_offs := None; s_n := None |}.

  (** Where a call stands: the four tests of [pattern_changed] (umfpack.py:41-50), creating the
      factor (52), storing columns, offsets and size (53-55), refactorising (57), solving (59),
      finished. *)
  Inductive pc : Type :=
  | C0 | C1 | C2 | C3 | Cr | S1 | S2 | S3 | Re | Sv | Done (x : X) | Failed.

  Record thread : Type := { t_key : nat; t_mat : mat; t_rhs : B; t_pc : pc }.

  Definition at_pc (t : thread) (p : pc) : thread :=
    {| t_key := t_key t; t_mat := t_mat t; t_rhs := t_rhs t; t_pc := p |}.

  Definition same_nat (o : option nat) (n : nat) : bool :=
    match o with Some m => Nat.eqb m n | None => false end.
  Definition same_list (o : option (list nat)) (l : list nat) : bool :=
    match o with Some k => if list_eq_dec Nat.eq_dec k l then true else false | None => false end.

  (** umfpack.py:35-59, cholmod.py:31-56 [_factorize_and_solve_with_cache]: one step. *)
  Definition tstep (c : cst) (t : thread) : cst * thread :=
    let A := t_mat t in
    let P := m_pat A in
    match t_pc t with
    | C0 => (c, at_pc t (match s_factor c with None => Cr | Some _ => C1 end))
    | C1 => (c, at_pc t (if same_nat (s_n c) (p_n P) then C2 else Cr))
    | C2 => (c, at_pc t (if same_list (s_cols c) (p_cols P) then C3 else Cr))
    | C3 => (c, at_pc t (if same_list (s_offs c) (p_offs P) then Re else Cr))
    | Cr =>
        if singular A then (c, at_pc t Failed)
        else ({| s_factor := Some {| f_sym := P; f_num := Some A |};
                 s_cols := s_cols c; s_offs := s_offs c; s_n := s_n c |}, at_pc t S1)
    | S1 => ({| s_factor := s_factor c; s_cols := Some (p_cols P); s_offs := s_offs c; s_n := s_n c |}, at_pc t S2)
    | S2 => ({| s_factor := s_factor c; s_cols := s_cols c; s_offs := Some (p_offs P); s_n := s_n c |}, at_pc t S3)
    | S3 => ({| s_factor := s_factor c; s_cols := s_cols c; s_offs := s_offs c; s_n := Some (p_n P) |}, at_pc t Sv)
    | Re =>
        match s_factor c with
        | Some f =>
            if pat_eq_dec (f_sym f) P then
              if singular A then
                ({| s_factor := Some {| f_sym := f_sym f; f_num := None |};
                    s_cols := s_cols c; s_offs := s_offs c; s_n := s_n c |}, at_pc t Failed)
              else
                ({| s_factor := Some {| f_sym := f_sym f; f_num := Some A |};
                    s_cols := s_cols c; s_offs := s_offs c; s_n := s_n c |}, at_pc t Sv)
            else (c, at_pc t Failed)
        | None => (c, at_pc t Failed)
        end
    | Sv =>
        match s_factor c with
        | Some {| f_num := Some M |} =>
            if Nat.eqb (p_n (m_pat M)) (p_n P) then (c, at_pc t (Done (lib_solve M (t_rhs t)))) else (c, at_pc t Failed)
        | _ => (c, at_pc t Failed)
        end
    | Done x => (c, t)
    | Failed => (c, t)
    end.

  (** umfpack.py:62-68, cholmod.py:59-65: [lru_cache] gives each static configuration (key) its
      own callback with its own dict. *)
  Definition store : Type := nat -> cst.
  Definition put (s : store) (k : nat) (c : cst) : store := fun j => if Nat.eqb j k then c else s j.

  Fixpoint set_nth {T} (l : list T) (i : nat) (x : T) : list T :=
    match l, i with
    | [], _ => []
    | _ :: r, O => x :: r
    | y :: r, S j => y :: set_nth r j x
    end.

  (** A scheduler step: some call makes one step. *)
  Inductive step : store * list thread -> store * list thread -> Prop :=
  | step_i s ts i t c' t' : nth_error ts i = Some t -> tstep (s (t_key t)) t = (c', t') ->
      step (s, ts) (put s (t_key t) c', set_nth ts i t').
  Inductive runs : store * list thread -> store * list thread -> Prop :=
  | runs_0 g : runs g g
  | runs_S g1 g2 g3 : runs g1 g2 -> step g2 g3 -> runs g1 g3.
End Race.
Arguments Done {X} x.
Arguments Failed {X}.
Arguments C0 {X}.
Arguments Build_mat {V}.
Arguments m_pat {V}.
Arguments m_vals {V}.
