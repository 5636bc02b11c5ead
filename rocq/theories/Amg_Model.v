(** Model of the algebraic multigrid set-up (feax/solvers/amg.py): near-null space, its presets and the outer solver. The
    hierarchy itself is built by pyamg and amjax and is not modelled. *)
From Coq Require Import Reals List Arith Bool String Ascii.
From Verif Require Import Tmc_Model.
Import ListNotations.
Open Scope R_scope.

(** What the set-up reads off the problem: [vec] (one entry per field), [dim], and the nodes of the first mesh. *)
Record problem := { vec : list nat; dim : nat; num_nodes : nat; points : nat -> nat -> R }.
(** A matrix of [ndof] rows and [cols] columns. *)
Record modes := { cols : nat; entry : nat -> nat -> R }.
(** amg.py:53: [coords = pts - pts.mean(axis=0)]. *)
Definition coords (p : problem) (n i : nat) : R := points p n i - rs (num_nodes p) (fun m => points p m i) / INR (num_nodes p).
(** [B[k::s, c] = values]. *)
Definition set_stride (k s c : nat) (values : nat -> R) (B : nat -> nat -> R) (d j : nat) : R :=
  if Nat.eqb (d mod s) k && Nat.eqb j c then values (d / s)%nat else B d j.
(** amg.py:55-66. *)
Definition modes3 (x : nat -> nat -> R) : nat -> nat -> R :=
  set_stride 1 3 5 (fun n => x n 0%nat) (set_stride 0 3 5 (fun n => - x n 1%nat) (
  set_stride 2 3 4 (fun n => - x n 0%nat) (set_stride 0 3 4 (fun n => x n 2%nat) (
  set_stride 2 3 3 (fun n => x n 1%nat) (set_stride 1 3 3 (fun n => - x n 2%nat) (
  set_stride 2 3 2 (fun _ => 1) (set_stride 1 3 1 (fun _ => 1) (set_stride 0 3 0 (fun _ => 1) (fun _ _ => 0))))))))).
Definition modes2 (x : nat -> nat -> R) : nat -> nat -> R :=
  set_stride 1 2 2 (fun n => x n 0%nat) (set_stride 0 2 2 (fun n => - x n 1%nat) (
  set_stride 1 2 1 (fun _ => 1) (set_stride 0 2 0 (fun _ => 1) (fun _ _ => 0)))).
(** amg.py:70-71; [bc_rows = None] for no boundary condition. *)
Definition zero_rows (rows : option (list nat)) (B : nat -> nat -> R) (d j : nat) : R :=
  match rows with Some rows => if existsb (Nat.eqb d) rows then 0 else B d j | None => B d j end.
(** amg.py:29-72 [rigid_body_modes]. *)
Definition rigid_body_modes (p : problem) (rows : option (list nat)) : option modes :=
  match vec p with
  | [nv] =>
      if Nat.eqb nv (dim p) then
        if Nat.eqb (dim p) 3 then Some {| cols := 6; entry := zero_rows rows (modes3 (coords p)) |}
        else if Nat.eqb (dim p) 2 then Some {| cols := 3; entry := zero_rows rows (modes2 (coords p)) |} else None
      else None
  | _ => None
  end.
(** amg.py:91-97 [_default_num_candidates]. *)
Definition default_num_candidates (p : problem) : nat :=
  match vec p with [nv] => if Nat.eqb nv (dim p) then (dim p * (dim p + 1) / 2)%nat else 1%nat | _ => 1%nat end.

(** [str.lower] on ASCII letters. *)
Definition lower_ascii (c : ascii) : ascii :=
  let n := nat_of_ascii c in if (Nat.leb 65 n && Nat.leb n 90)%bool then ascii_of_nat (n + 32) else c.
Fixpoint lower (s : string) : string := match s with EmptyString => EmptyString | String c s => String (lower_ascii c) (lower s) end.
(** amg.py:100-128 [_resolve_near_nullspace]; [None] as result: ValueError. *)
Inductive near_nullspace := NSnone | NSstr (s : string) | NSarray (B : modes).
Definition resolve (ns : near_nullspace) (p : problem) (rows : option (list nat)) : option (option modes * bool) :=
  match ns with
  | NSnone => Some (rigid_body_modes p rows, false)
  | NSstr s =>
      let key := lower s in
      if String.eqb key "rigid_body" then match rigid_body_modes p rows with Some B => Some (Some B, false) | None => None end
      else if String.eqb key "constant" then Some (None, false)
      else if String.eqb key "adaptive_sa" then Some (None, true)
      else None
  | NSarray B => Some (Some B, false)
  end.
(** amg.py:165-182: what the hierarchy is built from; [num_nullspace or default]. *)
Inductive hierarchy := Adaptive (candidates : nat) | Aggregation (B : option modes).
Definition build (ns : near_nullspace) (num_nullspace : option nat) (p : problem) (rows : option (list nat)) : option hierarchy :=
  match resolve ns p rows with
  | None => None
  | Some (B, true) => Some (Adaptive (match num_nullspace with Some (S k) => S k | _ => default_num_candidates p end))
  | Some (B, false) => Some (Aggregation B)
  end.
(** amg.py:209, 215-216: the method of the rebuilding solve and its restart. *)
Definition rebuild_solver (solver : string) : string := if String.eqb solver "auto" then "gmres"%string else solver.
Definition rebuild_restart (solver : string) (restart : option nat) : option nat :=
  if String.eqb (rebuild_solver solver) "gmres" then Some (match restart with Some (S k) => S k | _ => 50%nat end) else None.
(** amg.py:248-263: the method of the lowered options, given sample parameters or not and whether the sample looks SPD. *)
Definition lowered_solver (solver : string) (traced_params spd : bool) : option string :=
  if traced_params then Some (if String.eqb solver "auto" then if spd then "cg"%string else "gmres"%string else solver) else None.
