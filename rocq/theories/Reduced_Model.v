(** Model of the reduced (periodic) solver.
    Source: /repo/feax/solvers/reduced.py. *)
From Verif Require Import Base Csr_Model Assembly_Model Dof_Model Bc_Model LinSolve_Model Pbc_Model.

Section Reduced.
  Variable K : CRing.
  Local Open Scope ring_K.

  (** A [BCOO] matrix: shape and stored [(row, column, value)] entries. *)
  Record bcoo : Type := { P_rows : nat; P_cols : nat; P_ents : list (nat * nat * K) }.
  Definition e_row (e : nat * nat * K) : nat := fst (fst e).
  Definition e_col (e : nat * nat * K) : nat := snd (fst e).
  Definition e_val (e : nat * nat * K) : K := snd e.

  (** [P @ x] and [P.T @ y]: out-of-range entries are dropped by the scatter. *)
  Definition P_mul (P : bcoo) (x : list K) : list K :=
    scatter_add (zeros (P_rows P)) (map (fun e => (e_row e, e_val e * get x (e_col e))) (P_ents P)).
  Definition P_Tmul (P : bcoo) (y : list K) : list K :=
    scatter_add (zeros (P_cols P)) (map (fun e => (e_col e, e_val e * get y (e_row e))) (P_ents P)).

  (** /repo/feax/flat/pbc.py:172-190: the BCOO built by [prolongation_matrix]. The
      column indices are unsigned here: use only with valid (non-negative) columns. *)
  Definition bcoo_of (P : prolongation) : bcoo :=
    {| P_rows := pm_rows P; P_cols := pm_cols P;
       P_ents := map (fun i => (i, Z.to_nat (nth i (pm_col P) 0%Z), 1)) (seq 0 (pm_rows P)) |}.

  (** reduced.py:45-77 [_validate_bc_pairing]: [true] is acceptance, [false] the
      [ValueError]. [col_of] is [None] where it is -1. *)
  Definition count_col (ents : list (nat * nat * K)) (c : nat) : nat :=
    length (filter (fun e => e_col e =? c) ents).
  Definition validate_bc_pairing (P : bcoo) (rows : list nat) : bool :=
    match rows with
    | [] => true
    | _ =>
      let col_of := scatter_set (repeat None (P_rows P)) (map (fun e => (e_row e, Some (e_col e))) (P_ents P)) in
      let mask := scatter_set (repeat false (P_rows P)) (map (fun r => (r, true)) rows) in
      let bc_ents := filter (fun e => nth (e_row e) mask false) (P_ents P) in
      forallb (fun r => match nth r col_of None with
        | None => true
        | Some c => negb ((1 <? count_col (P_ents P) c) && (count_col bc_ents c <? count_col (P_ents P) c))
        end) rows
    end.

  Section WithProblem.
    Variables (Inp FInp : Type) (pb : problem K Inp FInp) (bs0 : nat) (P : bcoo).
    (** The inner solve: Krylov on the matrix-free operator (reduced.py:206-217), or a
        direct/AMG solve of the matrix materialised from it (reduced.py:309-316; the
        materialisation by coloured probing belongs to the external library asdex). *)
    Variable ksolve : (list K -> list K) -> list K -> list K.

    (** reduced.py:206-211: [v |-> P.T @ J_bc(P @ v)], always with symmetric elimination. *)
    Definition reduced_operator (sol : list K) (bc : dirichlet K) (v : list K) : list K :=
      P_Tmul P (snd (matfree_res_J pb bs0 true sol bc) (P_mul P v)).
    (** reduced.py:200-217 [reduced_solve_fn]. *)
    Definition reduced_rhs (guess : list K) (bc : dirichlet K) : list K :=
      vneg (P_Tmul P (fst (matfree_res_J pb bs0 true guess bc))).
    Definition reduced_solve (guess : list K) (bc : dirichlet K) : list K :=
      vadd guess (P_mul P (ksolve (reduced_operator guess bc) (reduced_rhs guess bc))).
    (** reduced.py:258-268 [solver_wrapper]; the construction BC provides the default guess.
        [None] is the [ValueError] of the pairing check (reduced.py:175), which looks at
        the construction BC only. *)
    Definition reduced_solver (bc0 : dirichlet K) (guess : option (list K)) (bc : option (dirichlet K))
      : option (list K) :=
      if validate_bc_pairing P (bc_rows bc0) then
        let eff := match bc with Some b => b | None => bc0 end in
        let ig := match guess with Some g => g | None => zero_like_initial_guess (pr_n pb) bc0 end in
        Some (reduced_solve ig eff)
      else None.
    (** reduced.py:228-243 [f_bwd]: the multiplier; no correction on the BC rows. *)
    Definition reduced_multiplier (sol : list K) (bc : dirichlet K) (v : list K) : list K :=
      P_mul P (ksolve (reduced_operator sol bc) (P_Tmul P v)).
  End WithProblem.
End Reduced.
Arguments P_rows {K}. Arguments P_cols {K}. Arguments P_ents {K}.
Arguments e_row {K}. Arguments e_col {K}. Arguments e_val {K}.
Arguments P_mul {K}. Arguments P_Tmul {K}. Arguments bcoo_of {K}.
Arguments count_col {K}. Arguments validate_bc_pairing {K}.
Arguments reduced_operator {K Inp FInp}. Arguments reduced_rhs {K Inp FInp}.
Arguments reduced_solve {K Inp FInp}. Arguments reduced_solver {K Inp FInp}.
Arguments reduced_multiplier {K Inp FInp}.
