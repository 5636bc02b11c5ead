(** Model of the periodic prolongation matrices.
    Source: /repo/feax/flat/pbc.py, /repo/feax/flat/unitcell.py. *)
From Verif Require Import Base.
From Coq Require Import ZArith QArith.
Local Open Scope list_scope. Local Open Scope nat_scope.
Set Implicit Arguments.

Section Prolongation.
  (** Points, and the geometric test [norm(mapping(A) - B) < EPS] (pbc.py:116-119). *)
  Variable Pt : Type.
  Variable close : Pt -> Pt -> bool.
  Variable points : list Pt.
  Variable pt0 : Pt.

  (** pbc.py:24-58 [PeriodicPairing]. *)
  Record pairing : Type := {
    pp_master : Pt -> bool; pp_slave : Pt -> bool; pp_map : Pt -> Pt; pp_vec : nat }.

  Definition num_nodes : nat := length points.
  Definition point (i : nat) : Pt := nth i points pt0.

  (** pbc.py:109-112: [argwhere(vmap(location)(points))]. *)
  Definition nodes_where (f : Pt -> bool) : list nat := filter (fun i => f (point i)) (seq 0 num_nodes).
  (** pbc.py:115-120: the slave nodes at the image of one master. *)
  Definition matches (p : pairing) (a : nat) : list nat :=
    filter (fun b => close (pp_map p (point a)) (point b)) (nodes_where (pp_slave p)).
  (** pbc.py:121-131: [onp.array(list).reshape(-1)] fails on a ragged list and the
      assertion on equal lengths rejects any common multiplicity other than one, so
      the pairing passes exactly if every master has one match. *)
  Definition pair_nodes (p : pairing) : option (list (nat * nat)) :=
    let As := nodes_where (pp_master p) in
    if forallb (fun a => length (matches p a) =? 1) As
    then Some (map (fun a => (a, hd 0 (matches p a))) As) else None.

  Fixpoint all_some (A : Type) (l : list (option A)) : option (list A) :=
    match l with
    | [] => Some []
    | None :: _ => None
    | Some x :: l => match all_some l with Some r => Some (x :: r) | None => None end
    end.

  (** pbc.py:133-152: DOF indices ([offset] is overwritten with 0 at line 133), then
      [hstack], which raises on an empty list. *)
  Definition pair_dofs (vec : nat) (pairings : list pairing) : option (list (nat * nat)) :=
    match pairings with
    | [] => None
    | _ =>
      match all_some (map (fun p => match pair_nodes p with
          | Some l => Some (map (fun ab => (fst ab * vec + pp_vec p, snd ab * vec + pp_vec p)) l)
          | None => None end) pairings) with
      | Some ls => Some (concat ls)
      | None => None
      end
    end.

  (** pbc.py:154-171: [reduced_inds_map], 1 where free, [-(master + 1)] at slaves. *)
  Definition slave_map (N : nat) (ab : list (nat * nat)) : list Z :=
    scatter_set (repeat 1%Z N) (map (fun p => (snd p, (- (Z.of_nat (fst p) + 1))%Z)) ab).
  (** pbc.py:161,169: [map[mask] = arange(M)]. *)
  Fixpoint number_free (c : nat) (m : list Z) : list Z :=
    match m with
    | [] => []
    | x :: m => if (x =? 1)%Z then Z.of_nat c :: number_free (S c) m else x :: number_free c m
    end.
  Definition count_free (m : list Z) : nat := length (filter (fun x => (x =? 1)%Z) m).

  (** pbc.py:62-190 [prolongation_matrix]: shape and the column of each row's single
      entry 1; [None] is an exception. The column may be negative. *)
  Record prolongation : Type := { pm_rows : nat; pm_cols : nat; pm_col : list Z }.
  Definition prolongation_matrix (vec : nat) (pairings : list pairing) : option prolongation :=
    match pair_dofs vec pairings with
    | None => None
    | Some ab =>
      let N := num_nodes * vec in
      let m := slave_map N ab in
      if count_free m + length ab =? N then
        let r := number_free 0 m in
        Some {| pm_rows := N; pm_cols := N - length ab;
                pm_col := map (fun x => if (x <? 0)%Z then nth (Z.to_nat (- x - 1)) r 0%Z else x) r |}
      else None
    end.

  (** pbc.py:193-293 [cyclic_prolongation_matrix]: entries of row [node*vec + a]. A
      master with other than one match and an eliminated master are assertion errors.
      [R] is the (vec, vec) rotation; zero entries are skipped. *)
  Section Cyclic.
    Variable K : CRing.
    Variable is_zero : K -> bool.
    Variable R : nat -> nat -> K.
    Definition master_of (ps : list (nat * nat)) (s : nat) : option nat :=
      fold_left (fun acc ms => if snd ms =? s then Some (fst ms) else acc) ps None.
    Definition node_rank (slaves : list nat) (i : nat) : nat :=
      length (filter (fun j => negb (existsb (Nat.eqb j) slaves)) (seq 0 i)).
    Definition cyclic_row (vec : nat) (ps : list (nat * nat)) (node a : nat) : option (list (nat * K)) :=
      let slaves := map snd ps in
      if existsb (Nat.eqb node) slaves then
        match master_of ps node with
        | None => None
        | Some m =>
          if existsb (Nat.eqb m) slaves then None
          else Some (map (fun b => (node_rank slaves m * vec + b, R a b))
                         (filter (fun b => negb (is_zero (R a b))) (seq 0 vec)))
        end
      else Some [(node_rank slaves node * vec + a, c1)].
    Definition cyclic_prolongation (vec : nat) (p : pairing) : option (nat * nat * list (list (nat * K))) :=
      match pair_nodes p with
      | None => None
      | Some ps =>
        match all_some (map (fun r => cyclic_row vec ps (r / vec) (r mod vec)) (seq 0 (num_nodes * vec))) with
        | None => None
        | Some rows => Some (num_nodes * vec, node_rank (map snd ps) num_nodes * vec, rows)
        end
      end.
  End Cyclic.
End Prolongation.
