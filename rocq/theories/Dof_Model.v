(** Model of the DOF layout: [Solution], [unflatten_fn_sol_list] and the gather of
    element solutions.  Sources: /repo/feax/solution.py, /repo/feax/problem.py,
    /repo/feax/assembler.py. *)
From Verif Require Import Base Csr_Model Assembly_Model.
Set Implicit Arguments.

(** solution.py:45-57 / problem.py:242: one (num_total_nodes, vec) per variable. *)
Definition layout := list (nat * nat).

(** solution.py:139 [sizes = [n * v for n, v in layout]]. *)
Definition sizes (L : layout) : list nat := map (fun p => fst p * snd p) L.

(** problem.py:247 [num_total_dofs_all_vars = len(dumb_dofs)]. *)
Definition total_dofs (L : layout) : nat := sum_nat (sizes L).

(** problem.py:157-159 [offset]. *)
Definition dof_offsets (L : layout) : list nat := offsets (sizes L).

(** Result of a Python call that may raise. *)
Inductive res (A : Type) := Ok (a : A) | IndexError | ValueError | TypeError.
Arguments Ok {A} a. Arguments IndexError {A}. Arguments ValueError {A}. Arguments TypeError {A}.

(** solution.py:135-144 [_offset] for an integer index (the [TypeError] branch for
    non-integers is not modelled: the argument is an integer here). *)
Definition sol_offset (L : layout) (i : Z) : res (nat * nat * nat) :=
  if ((0 <=? i) && (i <? Z.of_nat (length L)))%Z then
    let k := Z.to_nat i in
    Ok (sum_nat (firstn k (sizes L)), fst (nth k L (0, 0)), snd (nth k L (0, 0)))
  else IndexError.

(** [x[a:b]] for 0 <= a <= b. *)
Definition slice {A} (a b : nat) (l : list A) : list A := firstn (b - a) (skipn a l).

Section WithA.
  Variable A : Type.

  (** solution.py:146-151 [field] (no batch axes). *)
  Definition field (L : layout) (dofs : list A) (i : Z) : res (list (list A)) :=
    match sol_offset L i with
    | Ok (start, n, v) => Ok (reshape n v (slice start (start + n * v) dofs))
    | IndexError => IndexError | ValueError => ValueError | TypeError => TypeError
    end.

  (** solution.py:159-169 [node_var]; [component] is a non-negative in-range index
      here (JAX clamps an out-of-range static index; not modelled). [d] is the value
      read from an empty row (never reached when vec > 0). *)
  Definition node_var (d : A) (L : layout) (dofs : list A) (component : option nat) (i : Z)
    : res (list A) :=
    match field L dofs i with
    | Ok u =>
        let vec := snd (nth (Z.to_nat i) L (0, 0)) in
        if vec =? 1 then Ok (map (fun row => nth 0 row d) u)
        else match component with
             | None => ValueError
             | Some c => Ok (map (fun row => nth c row d) u)
             end
    | IndexError => IndexError | ValueError => ValueError | TypeError => TypeError
    end.

  (** problem.py:239-247: [ravel_pytree] of a list of (n, v) arrays ... *)
  Definition ravel_list (us : list (list (list A))) : list A := concat (map (@concat A) us).

  (** ... and its inverse [unflatten_fn_sol_list]: split at the sizes, reshape. *)
  Fixpoint unflatten (L : layout) (dofs : list A) : list (list (list A)) :=
    match L with
    | [] => []
    | (n, v) :: t => reshape n v (firstn (n * v) dofs) :: unflatten t (skipn (n * v) dofs)
    end.

  (** assembler.py:1375-1382 (also 1115-1122, 1490-1496, 1653-1659): one cell of
      [cells_sol_flat]; [conn] lists, per variable, the cell's nodes.
      [sol[cells]] gathers rows, [ravel_pytree] flattens the per-variable arrays. *)
  Definition cell_sol_flat (sol_list : list (list (list A))) (conn : list (list nat)) : list A :=
    ravel_list (map (fun p => map (fun nd => nth nd (fst p) []) (snd p)) (combine sol_list conn)).

  (** problem.py:161-181: the DOFs of the same cell. *)
  Definition cell_dofs (L : layout) (conn : list (list nat)) : list nat :=
    elem_dofs (combine (combine (map snd L) (dof_offsets L)) conn).
End WithA.
