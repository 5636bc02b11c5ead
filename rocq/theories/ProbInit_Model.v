(** Model of the construction of a problem: normalising the arguments, building and sharing the
    finite elements, checking the kernels, and the pytree round trip.
    Source: /repo/feax/problem.py:97-159, 254-314, 544-593, 783-846. *)
From Coq Require Import List Arith Bool String Ascii.
Import ListNotations.
Open Scope string_scope.
Open Scope list_scope.

(** Python values that appear as arguments; [PObj] is an object compared by identity (a mesh). *)
Inductive pyv : Type := PNone | PInt (n : nat) | PStr (s : string) | PObj (id : nat) | PList (l : list pyv).
Definition is_list (v : pyv) : bool := match v with PList _ => true | _ => false end.
(** [v[i]]: a list gives its entry, a string its character, anything else raises. *)
Definition index (v : pyv) (i : nat) : option pyv :=
  match v with
  | PList l => nth_error l i
  | PStr s => match String.get i s with Some c => Some (PStr (String c EmptyString)) | None => None end
  | _ => None
  end.

(** problem.py:24-35 [MatrixView]; any other object is kept as it is. *)
Inductive mview : Type := MFull | MUpper | MLower | MOther | MStr (s : string).
Definition upper1 (c : ascii) : ascii :=
  let n := nat_of_ascii c in if (97 <=? n)%nat && (n <=? 122)%nat then ascii_of_nat (n - 32) else c.
Fixpoint upper (s : string) : string :=
  match s with EmptyString => EmptyString | String c r => String (upper1 c) (upper r) end.
(** problem.py:114-119. Simplification: [str.upper] on ASCII letters. *)
Definition view (m : mview) : option mview :=
  match m with
  | MStr s => let u := upper s in
      if String.eqb u "FULL" then Some MFull else if String.eqb u "UPPER" then Some MUpper
      else if String.eqb u "LOWER" then Some MLower else None
  | _ => Some m
  end.

(** The constructor's arguments, problem.py:90-97. [p_locs] and [p_info] stand for the location
    functions and [additional_info]. *)
Record prob : Type := {
  p_mesh : pyv; p_vec : pyv; p_dim : nat; p_ele : pyv; p_go : pyv;
  p_locs : nat; p_view : mview; p_info : nat; p_hess : bool }.

(** problem.py:121-125. *)
Definition wrap (p : prob) (v : mview) : prob :=
  if is_list (p_mesh p) then
    {| p_mesh := p_mesh p; p_vec := p_vec p; p_dim := p_dim p; p_ele := p_ele p; p_go := p_go p;
       p_locs := p_locs p; p_view := v; p_info := p_info p; p_hess := p_hess p |}
  else
    {| p_mesh := PList [p_mesh p]; p_vec := PList [p_vec p]; p_dim := p_dim p; p_ele := PList [p_ele p];
       p_go := PList [p_go p]; p_locs := p_locs p; p_view := v; p_info := p_info p; p_hess := p_hess p |}.

(** What a finite element is built from, problem.py:139-146. *)
Record args : Type := { a_mesh : pyv; a_vec : pyv; a_dim : nat; a_ele : pyv; a_go : pyv; a_hess : bool }.

Definition pyv_eq_dec : forall a b : pyv, {a = b} + {a <> b}.
Proof.
  fix F 1. intros [|n|s|i|l] [|n'|s'|i'|l']; try (right; discriminate).
  - left; reflexivity.
  - destruct (Nat.eq_dec n n') as [E|E]; [left; congruence|right; congruence].
  - destruct (string_dec s s') as [E|E]; [left; congruence|right; congruence].
  - destruct (Nat.eq_dec i i') as [E|E]; [left; congruence|right; congruence].
  - assert (D : {l = l'} + {l <> l'}).
    { revert l'. induction l as [|x l IH]; intros [|y l']; try (right; discriminate); [left; reflexivity|].
      destruct (F x y) as [E|E]; [|right; congruence]. destruct (IH l') as [E'|E']; [left; congruence|right; congruence]. }
    destruct D as [E|E]; [left; congruence|right; congruence].
Defined.
Definition args_eq_dec (a b : args) : {a = b} + {a <> b}.
Proof. decide equality; try apply pyv_eq_dec; try apply bool_dec; apply Nat.eq_dec. Defined.

Fixpoint find (h : list args) (a : args) (n : nat) : option nat :=
  match h with [] => None | b :: r => if args_eq_dec b a then Some n else find r a (S n) end.

(** problem.py:134-138: the cache key of variable [i]; [None]: an index is missing or an entry
    cannot be hashed. The mesh enters by identity, the dimension is common to all. *)
Definition key (p : prob) (i : nat) : option args :=
  match index (p_mesh p) i, index (p_vec p) i, index (p_ele p) i,
        (if is_list (p_go p) then index (p_go p) i else Some (p_go p)) with
  | Some m, Some v, Some e, Some g =>
      if is_list v || is_list e || is_list g then None
      else Some {| a_mesh := m; a_vec := v; a_dim := p_dim p; a_ele := e; a_go := g; a_hess := p_hess p |}
  | _, _, _, _ => None
  end.

(** What the subclass defines, as [custom_init] leaves it. *)
Record kernels : Type := {
  k_universal : bool; k_weak : bool; k_tensor : bool; k_energy : bool; k_mass : bool; k_nsurf : nat }.

Section Init.
  (** [FiniteElement(...)]: raises, or an object with this number of quadrature points. *)
  Variable fe_new : args -> option nat.
  (** The subclass: [custom_init] on the additional information, then its kernels. *)
  Variable custom : nat -> option kernels.

  (** problem.py:131-148: the loop over the variables. The heap lists the finite elements built,
      in order; since every built element is in the cache, the cache lookup searches it. *)
  Fixpoint build (p : prob) (vars : list nat) (heap : list args) (fes : list nat) : option (list args * list nat) :=
    match vars with
    | [] => Some (heap, fes)
    | i :: r =>
        match key p i with
        | None => None
        | Some a =>
            match find heap a 0 with
            | Some o => build p r heap (fes ++ [o])
            | None =>
                match fe_new a with
                | None => None
                | Some _ => build p r (heap ++ [a]) (fes ++ [List.length heap])
                end
            end
        end
    end.

  Definition quads (heap : list args) (o : nat) : option nat :=
    match nth_error heap o with Some a => fe_new a | None => None end.
  (** problem.py:259-266. *)
  Definition same_quads (heap : list args) (fes : list nat) : bool :=
    match fes with
    | [] => false                                  (* fes[0] raises *)
    | o0 :: _ => forallb (fun o => match quads heap o, quads heap o0 with Some a, Some b => Nat.eqb a b | _, _ => false end) fes
    end.

  (** problem.py:544-593 [_validate_multi_variable_setup]: [None] raises; the warning names the
      methods that will be ignored. *)
  Definition validate (n : nat) (k : kernels) : option (list string) :=
    if (n <=? 1)%nat then Some []
    else if negb (k_universal k) && negb (k_weak k) then None
    else Some ((if k_tensor k then ["get_tensor_map()"] else []) ++
               (if k_energy k then ["get_energy_density()"] else []) ++
               (if k_mass k then ["get_mass_map()"] else []) ++
               (if (0 <? k_nsurf k)%nat then ["get_surface_maps()"] else [])).

  Record built : Type := { b_args : prob; b_num : nat; b_heap : list args; b_fes : list nat; b_warn : list string }.

  (** problem.py:99-314 [__post_init__]; the data computed from the finite elements is not here. *)
  Definition post_init (p : prob) : option built :=
    match view (p_view p) with
    | None => None
    | Some v =>
        let q := wrap p v in
        match p_mesh q with
        | PList ms =>
            let n := List.length ms in
            match build q (seq 0 n) [] [] with
            | None => None
            | Some (heap, fes) =>
                if same_quads heap fes then
                  match custom (p_info q) with
                  | None => None
                  | Some k =>
                      match validate n k with
                      | None => None
                      | Some w => Some {| b_args := q; b_num := n; b_heap := heap; b_fes := fes; b_warn := w |}
                      end
                  end
                else None
            end
        | _ => None
        end
    end.

  (** problem.py:783-846: the static part holds the constructor's (normalised) arguments. *)
  Definition tree_flatten (b : built) : prob := b_args b.
  Definition tree_unflatten (static : prob) : option built := post_init static.
End Init.
