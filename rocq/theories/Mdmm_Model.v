(** Model of the modified differential multiplier method. Source: /repo/feax/gene/mdmm.py.
    Arrays are flat lists over a ring [K]; the arguments of a constraint function are one value of
    an arbitrary type [X]; [None] is a raised exception (missing key, wrong structure, shape
    mismatch). Broadcasting a multiplier of another shape is not modelled. Dividing by 2 is
    multiplying by [half]. Running the model over dual numbers is forward-mode differentiation. *)
From Verif Require Import Base Kernel_Model.

Section Mdmm.
  Variable K : CRing.
  Local Open Scope ring_K.

  (** A pytree with arrays at its leaves. [LM] is [LagrangeMultiplier] (mdmm.py:10-14), a [Node] is
      any container; the keys of a dictionary are replaced by positions. *)
  Inductive tree := Leaf (v : list K) | LM (v : list K) | Node (ch : list tree).
  (** mdmm.py:17-28 [prepare_update]: [jax.tree.map] with multipliers as leaves. *)
  Fixpoint prepare_update (t : tree) : tree :=
    match t with
    | Leaf v => Leaf v
    | LM v => LM (map copp v)
    | Node ch => Node (map prepare_update ch)
    end.
  (** Not in the repository: [optax.sgd(lr)] and [optax.apply_updates], the base optimizer of the
      usage example mdmm.py:35-39; both map over the arrays of the tree, multipliers included. *)
  Fixpoint sgd (lr : K) (g : tree) : tree :=
    match g with
    | Leaf v => Leaf (map (fun a => - (lr * a)) v)
    | LM v => LM (map (fun a => - (lr * a)) v)
    | Node ch => Node (map (sgd lr) ch)
    end.
  Definition vplus (a b : list K) : list K := map (fun ab => fst ab + snd ab) (combine a b).
  Fixpoint apply_updates (p u : tree) {struct p} : tree :=
    match p, u with
    | Leaf a, Leaf b => Leaf (vplus a b)
    | LM a, LM b => LM (vplus a b)
    | Node ps, Node us =>
        Node ((fix go (ps us : list tree) : list tree :=
                 match ps, us with q :: ps, w :: us => apply_updates q w :: go ps us | _, _ => [] end) ps us)
    | _, _ => p
    end.
  (** mdmm.py:31-53: one update of [optax.chain(optax.sgd(lr), optax_prepare_update())]. *)
  Definition mdmm_step (lr : K) (p g : tree) : tree := apply_updates p (prepare_update (sgd lr g)).

  Variable X : Type.
  (** mdmm.py:56-68 [Constraint]; the loss returns the loss value and the infeasibilities. *)
  Record constraint := { c_init : X -> tree; c_loss : tree -> X -> option (K * tree) }.
  Variables (half : K) (root : K -> K).
  (** [lambda * inf + damping * inf ** 2 / 2], entry by entry (mdmm.py:94 and 125). *)
  Definition penalty (damping : K) (lam inf : list K) : list K :=
    tab (length inf) (fun i => get lam i * get inf i + damping * (get inf i * get inf i) * half).
  (** mdmm.py:71-96 [eq]. *)
  Definition eq_constraint (fun_ : X -> list K) (damping weight : K) (red : list K -> K) : constraint := {|
    c_init := fun x => Node [LM (map (fun _ => 0) (fun_ x))];
    c_loss := fun p x =>
      let inf := fun_ x in
      match p with
      | Node [LM lam] => if (length lam =? length inf)%nat
                         then Some (weight * red (penalty damping lam inf), Leaf inf) else None
      | _ => None
      end |}.
  (** mdmm.py:99-127 [ineq]; [root a] is [jax.nn.relu(a) ** 0.5]. *)
  Definition ineq_constraint (fun_ : X -> list K) (damping weight : K) (red : list K -> K) : constraint := {|
    c_init := fun x => let out := fun_ x in Node [LM (map (fun _ => 0) out); Leaf (map root out)];
    c_loss := fun p x =>
      let out := fun_ x in
      match p with
      | Node [LM lam; Leaf slack] =>
          if (length lam =? length out)%nat && (length slack =? length out)%nat then
            let inf := tab (length out) (fun i => get out i - get slack i * get slack i) in
            Some (weight * red (penalty damping lam inf), Leaf inf)
          else None
      | _ => None
      end |}.
  (** mdmm.py:145: [zip] stops at the shorter of the parameters and the constraints. *)
  Fixpoint combined_outs (ps : list tree) (cs : list constraint) (x : X) : option (list (K * tree)) :=
    match ps, cs with
    | p :: ps, c :: cs =>
        match c_loss c p x, combined_outs ps cs x with Some o, Some os => Some (o :: os) | _, _ => None end
    | _, _ => Some []
    end.
  (** mdmm.py:130-148 [combine]; [zip( *args )] of nothing cannot be unpacked (line 139). *)
  Definition combine_constraints (cs : list constraint) : option constraint :=
    match cs with
    | [] => None
    | _ => Some {|
        c_init := fun x => Node (map (fun c => c_init c x) cs);
        c_loss := fun p x =>
          match p with
          | Node ps => match combined_outs ps cs x with
                       | Some outs => Some (fold_left (fun a o => a + fst o) outs 0, Node (map snd outs))
                       | None => None
                       end
          | _ => None
          end |}
    end.
  (** The default [reduction=np.sum]. *)
  Definition np_sum (v : list K) : K := Sum (length v) (get v).
End Mdmm.
Arguments Leaf {K}. Arguments LM {K}. Arguments Node {K}.
Arguments prepare_update {K}. Arguments sgd {K}. Arguments vplus {K}. Arguments apply_updates {K}. Arguments mdmm_step {K}.
Arguments c_init {K X}. Arguments c_loss {K X}. Arguments penalty {K}.
Arguments eq_constraint {K X}. Arguments ineq_constraint {K X}. Arguments combined_outs {K X}.
Arguments combine_constraints {K X}. Arguments np_sum {K}.
