(** Model of the topology-optimisation driver: feax/gene/optimizer.py.

    Floats are rationals (Q).  The compiled objective, constraint functions and
    gradients are arbitrary functions of the build (mesh), the design vector and the
    continuation values; jit is the identity.  NLopt is an arbitrary environment: for
    each call of opt.optimize it chooses the list of points at which it evaluates the
    objective and either returns a design or raises RoundoffLimited.  Printing and
    file output are not modelled. *)
From Coq Require Import String List Bool Arith ZArith QArith Qminmax.
From Verif Require Import Base.
Import ListNotations.
Open Scope Z_scope.

(** ** Continuation -- optimizer.py:136-168 *)
Record cont := Cont { c_initial : Q; c_final : Q; c_every : Z; c_step : Q }.

(** Python min/max of two floats: min(v, w) keeps v unless w < v. *)
Definition py_min (v w : Q) : Q := if Qle_bool v w then v else w.
Definition py_max (v w : Q) : Q := if Qle_bool w v then v else w.

(** Continuation.value_at -- optimizer.py:162-168.  `//` is floor division, which is
    Coq's Z.div for either sign of the divisor; division by zero raises (None). *)
Definition value_at (c : cont) (it : Z) : option Q :=
  if c_every c =? 0 then None
  else
    let n := Z.max 0 (it / c_every c) in
    let v := (c_initial c + c_step c * inject_Z n)%Q in
    Some (if Qle_bool (c_initial c) (c_final c) then py_min v (c_final c) else py_max v (c_final c)).

(** ** Constraints -- optimizer.py:48-81, 227-249 *)
Inductive ckind := KLe | KEq.
Inductive rkind := RLe | RGe.

(** A method decorated with @constraint: its name, an index identifying the method,
    and the metadata of optimizer.py:79.  The decorator rejects other types
    (optimizer.py:75-76), so a type is KLe or KEq. *)
Record cspec := CSpec { cs_name : string; cs_fun : nat; cs_target : Q; cs_kind : ckind; cs_tol : Q }.
(** An entry of the list built by _collect_constraints. *)
Record centry := CEntry { ce_name : string; ce_fun : nat; ce_target : Q; ce_kind : rkind }.

(** _collect_constraints -- optimizer.py:227-249.  [specs] are the decorated methods
    in the order in which dir() lists them. *)
Definition expand_constraint (s : cspec) : list centry :=
  match cs_kind s with
  | KEq => [CEntry (cs_name s) (cs_fun s) (cs_target s + cs_tol s)%Q RLe;
            CEntry (cs_name s ++ "_lb")%string (cs_fun s) (cs_target s - cs_tol s)%Q RGe]
  | KLe => [CEntry (cs_name s) (cs_fun s) (cs_target s) RLe]
  end.
Definition collect_constraints (specs : list cspec) : list centry := flat_map expand_constraint specs.

(** The functions registered with NLopt -- optimizer.py:465-488: the value that must be
    <= 0 and its gradient, from the constraint's value f and gradient g at the point. *)
Definition con_value (e : centry) (f : Q) : Q :=
  match ce_kind e with RLe => (f - ce_target e)%Q | RGe => (- (f - ce_target e))%Q end.
Definition con_grad (e : centry) (g : list Q) : list Q :=
  match ce_kind e with RLe => g | RGe => map Qopp g end.

(** ** Starting design and bounds *)
(** default_init -- optimizer.py:345-350 *)
Definition default_init (es : list centry) : Q :=
  fold_left (fun d e => match ce_kind e with RLe => py_min d (ce_target e) | RGe => d end) es (1 # 2)%Q.

(** x[idx] = v for an index array (indices in range; numpy raises otherwise). *)
Definition put (l : list Q) (idx : list nat) (v : Q) : list Q := fold_left (fun l i => upd l i v) idx l.

Record config := Config {
  g_max_iter : Z;
  g_conts : list cont;
  g_adaptive : option (Z * Z);            (* adapt_every, n_adapts_max *)
  g_bounds : Q * Q;                       (* rho_bounds *)
  g_rho_init : option (list Q);
  g_solid : list nat; g_void : list nat   (* passive_solid, passive_void *)
}.

(** Initial design -- optimizer.py:351-363 ([n0] is the node count of the mesh). *)
Definition start_design (g : config) (es : list centry) (n0 : nat) : list Q :=
  let x := match g_rho_init g with None => repeat (default_init es) n0 | Some r => r end in
  put (put x (g_solid g) 1%Q) (g_void g) (fst (g_bounds g)).

(** Bounds set by _create_mma -- optimizer.py:403-416 *)
Definition mma_bounds (g : config) (n0 n : nat) : list Q * list Q :=
  let lo := repeat (fst (g_bounds g)) n in
  let hi := repeat (snd (g_bounds g)) n in
  if Nat.eqb n n0 then
    (put (put lo (g_solid g) 1%Q) (g_void g) (fst (g_bounds g)),
     put (put hi (g_solid g) 1%Q) (g_void g) (fst (g_bounds g)))
  else (lo, hi).

(** ** The loop of run -- optimizer.py:509-584 *)
Section Loop.
  Variable M : Type.                              (* meshes *)
  Variable npoints : M -> nat.                    (* mesh.points.shape[0] *)
  Variable filt : M -> list Q -> list Q.          (* pipeline.filter after build(mesh) *)
  Variable remesh : M -> list Q -> M.             (* adaptive.remesh *)
  Variable transfer : list Q -> M -> M -> list Q. (* adaptive.transfer or interpolate_field *)
  Variable g : config.
  Variable mesh0 : M.

  (** An NLopt object: the build whose compiled constraints it holds, its bounds, and
      (for the statements only) the iteration count at which it was created. *)
  Record mma := Mma { m_build : nat; m_lo : list Q; m_hi : list Q; m_born : Z }.

  (** Observable events: an evaluation of the objective (its number as recorded in
      history['iteration'], the continuation values passed, the point, the build whose
      compiled objective is called, its mesh, the NLopt object calling it) and a remesh (the
      iteration count at which it happens). *)
  Inductive event :=
  | Eval (number : Z) (params : list Q) (point : list Q) (build : nat) (mesh : M) (caller : mma)
  | Remesh (at_iter : Z).

  Record state := State {
    s_iter : Z; s_x : list Q; s_params : list Q; s_mesh : M; s_build : nat;
    s_adapts : Z; s_need : bool; s_opt : mma; s_trace : list event }.

  (** What NLopt does in one call of optimize: the points evaluated, and the design
      returned (None: RoundoffLimited was raised and caught, optimizer.py:540-543). *)
  Record move := Move { v_points : list (list Q); v_result : option (list Q) }.

  Definition value (c : cont) (it : Z) : Q := match value_at c it with Some v => v | None => 0%Q end.

  (** _next_continuation_change -- optimizer.py:493-506 *)
  Definition next_change (it : Z) : Z :=
    fold_left (fun acc c =>
      let boundary := (it / c_every c + 1) * c_every c in
      if (boundary <? g_max_iter g) && negb (Qeq_bool (value c it) (value c boundary))
      then Z.min acc boundary else acc) (g_conts g) (g_max_iter g).

  (** Budget -- optimizer.py:526-538 *)
  Definition budget (s : state) : Z :=
    let next_stop := Z.min (g_max_iter g) (next_change (s_iter s)) in
    let next_stop := match g_adaptive g with
      | Some (every, nmax) =>
          if s_adapts s <? nmax then Z.min next_stop ((s_iter s / every + 1) * every) else next_stop
      | None => next_stop end in
    next_stop - s_iter s.

  (** optimizer.py:403-416 *)
  Definition create_mma (build n : nat) (born : Z) : mma :=
    let b := mma_bounds g (npoints mesh0) n in Mma build (fst b) (snd b) born.

  (** Objective closure -- optimizer.py:418-461: increments the counter, then records. *)
  Fixpoint eval_events (it : Z) (params : list Q) (build : nat) (m : M) (o : mma) (pts : list (list Q)) : list event :=
    match pts with
    | [] => []
    | p :: t => Eval (it + 1) params p build m o :: eval_events (it + 1) params build m o t
    end.

  (** State when opt.optimize is called -- optimizer.py:512-524 *)
  Definition prepare (s : state) : state :=
    State (s_iter s) (s_x s) (map (fun c => value c (s_iter s)) (g_conts g)) (s_mesh s) (s_build s)
      (s_adapts s) false
      (if s_need s then create_mma (s_build s) (npoints (s_mesh s)) (s_iter s) else s_opt s) (s_trace s).

  (** optimize -- optimizer.py:540-543 *)
  Definition optimise (s : state) (v : move) : state :=
    State (s_iter s + Z.of_nat (List.length (v_points v)))
      (match v_result v with Some x => x | None => s_x s end)
      (s_params s) (s_mesh s) (s_build s) (s_adapts s) (s_need s) (s_opt s)
      (s_trace s ++ eval_events (s_iter s) (s_params s) (s_build s) (s_mesh s) (s_opt s) (v_points v)).

  (** Restart flag -- optimizer.py:545-550 *)
  Definition flag_restart (s : state) : state :=
    let changed := existsb (fun c => negb (Qeq_bool (value c (s_iter s)) (value c (s_iter s - 1)))) (g_conts g) in
    State (s_iter s) (s_x s) (s_params s) (s_mesh s) (s_build s) (s_adapts s)
      (s_need s || ((s_iter s <? g_max_iter g) && changed)) (s_opt s) (s_trace s).

  (** Adaptive remesh -- optimizer.py:552-584 *)
  Definition adapt (s : state) : state :=
    match g_adaptive g with
    | Some (every, nmax) =>
        if (s_adapts s <? nmax) && (s_iter s <? g_max_iter g) && (s_iter s mod every =? 0) then
          let m' := remesh (s_mesh s) (filt (s_mesh s) (s_x s)) in
          State (s_iter s) (transfer (s_x s) (s_mesh s) m') (s_params s) m' (S (s_build s))
            (s_adapts s + 1) true (s_opt s) (s_trace s ++ [Remesh (s_iter s)])
        else s
    | None => s
    end.

  Definition epoch (s : state) (v : move) : state := adapt (flag_restart (optimise (prepare s) v)).

  (** `while iter_count < max_iter` over the successive answers of NLopt. *)
  Fixpoint loop (vs : list move) (s : state) : state :=
    match vs with
    | [] => s
    | v :: t => if s_iter s <? g_max_iter g then loop t (epoch s v) else s
    end.

  (** State on loop entry -- optimizer.py:328-363, 509 *)
  Definition init_state (es : list centry) : state :=
    State 0 (start_design g es (npoints mesh0)) (map c_initial (g_conts g)) mesh0 0 0 true
      (create_mma 0 (npoints mesh0) 0) [].

  (** run: a zero period raises ZeroDivisionError in the first pass. *)
  Definition bad_period : bool :=
    existsb (fun c => c_every c =? 0) (g_conts g)
    || match g_adaptive g with Some (every, nmax) => (every =? 0) && (0 <? nmax) | None => false end.
  Definition run_loop (es : list centry) (vs : list move) : option state :=
    if (0 <? g_max_iter g) && bad_period then None else Some (loop vs (init_state es)).
End Loop.

(** ** History -- optimizer.py:338-343, 429-437 *)
Definition hist := list (string * list Q).
Fixpoint col_append (h : hist) (k : string) (v : Q) : hist :=
  match h with
  | [] => []
  | (k', l) :: t => if String.eqb k' k then (k', l ++ [v]) :: t else (k', l) :: col_append t k v
  end.
Fixpoint col (h : hist) (k : string) : list Q :=
  match h with [] => [] | (k', l) :: t => if String.eqb k' k then l else col t k end.

(** Python dict literal {'iteration': [], 'objective': [], **{name: [] ...}}: a repeated
    key is kept once. *)
Fixpoint dict_keys (ks : list string) (seen : list string) : list string :=
  match ks with
  | [] => []
  | k :: t => if existsb (String.eqb k) seen then dict_keys t seen else k :: dict_keys t (k :: seen)
  end.
Definition init_hist (names : list string) : hist :=
  map (fun k => (k, [])) (dict_keys ("iteration" :: "objective" :: names)%string []).

(** con_vals: a dict filled in order, so a repeated name keeps the last value. *)
Fixpoint dict_last (kvs : list (string * Q)) (k : string) (d : Q) : Q :=
  match kvs with [] => d | (k', v) :: t => dict_last t k (if String.eqb k' k then v else d) end.

(** Recording one evaluation -- optimizer.py:425-437 *)
Definition record_eval (names : list string) (h : hist) (number obj : Q) (cons : list Q) : hist :=
  let h := col_append h "iteration" number in
  let h := col_append h "objective" obj in
  fold_left (fun h nm => col_append h nm (dict_last (combine names cons) nm 0%Q)) names h.
