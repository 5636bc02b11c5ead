(** Specification vocabulary for C67. Nothing here models repository code. *)
From Verif Require Import Base Kernel_Model Mdmm_Model.

(** Dual numbers [a + b t] with [t * t = 0] over any ring: evaluating a function on them is
    differentiating it. *)
Section Dual.
  Variable K : CRing.
  Add Ring KringD : (cth K).
  Local Open Scope ring_K.
  Definition dadd (a b : K * K) : K * K := (fst a + fst b, snd a + snd b).
  Definition dmul (a b : K * K) : K * K := (fst a * fst b, fst a * snd b + snd a * fst b).
  Definition dsub (a b : K * K) : K * K := (fst a - fst b, snd a - snd b).
  Definition dopp (a : K * K) : K * K := (- fst a, - snd a).
  Lemma dual_theory : ring_theory (0, 0) (1, 0) dadd dmul dsub dopp (@eq (K * K)).
  Proof.
    constructor; intros; repeat match goal with x : (carrier K * carrier K)%type |- _ => destruct x end;
      unfold dadd, dmul, dsub, dopp; cbn [fst snd]; f_equal; ring.
  Qed.
  Definition dualK : CRing := {| cth := dual_theory |}.
  (** The constant [a]. *)
  Definition dconst (a : K) : dualK := (a, 0).

  (** [p + t d]: the parameters [p] moved in direction [d] (of the same structure). *)
  Fixpoint along (p d : tree K) {struct p} : tree dualK :=
    match p, d with
    | Leaf a, Leaf b => Leaf (combine a b : list dualK)
    | LM a, LM b => LM (combine a b : list dualK)
    | Node ps, Node ds =>
        Node ((fix go (ps ds : list (tree K)) : list (tree dualK) :=
                 match ps, ds with q :: ps, w :: ds => along q w :: go ps ds | _, _ => [] end) ps ds)
    | _, _ => Node []
    end.
  Fixpoint same_shape (p d : tree K) {struct p} : Prop :=
    match p, d with
    | Leaf a, Leaf b | LM a, LM b => length a = length b
    | Node ps, Node ds =>
        (fix go (ps ds : list (tree K)) : Prop :=
           match ps, ds with [], [] => True | q :: ps, w :: ds => same_shape q w /\ go ps ds | _, _ => False end) ps ds
    | _, _ => False
    end.
  Definition dot (a b : list K) : K := Sum (length a) (fun i => get a i * get b i).
  Fixpoint tdot (p d : tree K) {struct p} : K :=
    match p, d with
    | Leaf a, Leaf b | LM a, LM b => dot a b
    | Node ps, Node ds =>
        (fix go (ps ds : list (tree K)) : K :=
           match ps, ds with q :: ps, w :: ds => tdot q w + go ps ds | _, _ => 0 end) ps ds
    | _, _ => 0
    end.
  (** [g] is the gradient at [p] of the function that [F] computes on dual numbers: the
      directional derivative along every [d] is the inner product with [g]. *)
  Definition is_gradient (F : tree dualK -> option dualK) (p g : tree K) (value : K) : Prop :=
    same_shape p g /\ forall d, same_shape p d -> F (along p d) = Some (value, tdot g d).

  (** [hD] is [h] evaluated on dual numbers, [J] its Jacobian ([m] outputs, [n] inputs). *)
  Definition jacobian (n m : nat) (h : list K -> list K) (hD : list dualK -> list dualK)
      (J : list K -> list (list K)) : Prop :=
    forall x dx, length x = n -> length dx = n ->
      length (h x) = m /\
      hD (combine x dx) = tab m (fun i => (get (h x) i, Sum n (fun j => get2 (J x) i j * get dx j))).
  Definition derivative (n : nat) (f : list K -> K) (fD : list dualK -> dualK) (Df : list K -> list K) : Prop :=
    forall x dx, length x = n -> length dx = n ->
      length (Df x) = n /\ fD (combine x dx) = (f x, Sum n (fun j => get (Df x) j * get dx j)).
End Dual.
Arguments dconst {K}. Arguments along {K}. Arguments same_shape {K}. Arguments dot {K}. Arguments tdot {K}.
Arguments is_gradient {K}. Arguments jacobian {K}. Arguments derivative {K}.

(** The documented use: the trained parameters are [(main, constraint parameters)] and the trained
    function is the objective plus the combined constraint loss. *)
Definition system {L : CRing} (f : list L -> L) (con : constraint L (list L)) (p : tree L) : option L :=
  match p with
  | Node [Leaf x; q] => match c_loss con q x with Some (l, _) => Some (cadd (f x) l) | None => None end
  | _ => None
  end.

(** Karush-Kuhn-Tucker conditions, without the sign of the inequality multipliers, of
    "stationary [f] subject to [he x = 0], [hi x >= 0]" at [x], with multipliers [- we le], [- wi li]
    and slacks [s] ([hi x = s * s]). *)
Section Kkt.
  Variable K : CRing.
  Local Open Scope ring_K.
  Definition kkt (n me mi : nat) (Df : list K) (he hi : list K) (Je Ji : list (list K)) (we wi : K)
      (le li s : list K) : Prop :=
    (forall i, i < me -> get he i = 0) /\
    (forall i, i < mi -> get hi i = get s i * get s i) /\
    (forall i, i < mi -> get li i * get hi i = 0) /\
    (forall j, j < n -> get Df j + we * Sum me (fun i => get le i * get2 Je i j)
                        + wi * Sum mi (fun i => get li i * get2 Ji i j) = 0).
End Kkt.
Arguments kkt {K}.
