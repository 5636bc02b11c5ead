(** Floating-point values as far as control flow can see them: exact rationals plus
    the IEEE special values. Rounding and overflow of finite operations are not
    modelled; infinities and NaN follow IEEE 754. *)
From Coq Require Import QArith Qabs Qminmax Bool List Lia Lqa.
Import ListNotations.
Open Scope Q_scope.

Inductive num : Type := NaN | NInf | PInf | Fin (q : Q).

Definition nneg (a : num) : num :=
  match a with NaN => NaN | NInf => PInf | PInf => NInf | Fin q => Fin (- q) end.
Definition nadd (a b : num) : num :=
  match a, b with
  | NaN, _ | _, NaN => NaN
  | PInf, NInf | NInf, PInf => NaN
  | PInf, _ | _, PInf => PInf
  | NInf, _ | _, NInf => NInf
  | Fin p, Fin q => Fin (p + q)
  end.
Definition nsub (a b : num) : num := nadd a (nneg b).
(** Sign of a rational: -1, 0 or 1. *)
Definition qsgn (q : Q) : Z := Z.sgn (Qnum q).
(** [inf * q]. *)
Definition ninf_mul (pos : bool) (q : Q) : num :=
  match qsgn q with
  | Z0 => NaN
  | Zpos _ => if pos then PInf else NInf
  | Zneg _ => if pos then NInf else PInf
  end.
Definition nmul (a b : num) : num :=
  match a, b with
  | NaN, _ | _, NaN => NaN
  | PInf, PInf | NInf, NInf => PInf
  | PInf, NInf | NInf, PInf => NInf
  | PInf, Fin q | Fin q, PInf => ninf_mul true q
  | NInf, Fin q | Fin q, NInf => ninf_mul false q
  | Fin p, Fin q => Fin (p * q)
  end.
(** Division by a positive denominator (the only kind the modelled code performs). *)
Definition ndiv_pos (a b : num) : num :=
  match a, b with
  | NaN, _ | _, NaN => NaN
  | Fin p, Fin q => Fin (p / q)
  | Fin _, _ => Fin 0
  | a, Fin _ => a
  | _, _ => NaN
  end.
(** Comparisons are false on NaN. *)
Definition nle (a b : num) : bool :=
  match a, b with
  | NaN, _ | _, NaN => false
  | NInf, _ => true | _, PInf => true
  | _, NInf => false | PInf, _ => false
  | Fin p, Fin q => Qle_bool p q
  end.
Definition nlt (a b : num) : bool :=
  match a, b with
  | NaN, _ | _, NaN => false
  | NInf, NInf | PInf, PInf => false
  | NInf, _ => true | _, PInf => true
  | _, NInf => false | PInf, _ => false
  | Fin p, Fin q => negb (Qle_bool q p)
  end.
(** [jnp.maximum], which propagates NaN. *)
Definition nmax (a b : num) : num :=
  match a, b with
  | NaN, _ | _, NaN => NaN
  | _, _ => if nle a b then b else a
  end.

Lemma nle_Fin p q : nle (Fin p) (Fin q) = true <-> p <= q.
Proof. cbn. apply Qle_bool_iff. Qed.
Lemma nlt_Fin p q : nlt (Fin p) (Fin q) = true <-> p < q.
Proof.
  cbn. rewrite negb_true_iff. split; intros H.
  - apply Qnot_le_lt. intros H'. apply Qle_bool_iff in H'. congruence.
  - destruct (Qle_bool q p) eqn:E; [|reflexivity]. apply Qle_bool_iff in E.
    exfalso. apply (Qlt_not_le _ _ H E).
Qed.
