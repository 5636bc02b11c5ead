(** C92, element part: the element stiffness is the exact energy integral of the trilinear field. *)
From Coq Require Import Reals List Arith Lia Lra Bool.
From Coquelicot Require Import Coquelicot.
From Verif Require Import Tmc_Model Tmc_Props Adaptive_Model Adaptive_Props CmgSolve_Model CmgElem_Props.
Import ListNotations.
Local Open Scope R_scope.

(** Specification: trilinear interpolation on the unit cube, its gradient (as derivatives) and the
    density of work of two displacement gradients. *)
Definition point (x y z : R) : vec := fun c => match c with O => x | 1%nat => y | _ => z end.
Definition shape1 (a c : nat) (s : R) : R := (1 - corner a c) * (1 - s) + corner a c * s.
Definition field (u : vec) (k : nat) (X : vec) : R := rs 8 (fun a => u (3 * a + k)%nat * (shape1 a 0 (X 0%nat) * shape1 a 1 (X 1%nat) * shape1 a 2 (X 2%nat))).
Definition along (X : vec) (i : nat) (s : R) : vec := fun c => if (c =? i)%nat then s else X c.
Definition is_gradient (u : vec) (G : vec -> nat -> nat -> R) : Prop :=
  forall X k i, (k < 3)%nat -> (i < 3)%nat -> is_derive (fun s => field u k (along X i s)) (X i) (G X k i).
Definition work_density (lam mu : R) (A B : nat -> nat -> R) : R :=
  lam * rs 3 (fun i => A i i) * rs 3 (fun i => B i i) + 2 * mu * rs 3 (fun i => rs 3 (fun j => strain_of A i j * strain_of B i j)).

Lemma is_derive_rs n (f : nat -> R -> R) (df : nat -> R) x : (forall k, (k < n)%nat -> is_derive (f k) x (df k)) -> is_derive (fun t => rs n (fun k => f k t)) x (rs n df).
Proof.
  induction n as [|n IH]; intros H; cbn [rs]; [apply (is_derive_const 0)|].
  apply (is_derive_plus (fun t => rs n (fun k => f k t)) (f n)); [apply IH; intros; apply H; lia|apply H; lia].
Qed.
Lemma field_derive u X k i : (k < 3)%nat -> (i < 3)%nat -> is_derive (fun s => field u k (along X i s)) (X i) (Hg (fun c => 2 * X c - 1) u k i).
Proof.
  intros Hk Hi. unfold field, Hg. apply is_derive_rs. intros a Ha. rewrite dNxyz_eq by assumption. unfold dN, sgn, along.
  unfold shape1. generalize (corner a 0) (corner a 1) (corner a 2) (u (3 * a + k)%nat). intros c0 c1 c2 w.
  destruct i as [|[|[|i]]]; try lia; cbn [Nat.eqb]; auto_derive; try exact I; field.
Qed.
Lemma grad_H u G : is_gradient u G -> forall x y z k i, (k < 3)%nat -> (i < 3)%nat ->
  G (point x y z) k i = Hg (point (2 * x - 1) (2 * y - 1) (2 * z - 1)) u k i.
Proof.
  intros HG x y z k i Hk Hi. pose proof (HG (point x y z) k i Hk Hi) as D. apply is_derive_unique in D. rewrite <- D.
  pose proof (field_derive u (point x y z) k i Hk Hi) as D'. apply is_derive_unique in D'. rewrite D'. rewrite !Hg_mom by assumption.
  cbv zeta. destruct i as [|[|[|i]]]; try lia; reflexivity.
Qed.

(** Two-point Gauss is exact for a quadratic on [0, 1]. *)
Definition quadratic (f : R -> R) : Prop := exists a b c, forall t, f t = a + b * t + c * (t * t).
Lemma g2 : 1 / sqrt 3 * (1 / sqrt 3) = 1 / 3.
Proof. assert (H := sqrt_sqrt 3 ltac:(lra)). assert (P : 0 < sqrt 3) by (apply sqrt_lt_R0; lra). field_simplify; [|lra]. rewrite <- Rsqr_pow2, Rsqr_sqrt by lra. field. Qed.
Lemma RInt_quadratic f : quadratic f -> RInt f 0 1 = 1 / 2 * (f ((1 - 1 / sqrt 3) / 2) + f ((1 + 1 / sqrt 3) / 2)).
Proof.
  intros (a & b & c & H). apply is_RInt_unique.
  apply (is_RInt_ext (fun t => a + b * t + c * (t * t))); [intros; symmetry; apply H|].
  rewrite !H. pose proof g2 as G. set (g := 1 / sqrt 3) in *.
  replace (1 / 2 * (a + b * ((1 - g) / 2) + c * ((1 - g) / 2 * ((1 - g) / 2)) + (a + b * ((1 + g) / 2) + c * ((1 + g) / 2 * ((1 + g) / 2)))))
    with (a + b / 2 + c * (1 + g * g) / 4) by field. rewrite G.
  set (F := fun t : R => a * t + b * (t * t) / 2 + c * (t * t * t) / 3).
  replace (a + b / 2 + c * (1 + 1 / 3) / 4) with (minus (F 1) (F 0)) by (unfold F, minus, plus, opp; cbn; field).
  apply (is_RInt_derive F).
  - intros t _. unfold F. auto_derive; [exact I|field].
  - intros t _. apply (continuous_ext (fun t => a + b * t + c * (t * t))); [reflexivity|]. apply (ex_derive_continuous (fun t => a + b * t + c * (t * t))). auto_derive. exact I.
Qed.
Lemma quadratic_add f g : quadratic f -> quadratic g -> quadratic (fun t => f t + g t).
Proof. intros (a & b & c & H) (a' & b' & c' & H'). exists (a + a'), (b + b'), (c + c'). intros t. rewrite H, H'. ring. Qed.
Lemma quadratic_scale k f : quadratic f -> quadratic (fun t => k * f t).
Proof. intros (a & b & c & H). exists (k * a), (k * b), (k * c). intros t. rewrite H. ring. Qed.
Definition affine1 (f : R -> R) : Prop := exists a b, forall t, f t = a + b * t.
Lemma affine_mul f g : affine1 f -> affine1 g -> quadratic (fun t => f t * g t).
Proof. intros (a & b & H) (a' & b' & H'). exists (a * a'), (a * b' + b * a'), (b * b'). intros t. rewrite H, H'. ring. Qed.
Lemma affine_add f g : affine1 f -> affine1 g -> affine1 (fun t => f t + g t).
Proof. intros (a & b & H) (a' & b' & H'). exists (a + a'), (b + b'). intros t. rewrite H, H'. ring. Qed.

(** [wd] at the physical point (x, y, z). *)
Definition Hp (u : vec) (k i : nat) (x y z : R) : R := Hg (point (2 * x - 1) (2 * y - 1) (2 * z - 1)) u k i.
Lemma Hp_affine u k i : (k < 3)%nat -> (i < 3)%nat ->
  (forall y z, affine1 (fun x => Hp u k i x y z)) /\ (forall x z, affine1 (fun y => Hp u k i x y z)) /\ (forall x y, affine1 (fun z => Hp u k i x y z)).
Proof.
  intros Hk Hi. unfold Hp.
  assert (A : forall f : R -> R, (forall t, f t = (1 - t) * f 0 + t * f 1) -> affine1 f).
  { intros f H. exists (f 0), (f 1 - f 0). intros t. rewrite H. ring. }
  destruct i as [|[|[|i]]]; try lia; (split; [|split]); intros p q; apply A; intros t; rewrite !Hg_mom by lia; cbn [Nat.eqb point]; ring.
Qed.
Definition wd (nu E : R) (u v : vec) (x y z : R) : R := quad nu E (point (2 * x - 1) (2 * y - 1) (2 * z - 1)) u v.
Lemma wd_quadratic nu E u v :
  (forall y z, quadratic (fun x => wd nu E u v x y z)) /\ (forall x z, quadratic (fun y => wd nu E u v x y z)) /\ (forall x y, quadratic (fun z => wd nu E u v x y z)).
Proof.
  assert (F : forall w k i, (k < 3)%nat -> (i < 3)%nat -> (forall y z, affine1 (fun x => Hp w k i x y z)) /\ (forall x z, affine1 (fun y => Hp w k i x y z)) /\ (forall x y, affine1 (fun z => Hp w k i x y z))) by (intros; apply Hp_affine; assumption).
  assert (X : forall P : (R -> R) -> Prop, True) by (intros; exact I). clear X.
  assert (Q : forall A B : nat -> nat -> R -> R, (forall k i, (k < 3)%nat -> (i < 3)%nat -> affine1 (A k i)) -> (forall k i, (k < 3)%nat -> (i < 3)%nat -> affine1 (B k i)) ->
    quadratic (fun t => lame nu E * ((A 0%nat 0%nat t + A 1%nat 1%nat t + A 2%nat 2%nat t) * (B 0%nat 0%nat t + B 1%nat 1%nat t + B 2%nat 2%nat t)) +
      shear nu E * (2 * (A 0%nat 0%nat t * B 0%nat 0%nat t + A 1%nat 1%nat t * B 1%nat 1%nat t + A 2%nat 2%nat t * B 2%nat 2%nat t) +
       (A 0%nat 1%nat t + A 1%nat 0%nat t) * (B 0%nat 1%nat t + B 1%nat 0%nat t) + (A 1%nat 2%nat t + A 2%nat 1%nat t) * (B 1%nat 2%nat t + B 2%nat 1%nat t) + (A 0%nat 2%nat t + A 2%nat 0%nat t) * (B 0%nat 2%nat t + B 2%nat 0%nat t)))).
  { intros A B HA HB.
    repeat first [apply quadratic_add | apply quadratic_scale | apply affine_mul | apply affine_add | apply HA; lia | apply HB; lia]. }
  assert (EQ : forall x y z, wd nu E u v x y z = lame nu E * ((Hp u 0 0 x y z + Hp u 1 1 x y z + Hp u 2 2 x y z) * (Hp v 0 0 x y z + Hp v 1 1 x y z + Hp v 2 2 x y z)) +
      shear nu E * (2 * (Hp u 0 0 x y z * Hp v 0 0 x y z + Hp u 1 1 x y z * Hp v 1 1 x y z + Hp u 2 2 x y z * Hp v 2 2 x y z) +
       (Hp u 0 1 x y z + Hp u 1 0 x y z) * (Hp v 0 1 x y z + Hp v 1 0 x y z) + (Hp u 1 2 x y z + Hp u 2 1 x y z) * (Hp v 1 2 x y z + Hp v 2 1 x y z) + (Hp u 0 2 x y z + Hp u 2 0 x y z) * (Hp v 0 2 x y z + Hp v 2 0 x y z))).
  { intros. unfold wd. rewrite quad_H. unfold Hp. ring. }
  assert (T : forall f g : R -> R, (forall t, f t = g t) -> quadratic g -> quadratic f) by (intros f g H (a & b & c & K); exists a, b, c; intros t; rewrite H; apply K).
  split; [|split]; intros p q.
  - apply (T _ _ (fun t => EQ t p q)). pose proof (Q (fun k i t => Hp u k i t p q) (fun k i t => Hp v k i t p q)) as QQ. cbv beta in QQ. apply QQ; intros k i Hk Hi; [destruct (F u k i Hk Hi) as (A & _ & _)|destruct (F v k i Hk Hi) as (A & _ & _)]; exact (A p q).
  - apply (T _ _ (fun t => EQ p t q)). pose proof (Q (fun k i t => Hp u k i p t q) (fun k i t => Hp v k i p t q)) as QQ. cbv beta in QQ. apply QQ; intros k i Hk Hi; [destruct (F u k i Hk Hi) as (_ & A & _)|destruct (F v k i Hk Hi) as (_ & A & _)]; exact (A p q).
  - apply (T _ _ (fun t => EQ p q t)). pose proof (Q (fun k i t => Hp u k i p q t) (fun k i t => Hp v k i p q t)) as QQ. cbv beta in QQ. apply QQ; intros k i Hk Hi; [destruct (F u k i Hk Hi) as (_ & _ & A)|destruct (F v k i Hk Hi) as (_ & _ & A)]; exact (A p q).
Qed.

(** The work of [u] against the element stiffness times [v] is the integral over the unit cube of the
    elastic work density of the gradients of the two trilinear fields. *)
Theorem C92_element_integral : forall nu E (u v : vec) Gu Gv, is_gradient u Gu -> is_gradient v Gv ->
  work (KEmat nu E) u v =
  RInt (fun x => RInt (fun y => RInt (fun z => work_density (lame nu E) (shear nu E) (Gu (point x y z)) (Gv (point x y z))) 0 1) 0 1) 0 1.
Proof.
  intros nu E u v Gu Gv HU HV.
  assert (D : forall x y z, work_density (lame nu E) (shear nu E) (Gu (point x y z)) (Gv (point x y z)) = wd nu E u v x y z).
  { intros. unfold work_density, strain_of. cbn [rs]. rewrite !(grad_H u Gu HU), !(grad_H v Gv HV) by lia. unfold wd. rewrite quad_H. field. }
  destruct (wd_quadratic nu E u v) as (QX & QY & QZ).
  set (lo := (1 - 1 / sqrt 3) / 2). set (hi := (1 + 1 / sqrt 3) / 2).
  rewrite (RInt_ext _ (fun x => 1 / 2 * (1 / 2 * (wd nu E u v x lo lo + wd nu E u v x lo hi) + 1 / 2 * (wd nu E u v x hi lo + wd nu E u v x hi hi)))).
  2:{ intros x _. rewrite (RInt_ext _ (fun y => 1 / 2 * (wd nu E u v x y lo + wd nu E u v x y hi))).
      2:{ intros y _. rewrite (RInt_ext _ (fun z => wd nu E u v x y z)) by (intros; apply D). apply (RInt_quadratic _ (QZ x y)). }
      rewrite RInt_quadratic; [reflexivity|]. apply quadratic_scale, quadratic_add; apply QY. }
  rewrite RInt_quadratic.
  2:{ apply quadratic_scale. apply quadratic_add; apply quadratic_scale; apply quadratic_add; apply QX. }
  fold lo hi. rewrite work_quad.
  assert (P : forall q x y z, (forall c, (c < 3)%nat -> gauss q c = point (2 * x - 1) (2 * y - 1) (2 * z - 1) c) -> quad nu E (gauss q) u v = wd nu E u v x y z).
  { intros q x y z H. unfold wd. rewrite !quad_H, !Hg_mom by lia. cbn [Nat.eqb]. rewrite !H by lia. reflexivity. }
  cbn [rs].
  rewrite (P 0%nat lo lo lo), (P 1%nat lo lo hi), (P 2%nat lo hi lo), (P 3%nat lo hi hi), (P 4%nat hi lo lo), (P 5%nat hi lo hi), (P 6%nat hi hi lo), (P 7%nat hi hi hi);
    [field|..]; intros c Hc; unfold gauss; set (g := 1 / sqrt 3) in *; destruct c as [|[|[|c]]]; try lia; unfold sgn, corner, lo, hi; cbn; field.
Qed.
Print Assumptions C92_element_integral.
(** Every nodal vector has a gradient in this sense. *)
Example C92_gradient_exists : forall u : vec, exists G, is_gradient u G.
Proof.
  intros u. exists (fun X k i => Hg (fun c => 2 * X c - 1) u k i). intros X k i Hk Hi.
  apply field_derive; assumption.
Qed.
