(** Property C85, first part: rotations in the plane and the plane-stress stiffness. *)
From Coq Require Import Reals List Arith Bool Lia Lra FunctionalExtensionality.
From Verif Require Import Tmc_Model Tmc_Props Layered_Model Shell_Model.
From Verif Require LayeredRot_Props.
Import ListNotations.
Open Scope R_scope.

Ltac ix2 i := destruct i as [|[|i]]; [| |lia].
Definition e2 (A B : mat) : Prop := forall i j, (i < 2)%nat -> (j < 2)%nat -> A i j = B i j.
Definition e4 (C D : ten) : Prop := forall i j k l, (i < 2)%nat -> (j < 2)%nat -> (k < 2)%nat -> (l < 2)%nat -> C i j k l = D i j k l.
Definition symm (a : mat) : Prop := forall i j, (i < 2)%nat -> (j < 2)%nat -> a i j = a j i.
Definition minor2 (C : ten) : Prop := forall i j k l, (i < 2)%nat -> (j < 2)%nat -> (k < 2)%nat -> (l < 2)%nat -> C i j k l = C j i k l /\ C i j k l = C i j l k.
Definition major2 (C : ten) : Prop := forall i j k l, (i < 2)%nat -> (j < 2)%nat -> (k < 2)%nat -> (l < 2)%nat -> C i j k l = C k l i j.
Definition mul (A B : mat) : mat := fun i j => rs 2 (fun k => A i k * B k j).
(** Mode products, as in three dimensions. *)
Definition m1 (A : mat) (f : nat -> R) (i : nat) : R := rs 2 (fun p => A i p * f p).
Definition m2 (A : mat) (f : nat -> nat -> R) (i j : nat) : R := m1 A (fun p => m1 A (f p) j) i.
Definition m3 (A : mat) (f : nat -> nat -> nat -> R) (i j k : nat) : R := m1 A (fun p => m2 A (f p) j k) i.
Definition m4 (A : mat) (f : ten) (i j k l : nat) : R := m1 A (fun p => m3 A (f p) j k l) i.

Lemma m1_lin A B g i j : m1 A (fun q => m1 B (fun p => g p q) i) j = m1 B (fun p => m1 A (g p) j) i.
Proof. unfold m1. cbn [rs]. ring. Qed.
Lemma m1_comp A B f i : m1 A (m1 B f) i = m1 (mul A B) f i.
Proof. unfold m1, mul. cbn [rs]. ring. Qed.
Lemma m1_ext A f g i : (forall p, (p < 2)%nat -> f p = g p) -> m1 A f i = m1 A g i.
Proof. intros H. apply rs_ext. intros p Hp. rewrite (H p Hp). reflexivity. Qed.
Lemma m1_kd A f i : (i < 2)%nat -> (forall p, (p < 2)%nat -> A i p = kd i p) -> m1 A f i = f i.
Proof.
  intros Hi H. unfold m1. rewrite (rs_ext _ _ (fun p => (if Nat.eqb p i then 1 else 0) * f p)); [apply rs_delta, Hi|].
  intros p Hp. rewrite (H p Hp). unfold kd. rewrite Nat.eqb_sym. reflexivity.
Qed.
Lemma m1_matext A B f i : (forall p, (p < 2)%nat -> A i p = B i p) -> m1 A f i = m1 B f i.
Proof. intros H. apply rs_ext. intros p Hp. rewrite (H p Hp). reflexivity. Qed.
Lemma m2_lin A B g i j k : m2 A (fun q r => m1 B (fun p => g p q r) i) j k = m1 B (fun p => m2 A (g p) j k) i.
Proof. unfold m2. rewrite <- (m1_lin A B). apply m1_ext. intros p _. apply m1_lin. Qed.
Lemma m3_lin A B g i j k l : m3 A (fun q r s => m1 B (fun p => g p q r s) i) j k l = m1 B (fun p => m3 A (g p) j k l) i.
Proof. unfold m3. rewrite <- (m1_lin A B). apply m1_ext. intros p _. apply (m2_lin A B (fun p' q r => g p' p q r)). Qed.
Lemma m2_comp A B f i j : m2 A (m2 B f) i j = m2 (mul A B) f i j.
Proof.
  unfold m2. rewrite <- m1_comp. apply m1_ext. intros p _. rewrite (m1_lin A B (fun q r => m1 B (f q) r)). apply m1_ext. intros q _. apply (m1_comp A B (f q) j).
Qed.
Lemma m3_comp A B f i j k : m3 A (m3 B f) i j k = m3 (mul A B) f i j k.
Proof.
  unfold m3. rewrite <- m1_comp. apply m1_ext. intros p _. rewrite (m2_lin A B (fun q r s => m2 B (f q) r s)). apply m1_ext. intros q _. apply m2_comp.
Qed.
Lemma m4_comp A B f i j k l : m4 A (m4 B f) i j k l = m4 (mul A B) f i j k l.
Proof.
  unfold m4. rewrite <- m1_comp. apply m1_ext. intros p _. rewrite (m3_lin A B (fun q r s t => m3 B (f q) r s t)). apply m1_ext. intros q _. apply m3_comp.
Qed.
Lemma m4_kd A f i j k l : (forall a b, (a < 2)%nat -> (b < 2)%nat -> A a b = kd a b) -> (i < 2)%nat -> (j < 2)%nat -> (k < 2)%nat -> (l < 2)%nat ->
  m4 A f i j k l = f i j k l.
Proof. intros H Hi Hj Hk Hl. unfold m4, m3, m2. rewrite !m1_kd by (auto; intros; apply H; auto). reflexivity. Qed.
Lemma m2_kd A f i j : (forall a b, (a < 2)%nat -> (b < 2)%nat -> A a b = kd a b) -> (i < 2)%nat -> (j < 2)%nat -> m2 A f i j = f i j.
Proof. intros H Hi Hj. unfold m2. rewrite !m1_kd by (auto; intros; apply H; auto). reflexivity. Qed.

Lemma m1_sum Q n f i : m1 Q (fun p => rs n (fun k => f p k)) i = rs n (fun k => m1 Q (fun p => f p k) i).
Proof.
  unfold m1. rewrite rs_swap. apply rs_ext. intros p _. rewrite rs_scale. reflexivity.
Qed.
Lemma m2_sum Q n f i j : m2 Q (fun p q => rs n (fun k => f p q k)) i j = rs n (fun k => m2 Q (fun p q => f p q k) i j).
Proof. unfold m2. rewrite <- m1_sum. apply m1_ext. intros p _. apply m1_sum. Qed.
Lemma m2_scale Q c f i j : m2 Q (fun p q => f p q * c) i j = m2 Q f i j * c.
Proof. unfold m2, m1. cbn [rs]. ring. Qed.

Lemma m2_swap Q f i j : m2 Q f i j = m2 Q (fun p q => f q p) j i.
Proof. unfold m2. exact (m1_lin Q Q (fun p q => f q p) j i). Qed.
Lemma m2_ext Q f g i j : (forall p q, (p < 2)%nat -> (q < 2)%nat -> f p q = g p q) -> m2 Q f i j = m2 Q g i j.
Proof. intros H. unfold m2. apply m1_ext. intros p Hp. apply m1_ext. intros q Hq. apply H; assumption. Qed.
Lemma m4_pairs Q C i j k l : m4 Q C i j k l = m2 Q (fun p q => m2 Q (C p q) k l) i j.
Proof. reflexivity. Qed.
Lemma m2_m2_swap Q C i j k l : m2 Q (fun p q => m2 Q (C p q) k l) i j = m2 Q (fun r s => m2 Q (fun p q => C p q r s) i j) k l.
Proof.
  transitivity (m1 Q (fun p => m1 Q (fun q => m2 Q (C p q) k l) j) i); [reflexivity|].
  transitivity (m1 Q (fun p => m2 Q (fun r s => m1 Q (fun q => C p q r s) j) k l) i).
  - apply m1_ext. intros p _. symmetry. apply (m2_lin Q Q (fun q r s => C p q r s) j k l).
  - symmetry. apply (m2_lin Q Q (fun p r s => m1 Q (fun q => C p q r s) j) i k l).
Qed.

Lemma rotate2_fun al t : rotate2 al t = m2 (rot2d t) al.
Proof.
  apply functional_extensionality; intro i. apply functional_extensionality; intro j. unfold rotate2, m2, m1. cbn [rs]. ring.
Qed.
Lemma rotate4_fun C t : rotate4 C t = m4 (rot2d t) C.
Proof.
  do 4 (apply functional_extensionality; intro). unfold rotate4, m4, m3, m2, m1. cbv zeta. apply rs_ext. intros p _. rewrite <- rs_scale. apply rs_ext. intros q _. rewrite <- !rs_scale. apply rs_ext. intros r _.
  rewrite <- !rs_scale. apply rs_ext. intros; ring.
Qed.
Lemma sc t : sin t * sin t = 1 - cos t * cos t.
Proof. pose proof (sin2_cos2 t) as H. unfold Rsqr in H. lra. Qed.
Lemma rot_mul a b i j : (i < 2)%nat -> (j < 2)%nat -> mul (rot2d a) (rot2d b) i j = rot2d (a + b) i j.
Proof. intros Hi Hj. ix2 i; ix2 j; unfold mul; cbn [rs rot2d]; rewrite ?sin_plus, ?cos_plus; ring. Qed.
Lemma rot_zero i j : (i < 2)%nat -> (j < 2)%nat -> rot2d 0 i j = kd i j.
Proof. intros Hi Hj. ix2 i; ix2 j; cbn [rot2d kd Nat.eqb]; rewrite ?sin_0, ?cos_0; ring. Qed.
Lemma orth_inner t f g : rs 2 (fun k => m1 (rot2d t) f k * m1 (rot2d t) g k) = rs 2 (fun p => f p * g p).
Proof. unfold m1. cbn [rs rot2d]. ring [(sc t)]. Qed.
Lemma orth_inner2 t f g : rs 2 (fun k => rs 2 (fun l => m2 (rot2d t) f k l * m2 (rot2d t) g k l)) = rs 2 (fun k => rs 2 (fun l => f k l * g k l)).
Proof.
  rewrite rs_swap. transitivity (rs 2 (fun l => rs 2 (fun p => m1 (rot2d t) (f p) l * m1 (rot2d t) (g p) l))).
  - apply rs_ext. intros l _. apply (orth_inner t (fun p => m1 (rot2d t) (f p) l) (fun p => m1 (rot2d t) (g p) l)).
  - rewrite rs_swap. apply rs_ext. intros p _. apply orth_inner.
Qed.

Definition energy2 (C : ten) (e f : mat) : R := rs 2 (fun i => rs 2 (fun j => e i j * ddot2 C f i j)).
Lemma m4_mat A B f i j k l : (forall a b, (a < 2)%nat -> (b < 2)%nat -> A a b = B a b) -> (i < 2)%nat -> (j < 2)%nat -> (k < 2)%nat -> (l < 2)%nat -> m4 A f i j k l = m4 B f i j k l.
Proof.
  intros H Hi Hj Hk Hl. unfold m4, m3, m2. rewrite (m1_matext A B) by (intros; apply H; assumption). apply m1_ext. intros p _.
  rewrite (m1_matext A B) by (intros; apply H; assumption). apply m1_ext. intros q _. rewrite (m1_matext A B) by (intros; apply H; assumption). apply m1_ext. intros r _.
  apply m1_matext. intros; apply H; assumption.
Qed.
Lemma m2_mat A B f i j : (forall a b, (a < 2)%nat -> (b < 2)%nat -> A a b = B a b) -> (i < 2)%nat -> (j < 2)%nat -> m2 A f i j = m2 B f i j.
Proof.
  intros H Hi Hj. unfold m2. rewrite (m1_matext A B) by (intros; apply H; assumption). apply m1_ext. intros p _. apply m1_matext. intros; apply H; assumption.
Qed.
(** In-plane rotation of stiffness, shear stiffness and expansion: angles add, angle zero does nothing, symmetries stay,
    rotated strain gives rotated stress, energies are kept. *)
Theorem C85_rotation C al e f a b :
  e4 (rotate4 (rotate4 C a) b) (rotate4 C (b + a)) /\ e2 (rotate2 (rotate2 al a) b) (rotate2 al (b + a)) /\
  e4 (rotate4 C 0) C /\ e2 (rotate2 al 0) al /\
  (minor2 C -> minor2 (rotate4 C a)) /\ (major2 C -> major2 (rotate4 C a)) /\ (symm al -> symm (rotate2 al a)) /\
  e2 (ddot2 (rotate4 C a) (rotate2 e a)) (rotate2 (ddot2 C e) a) /\
  energy2 (rotate4 C a) (rotate2 e a) (rotate2 f a) = energy2 C e f.
Proof.
  split; [|split; [|split; [|split; [|split; [|split; [|split]]]]]].
  - intros i j k l Hi Hj Hk Hl. rewrite !rotate4_fun, m4_comp. apply m4_mat; try assumption. intros; apply rot_mul; assumption.
  - intros i j Hi Hj. rewrite !rotate2_fun, m2_comp. apply m2_mat; try assumption. intros; apply rot_mul; assumption.
  - intros i j k l Hi Hj Hk Hl. rewrite rotate4_fun. apply m4_kd; try assumption. apply rot_zero.
  - intros i j Hi Hj. rewrite rotate2_fun. apply m2_kd; try assumption. apply rot_zero.
  - intros H i j k l Hi Hj Hk Hl. rewrite !rotate4_fun, !m4_pairs. split.
    + rewrite m2_swap. apply m2_ext. intros p q Hp Hq. apply m2_ext. intros r s Hr Hs. apply (H q p r s); assumption.
    + apply m2_ext. intros p q Hp Hq. rewrite m2_swap. apply m2_ext. intros r s Hr Hs. apply (H p q s r); assumption.
  - intros H i j k l Hi Hj Hk Hl. rewrite !rotate4_fun, !m4_pairs, m2_m2_swap. apply m2_ext. intros p q Hp Hq. apply m2_ext. intros r s Hr Hs. apply (H r s p q); assumption.
  - intros H i j Hi Hj. rewrite !rotate2_fun, m2_swap. apply m2_ext. intros p q Hp Hq. apply H; assumption.
  - assert (A : forall g, e2 (ddot2 (rotate4 C a) (rotate2 g a)) (rotate2 (ddot2 C g) a)).
    { intros g i j _ _. rewrite rotate2_fun, rotate4_fun. unfold ddot2. rewrite rotate2_fun.
      transitivity (m2 (rot2d a) (fun p q => rs 2 (fun k => rs 2 (fun l => m2 (rot2d a) (C p q) k l * m2 (rot2d a) g k l))) i j).
      - rewrite m2_sum. apply rs_ext. intros k _. rewrite m2_sum. apply rs_ext. intros l _. rewrite m2_scale. reflexivity.
      - unfold m2 at 1 4. apply m1_ext. intros p _. apply m1_ext. intros q _. apply orth_inner2. }
    split; [apply A|]. unfold energy2. transitivity (rs 2 (fun i => rs 2 (fun j => m2 (rot2d a) e i j * m2 (rot2d a) (ddot2 C f) i j))).
    + apply rs_ext. intros i Hi. apply rs_ext. intros j Hj. rewrite (A f i j Hi Hj), !rotate2_fun. reflexivity.
    + apply orth_inner2.
Qed.
Print Assumptions C85_rotation.

(** The isotropic plane stiffness is what the three-dimensional isotropic law becomes when the normal stress is zero;
    it does not depend on the axes, nor does an isotropic shear stiffness. *)
Theorem C85_isotropic E nu : 1 + nu <> 0 -> 1 - nu <> 0 -> 1 - 2 * nu <> 0 ->
  minor2 (iso2 E nu) /\ major2 (iso2 E nu) /\
  (forall e, symm e ->
     let e3 := fun i j => if ((i <? 2) && (j <? 2))%nat%bool then e i j else if ((i =? 2) && (j =? 2))%nat%bool then - nu / (1 - nu) * (e 0%nat 0%nat + e 1%nat 1%nat) else 0 in
     ddot (isotropic E nu) e3 2%nat 2%nat = 0 /\ forall i j, (i < 2)%nat -> (j < 2)%nat -> ddot (isotropic E nu) e3 i j = ddot2 (iso2 E nu) e i j) /\
  (forall t, e4 (rotate4 (iso2 E nu) t) (iso2 E nu)) /\
  (forall g t, e2 (rotate2 (fun i j => g * kd i j) t) (fun i j => g * kd i j)).
Proof.
  intros H1 H2 H3.
  assert (N2 : 1 - nu * nu <> 0) by (replace (1 - nu * nu) with ((1 + nu) * (1 - nu)) by ring; apply Rmult_integral_contrapositive_currified; assumption).
  split; [|split; [|split; [|split]]].
  - intros i j k l Hi Hj Hk Hl. unfold iso2, kd. rewrite (Nat.eqb_sym j i), (Nat.eqb_sym l k). split; ring.
  - intros i j k l Hi Hj Hk Hl. unfold iso2, kd. rewrite (Nat.eqb_sym k i), (Nat.eqb_sym l j), (Nat.eqb_sym k j), (Nat.eqb_sym l i). ring.
  - intros e S e3. assert (S1 : e 1%nat 0%nat = e 0%nat 1%nat) by (apply S; lia). split.
    + unfold ddot, isotropic, kd, e3. cbn [rs Nat.eqb Nat.ltb Nat.leb andb]. field. repeat split; assumption.
    + intros i j Hi Hj. unfold ddot, ddot2, isotropic, iso2, kd, e3. ix2 i; ix2 j; cbn [rs Nat.eqb Nat.ltb Nat.leb andb]; rewrite ?S1; field; repeat split; assumption.
  - intros t i j k l Hi Hj Hk Hl. unfold iso2. set (lam := E * nu / (1 - nu * nu)). set (mu := E / (2 * (1 + nu))). clearbody lam mu.
    unfold rotate4, kd. ix2 i; ix2 j; ix2 k; ix2 l; cbn [rs rot2d Nat.eqb]; ring [(sc t)].
  - intros g t i j Hi Hj. unfold rotate2, kd. ix2 i; ix2 j; cbn [rs rot2d Nat.eqb]; ring [(sc t)].
Qed.
Print Assumptions C85_isotropic.

(** The orthotropic plane stiffness inverts the plane-stress engineering relations, on both sides. *)
Definition plane_strain_of (E1 E2 G12 nu12 : R) (s : mat) : mat := fun i j =>
  match i, j with
  | 0%nat, 0%nat => s 0%nat 0%nat / E1 - nu12 / E1 * s 1%nat 1%nat
  | 1%nat, 1%nat => - nu12 / E1 * s 0%nat 0%nat + s 1%nat 1%nat / E2
  | _, _ => s i j / (2 * G12)
  end.
Theorem C85_orthotropic E1 E2 G12 nu12 : E1 <> 0 -> E2 <> 0 -> G12 <> 0 -> E1 - nu12 * nu12 * E2 <> 0 ->
  minor2 (ortho2 E1 E2 G12 nu12) /\ major2 (ortho2 E1 E2 G12 nu12) /\
  (forall s, symm s -> e2 (ddot2 (ortho2 E1 E2 G12 nu12) (plane_strain_of E1 E2 G12 nu12 s)) s) /\
  (forall e, symm e -> e2 (plane_strain_of E1 E2 G12 nu12 (ddot2 (ortho2 E1 E2 G12 nu12) e)) e) /\
  (0 < E1 -> 0 < E2 -> 0 < G12 -> nu12 * nu12 * E2 < E1 -> forall e, symm e -> 0 <= energy2 (ortho2 E1 E2 G12 nu12) e e) /\
  (forall nu, 1 + nu <> 0 -> 1 - nu <> 0 -> e4 (ortho2 E1 E1 (E1 / (2 * (1 + nu))) nu) (iso2 E1 nu)).
Proof.
  intros H1 H2 H3 H4. assert (Dn : 1 - nu12 * (nu12 * E2 / E1) <> 0).
  { intros Z. apply H4. transitivity (E1 * (1 - nu12 * (nu12 * E2 / E1))); [field; exact H1|]. rewrite Z. ring. }
  assert (D2 : E1 - nu12 * (nu12 * E2) <> 0) by (replace (nu12 * (nu12 * E2)) with (nu12 * nu12 * E2) by ring; exact H4).
  split; [|split; [|split; [|split; [|split]]]].
  - intros i j k l Hi Hj Hk Hl. ix2 i; ix2 j; ix2 k; ix2 l; split; reflexivity.
  - intros i j k l Hi Hj Hk Hl. ix2 i; ix2 j; ix2 k; ix2 l; reflexivity.
  - intros s S i j Hi Hj. assert (S1 : s 1%nat 0%nat = s 0%nat 1%nat) by (apply S; lia).
    ix2 i; ix2 j; unfold ddot2, ortho2, plane_strain_of; cbn [rs]; rewrite ?S1; field; repeat split; try assumption.
  - intros e S i j Hi Hj. assert (S1 : e 1%nat 0%nat = e 0%nat 1%nat) by (apply S; lia).
    ix2 i; ix2 j; unfold plane_strain_of, ddot2, ortho2; cbn [rs]; rewrite ?S1; field; repeat split; try assumption.
  - intros P1 P2 P3 P4 e S. assert (S1 : e 1%nat 0%nat = e 0%nat 1%nat) by (apply S; lia).
    assert (En : energy2 (ortho2 E1 E2 G12 nu12) e e = E1 / (E1 - nu12 * nu12 * E2) * (E1 * (e 0%nat 0%nat * e 0%nat 0%nat) + E2 * (e 1%nat 1%nat * e 1%nat 1%nat) + 2 * (nu12 * E2) * (e 0%nat 0%nat * e 1%nat 1%nat)) + 4 * G12 * (e 0%nat 1%nat * e 0%nat 1%nat)).
    { unfold energy2, ddot2, ortho2. cbn [rs]. rewrite S1. field. repeat split; try assumption. }
    rewrite En. set (x := e 0%nat 0%nat). set (y := e 1%nat 1%nat).
    assert (Q : 0 <= E1 * (E1 * (x * x) + E2 * (y * y) + 2 * (nu12 * E2) * (x * y))).
    { replace (E1 * (E1 * (x * x) + E2 * (y * y) + 2 * (nu12 * E2) * (x * y))) with ((E1 * x + nu12 * E2 * y) * (E1 * x + nu12 * E2 * y) + E2 * (E1 - nu12 * nu12 * E2) * (y * y)) by ring.
      apply Rplus_le_le_0_compat; [apply Rle_0_sqr|]. apply Rmult_le_pos; [apply Rmult_le_pos; lra|apply Rle_0_sqr]. }
    apply Rplus_le_le_0_compat; [|apply Rmult_le_pos; [lra|apply Rle_0_sqr]].
    replace (E1 / (E1 - nu12 * nu12 * E2) * (E1 * (x * x) + E2 * (y * y) + 2 * (nu12 * E2) * (x * y))) with (E1 * (E1 * (x * x) + E2 * (y * y) + 2 * (nu12 * E2) * (x * y)) * / (E1 - nu12 * nu12 * E2)) by (field; exact H4).
    apply Rmult_le_pos; [exact Q|]. left. apply Rinv_0_lt_compat. lra.
  - intros nu N1 N2. assert (N3 : 1 - nu * nu <> 0) by (replace (1 - nu * nu) with ((1 + nu) * (1 - nu)) by ring; apply Rmult_integral_contrapositive_currified; assumption).
    assert (N4 : E1 - nu * (nu * E1) <> 0) by (replace (E1 - nu * (nu * E1)) with (E1 * (1 - nu * nu)) by ring; apply Rmult_integral_contrapositive_currified; assumption).
    intros i j k l Hi Hj Hk Hl. unfold iso2, kd. ix2 i; ix2 j; ix2 k; ix2 l; unfold ortho2; cbn [Nat.eqb]; field; repeat split; try assumption.
Qed.
Print Assumptions C85_orthotropic.

(** Expansion from an orientation tensor: along a unit fibre direction it is the fibre value, across it the transverse
    value; it turns with the orientation; an even spread of directions gives the mean. *)
Theorem C85_cte af at_ p t : rs 2 (fun i => p i * p i) = 1 ->
  let a2 := fun i j => p i * p j in let al := cte_orientation a2 af at_ in
  (forall i, (i < 2)%nat -> rs 2 (fun j => al i j * p j) = af * p i) /\
  (forall v i, (i < 2)%nat -> rs 2 (fun j => p j * v j) = 0 -> rs 2 (fun j => al i j * v j) = at_ * v i) /\
  (forall a, e2 (rotate2 (cte_orientation a af at_) t) (cte_orientation (rotate2 a t) af at_)) /\
  e2 (cte_orientation (fun i j => 1 / 2 * kd i j) af at_) (fun i j => (af + at_) / 2 * kd i j).
Proof.
  intros U a2 al. split; [|split; [|split]].
  - intros i Hi. transitivity (at_ * p i + (af - at_) * p i * rs 2 (fun i => p i * p i)); [|rewrite U; ring].
    unfold al, cte_orientation, a2, kd. ix2 i; cbn [rs Nat.eqb]; ring.
  - intros v i Hi O. transitivity (at_ * v i + (af - at_) * p i * rs 2 (fun j => p j * v j)); [|rewrite O; ring].
    unfold al, cte_orientation, a2, kd. ix2 i; cbn [rs Nat.eqb]; ring.
  - intros a i j Hi Hj. unfold cte_orientation, rotate2, kd. ix2 i; ix2 j; cbn [rs rot2d Nat.eqb]; ring [(sc t)].
  - intros i j Hi Hj. unfold cte_orientation. field.
Qed.
Print Assumptions C85_cte.
(** A carbon ply and a unit fibre direction meet the hypotheses. *)
Example C85_example : 140 - 3 / 10 * (3 / 10) * 10 <> 0 /\ rs 2 (fun i => (if Nat.eqb i 0 then 3 / 5 else 4 / 5) * (if Nat.eqb i 0 then 3 / 5 else 4 / 5)) = 1.
Proof. split; [lra|cbn; field]. Qed.
Print Assumptions C85_example.
