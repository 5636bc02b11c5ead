(** Property C83, first part: rotating stiffness and thermal-expansion tensors. *)
From Coq Require Import Reals List Arith Bool Lia Lra FunctionalExtensionality.
From Verif Require Import Tmc_Model Tmc_Props Adaptive_Model Adaptive_Props Copv_Model CopvWinding_Props Layered_Model.
Import ListNotations.
Open Scope R_scope.

(** Orthogonal: rows and columns orthonormal. *)
Definition orthogonal (Q : mat) : Prop :=
  (forall i j, (i < 3)%nat -> (j < 3)%nat -> rs 3 (fun k => Q i k * Q j k) = kd i j) /\
  (forall i j, (i < 3)%nat -> (j < 3)%nat -> rs 3 (fun k => Q k i * Q k j) = kd i j).
Definition mul (A B : mat) : mat := fun i j => rs 3 (fun k => A i k * B k j).
Definition transpose (A : mat) : mat := fun i j => A j i.
Definition eq2 (A B : mat) : Prop := forall i j, (i < 3)%nat -> (j < 3)%nat -> A i j = B i j.
Definition eq4 (C D : ten) : Prop := forall i j k l, (i < 3)%nat -> (j < 3)%nat -> (k < 3)%nat -> (l < 3)%nat -> C i j k l = D i j k l.

(** ** Mode products *)
Definition m1 (A : mat) (f : nat -> R) (i : nat) : R := rs 3 (fun p => A i p * f p).
Definition m2 (A : mat) (f : nat -> nat -> R) (i j : nat) : R := m1 A (fun p => m1 A (f p) j) i.
Definition m3 (A : mat) (f : nat -> nat -> nat -> R) (i j k : nat) : R := m1 A (fun p => m2 A (f p) j k) i.
Definition m4 (A : mat) (f : ten) (i j k l : nat) : R := m1 A (fun p => m3 A (f p) j k l) i.

Lemma m1_lin A B g i j : m1 A (fun q => m1 B (fun p => g p q) i) j = m1 B (fun p => m1 A (g p) j) i.
Proof. unfold m1. cbn [rs]. ring. Qed.
Lemma m1_comp A B f i : m1 A (m1 B f) i = m1 (mul A B) f i.
Proof. unfold m1, mul. cbn [rs]. ring. Qed.
Lemma m1_ext A f g i : (forall p, (p < 3)%nat -> f p = g p) -> m1 A f i = m1 A g i.
Proof. intros H. apply rs_ext. intros p Hp. rewrite (H p Hp). reflexivity. Qed.
Lemma m1_kd A f i : (i < 3)%nat -> (forall p, (p < 3)%nat -> A i p = kd i p) -> m1 A f i = f i.
Proof.
  intros Hi H. unfold m1. rewrite (rs_ext _ _ (fun p => (if Nat.eqb p i then 1 else 0) * f p)); [apply rs_delta, Hi|].
  intros p Hp. rewrite (H p Hp). unfold kd. rewrite Nat.eqb_sym. reflexivity.
Qed.
Lemma m1_matext A B f i : (forall p, (p < 3)%nat -> A i p = B i p) -> m1 A f i = m1 B f i.
Proof. intros H. apply rs_ext. intros p Hp. rewrite (H p Hp). reflexivity. Qed.
Lemma m2_lin A B g i j k : m2 A (fun q r => m1 B (fun p => g p q r) i) j k = m1 B (fun p => m2 A (g p) j k) i.
Proof. unfold m2. rewrite <- (m1_lin A B). apply m1_ext. intros p _. apply m1_lin. Qed.
Lemma m3_lin A B g i j k l : m3 A (fun q r s => m1 B (fun p => g p q r s) i) j k l = m1 B (fun p => m3 A (g p) j k l) i.
Proof. unfold m3. rewrite <- (m1_lin A B). apply m1_ext. intros p _. apply (m2_lin A B (fun p' q r => g p' p q r)). Qed.
Lemma m2_comp A B f i j : m2 A (m2 B f) i j = m2 (mul A B) f i j.
Proof.
  unfold m2. rewrite <- m1_comp. apply m1_ext. intros p _. rewrite (m1_lin A B (fun q r => m1 B (f q) r)). apply m1_ext. intros q _. apply (m1_comp A B (f q) j).
Qed.
Lemma m3_comp A B f i j k : m3 A (m3 B f) i j k = m3 (mul A B) f i j k.
Proof.
  unfold m3. rewrite <- m1_comp. apply m1_ext. intros p _. rewrite (m2_lin A B (fun q r s => m2 B (f q) r s)). apply m1_ext. intros q _. apply m2_comp.
Qed.
Lemma m4_comp A B f i j k l : m4 A (m4 B f) i j k l = m4 (mul A B) f i j k l.
Proof.
  unfold m4. rewrite <- m1_comp. apply m1_ext. intros p _. rewrite (m3_lin A B (fun q r s t => m3 B (f q) r s t)). apply m1_ext. intros q _. apply m3_comp.
Qed.
Lemma m4_kd A f i j k l : (forall a b, (a < 3)%nat -> (b < 3)%nat -> A a b = kd a b) -> (i < 3)%nat -> (j < 3)%nat -> (k < 3)%nat -> (l < 3)%nat ->
  m4 A f i j k l = f i j k l.
Proof. intros H Hi Hj Hk Hl. unfold m4, m3, m2. rewrite !m1_kd by (auto; intros; apply H; auto). reflexivity. Qed.
Lemma m2_kd A f i j : (forall a b, (a < 3)%nat -> (b < 3)%nat -> A a b = kd a b) -> (i < 3)%nat -> (j < 3)%nat -> m2 A f i j = f i j.
Proof. intros H Hi Hj. unfold m2. rewrite !m1_kd by (auto; intros; apply H; auto). reflexivity. Qed.

Lemma rot2_m2 al Q i j : rot2 al Q i j = m2 Q al i j.
Proof. unfold rot2, m2, m1. apply rs_ext. intros p _. rewrite <- rs_scale. apply rs_ext. intros; ring. Qed.
Lemma rot4_m4 C Q i j k l : rot4 C Q i j k l = m4 Q C i j k l.
Proof.
  unfold rot4, m4, m3, m2, m1. apply rs_ext. intros p _. rewrite <- rs_scale. apply rs_ext. intros q _. rewrite <- !rs_scale. apply rs_ext. intros r _.
  rewrite <- !rs_scale. apply rs_ext. intros; ring.
Qed.
Lemma rot2_fun al Q : rot2 al Q = m2 Q al.
Proof. do 2 (apply functional_extensionality; intro). apply rot2_m2. Qed.
Lemma rot4_fun C Q : rot4 C Q = m4 Q C.
Proof. do 4 (apply functional_extensionality; intro). apply rot4_m4. Qed.

(** Rotating twice is rotating once by the product, and rotating by an orthogonal matrix and back is the identity. *)
Theorem C83_compose C al A B : eq4 (rot4 (rot4 C A) B) (rot4 C (mul B A)) /\ eq2 (rot2 (rot2 al A) B) (rot2 al (mul B A)) /\
  (orthogonal A -> eq4 (rot4 (rot4 C A) (transpose A)) C /\ eq2 (rot2 (rot2 al A) (transpose A)) al).
Proof.
  split; [|split].
  - intros i j k l _ _ _ _. rewrite !rot4_fun. apply m4_comp.
  - intros i j _ _. rewrite !rot2_fun. apply m2_comp.
  - intros (Hr & Hc). assert (T : forall a b, (a < 3)%nat -> (b < 3)%nat -> mul (transpose A) A a b = kd a b) by (intros a b Ha Hb; apply (Hc a b Ha Hb)). split.
    + intros i j k l Hi Hj Hk Hl. rewrite !rot4_fun, m4_comp. apply m4_kd; assumption.
    + intros i j Hi Hj. rewrite !rot2_fun, m2_comp. apply m2_kd; assumption.
Qed.
Print Assumptions C83_compose.

Lemma orth_inner Q f g : orthogonal Q -> rs 3 (fun k => m1 Q f k * m1 Q g k) = rs 3 (fun p => f p * g p).
Proof.
  intros (_ & Hc).
  pose proof (Hc 0 0)%nat as H00. pose proof (Hc 0 1)%nat as H01. pose proof (Hc 0 2)%nat as H02.
  pose proof (Hc 1 1)%nat as H11. pose proof (Hc 1 2)%nat as H12. pose proof (Hc 2 2)%nat as H22.
  unfold m1. cbn [rs] in *. unfold kd in *. cbn [Nat.eqb] in *.
  assert (L : (0 < 3 /\ 1 < 3 /\ 2 < 3)%nat) by lia. destruct L as (L0 & L1 & L2).
  specialize (H00 L0 L0). specialize (H01 L0 L1). specialize (H02 L0 L2). specialize (H11 L1 L1). specialize (H12 L1 L2). specialize (H22 L2 L2).
  transitivity (f 0%nat * g 0%nat * (0 + Q 0%nat 0%nat * Q 0%nat 0%nat + Q 1%nat 0%nat * Q 1%nat 0%nat + Q 2%nat 0%nat * Q 2%nat 0%nat)
    + f 1%nat * g 1%nat * (0 + Q 0%nat 1%nat * Q 0%nat 1%nat + Q 1%nat 1%nat * Q 1%nat 1%nat + Q 2%nat 1%nat * Q 2%nat 1%nat)
    + f 2%nat * g 2%nat * (0 + Q 0%nat 2%nat * Q 0%nat 2%nat + Q 1%nat 2%nat * Q 1%nat 2%nat + Q 2%nat 2%nat * Q 2%nat 2%nat)
    + (f 0%nat * g 1%nat + f 1%nat * g 0%nat) * (0 + Q 0%nat 0%nat * Q 0%nat 1%nat + Q 1%nat 0%nat * Q 1%nat 1%nat + Q 2%nat 0%nat * Q 2%nat 1%nat)
    + (f 0%nat * g 2%nat + f 2%nat * g 0%nat) * (0 + Q 0%nat 0%nat * Q 0%nat 2%nat + Q 1%nat 0%nat * Q 1%nat 2%nat + Q 2%nat 0%nat * Q 2%nat 2%nat)
    + (f 1%nat * g 2%nat + f 2%nat * g 1%nat) * (0 + Q 0%nat 1%nat * Q 0%nat 2%nat + Q 1%nat 1%nat * Q 1%nat 2%nat + Q 2%nat 1%nat * Q 2%nat 2%nat)); [ring|].
  rewrite H00, H01, H02, H11, H12, H22. ring.
Qed.
Lemma orth_inner2 Q f g : orthogonal Q -> rs 3 (fun k => rs 3 (fun l => m2 Q f k l * m2 Q g k l)) = rs 3 (fun k => rs 3 (fun l => f k l * g k l)).
Proof.
  intros H. rewrite rs_swap. transitivity (rs 3 (fun l => rs 3 (fun p => m1 Q (f p) l * m1 Q (g p) l))).
  - apply rs_ext. intros l _. apply (orth_inner Q (fun p => m1 Q (f p) l) (fun p => m1 Q (g p) l) H).
  - rewrite rs_swap. apply rs_ext. intros p _. apply orth_inner, H.
Qed.
Lemma m1_sum Q n f i : m1 Q (fun p => rs n (fun k => f p k)) i = rs n (fun k => m1 Q (fun p => f p k) i).
Proof.
  unfold m1. rewrite rs_swap. apply rs_ext. intros p _. rewrite rs_scale. reflexivity.
Qed.
Lemma m2_sum Q n f i j : m2 Q (fun p q => rs n (fun k => f p q k)) i j = rs n (fun k => m2 Q (fun p q => f p q k) i j).
Proof. unfold m2. rewrite <- m1_sum. apply m1_ext. intros p _. apply m1_sum. Qed.
Lemma m2_scale Q c f i j : m2 Q (fun p q => f p q * c) i j = m2 Q f i j * c.
Proof. unfold m2, m1. cbn [rs]. ring. Qed.

(** The rotated law is the law seen from rotated axes: rotated strain in, rotated stress out. The energy product of
    two strains is the same in both frames, the symmetries of the stiffness are kept, and the thermal stress of the
    rotated ply is the rotated thermal stress. *)
Definition energy (C : ten) (e f : mat) : R := rs 3 (fun i => rs 3 (fun j => e i j * ddot C f i j)).
Theorem C83_objective C e f Q : orthogonal Q ->
  eq2 (ddot (rot4 C Q) (rot2 e Q)) (rot2 (ddot C e) Q) /\
  energy (rot4 C Q) (rot2 e Q) (rot2 f Q) = energy C e f.
Proof.
  intros H.
  assert (A : forall g, eq2 (ddot (rot4 C Q) (rot2 g Q)) (rot2 (ddot C g) Q)).
  { intros g i j _ _. rewrite rot2_m2. unfold ddot. transitivity (m2 Q (fun p q => rs 3 (fun k => rs 3 (fun l => m2 Q (C p q) k l * m2 Q g k l))) i j).
    - rewrite m2_sum. apply rs_ext. intros k _. rewrite m2_sum. apply rs_ext. intros l _. rewrite m2_scale, rot4_m4, rot2_m2. reflexivity.
    - unfold m2 at 1 4. apply m1_ext. intros p _. apply m1_ext. intros q _. apply orth_inner2, H. }
  split; [apply A|]. unfold energy. transitivity (rs 3 (fun i => rs 3 (fun j => m2 Q e i j * m2 Q (ddot C f) i j))).
  - apply rs_ext. intros i Hi. apply rs_ext. intros j Hj. rewrite (A f i j Hi Hj), !rot2_m2. reflexivity.
  - apply orth_inner2, H.
Qed.
Print Assumptions C83_objective.

Definition minor_sym (C : ten) : Prop := forall i j k l, (i < 3)%nat -> (j < 3)%nat -> (k < 3)%nat -> (l < 3)%nat -> C i j k l = C j i k l /\ C i j k l = C i j l k.
Definition major_sym (C : ten) : Prop := forall i j k l, (i < 3)%nat -> (j < 3)%nat -> (k < 3)%nat -> (l < 3)%nat -> C i j k l = C k l i j.
Definition sym2 (a : mat) : Prop := forall i j, (i < 3)%nat -> (j < 3)%nat -> a i j = a j i.
Lemma m2_swap Q f i j : m2 Q f i j = m2 Q (fun p q => f q p) j i.
Proof. unfold m2. exact (m1_lin Q Q (fun p q => f q p) j i). Qed.
Lemma m2_ext Q f g i j : (forall p q, (p < 3)%nat -> (q < 3)%nat -> f p q = g p q) -> m2 Q f i j = m2 Q g i j.
Proof. intros H. unfold m2. apply m1_ext. intros p Hp. apply m1_ext. intros q Hq. apply H; assumption. Qed.
Lemma m4_pairs Q C i j k l : m4 Q C i j k l = m2 Q (fun p q => m2 Q (C p q) k l) i j.
Proof. reflexivity. Qed.
Lemma m2_m2_swap Q C i j k l : m2 Q (fun p q => m2 Q (C p q) k l) i j = m2 Q (fun r s => m2 Q (fun p q => C p q r s) i j) k l.
Proof.
  transitivity (m1 Q (fun p => m1 Q (fun q => m2 Q (C p q) k l) j) i); [reflexivity|].
  transitivity (m1 Q (fun p => m2 Q (fun r s => m1 Q (fun q => C p q r s) j) k l) i).
  - apply m1_ext. intros p _. symmetry. apply (m2_lin Q Q (fun q r s => C p q r s) j k l).
  - symmetry. apply (m2_lin Q Q (fun p r s => m1 Q (fun q => C p q r s) j) i k l).
Qed.
Theorem C83_symmetries C al Q : (minor_sym C -> minor_sym (rot4 C Q)) /\ (major_sym C -> major_sym (rot4 C Q)) /\ (sym2 al -> sym2 (rot2 al Q)).
Proof.
  split; [|split].
  - intros H i j k l Hi Hj Hk Hl. rewrite !rot4_m4, !m4_pairs. split.
    + rewrite m2_swap. apply m2_ext. intros p q Hp Hq. apply m2_ext. intros r s Hr Hs. apply (H q p r s); assumption.
    + apply m2_ext. intros p q Hp Hq. rewrite m2_swap. apply m2_ext. intros r s Hr Hs. apply (H p q s r); assumption.
  - intros H i j k l Hi Hj Hk Hl. rewrite !rot4_m4, !m4_pairs, m2_m2_swap. apply m2_ext. intros p q Hp Hq. apply m2_ext. intros r s Hr Hs. apply (H r s p q); assumption.
  - intros H i j Hi Hj. rewrite !rot2_m2, m2_swap. apply m2_ext. intros p q Hp Hq. apply H; assumption.
Qed.
Print Assumptions C83_symmetries.

(** ** The rotation matrix *)
Ltac idx i := destruct i as [|[|[|i]]]; [| | |lia].
Definition nonzero3 (v : nat -> R) : Prop := exists i, (i < 3)%nat /\ v i <> 0.
Lemma norm_pos v : nonzero3 v -> 0 < rs 3 (fun i => v i * v i).
Proof.
  intros (i & Hi & N). assert (0 < v i * v i) by (apply Rsqr_pos_lt; exact N). cbn [rs].
  pose proof (Rle_0_sqr (v 0%nat)) as A0. pose proof (Rle_0_sqr (v 1%nat)) as A1. pose proof (Rle_0_sqr (v 2%nat)) as A2. unfold Rsqr in *. idx i; lra.
Qed.
Lemma unit_axis_norm v : nonzero3 v -> rs 3 (fun i => unit_axis v i * unit_axis v i) = 1.
Proof.
  intros N. pose proof (norm_pos v N) as P. unfold unit_axis. set (n2 := rs 3 (fun j => v j * v j)) in *.
  assert (S : sqrt n2 * sqrt n2 = n2) by (apply sqrt_sqrt; lra). assert (sqrt n2 <> 0) by (intros E; rewrite E in S; lra).
  transitivity ((0 + v 0%nat * v 0%nat + v 1%nat * v 1%nat + v 2%nat * v 2%nat) / (sqrt n2 * sqrt n2)); [cbn [rs]; field; assumption|]. change (0 + v 0%nat * v 0%nat + v 1%nat * v 1%nat + v 2%nat * v 2%nat) with n2. rewrite S. field. lra.
Qed.
Lemma unit_axis_unit v : rs 3 (fun i => v i * v i) = 1 -> forall i, unit_axis v i = v i.
Proof. intros H i. unfold unit_axis. rewrite H, sqrt_1. field. Qed.
Definition cross3 (a v : nat -> R) (i : nat) : R :=
  match i with 0%nat => a 1%nat * v 2%nat - a 2%nat * v 1%nat | 1%nat => a 2%nat * v 0%nat - a 0%nat * v 2%nat | _ => a 0%nat * v 1%nat - a 1%nat * v 0%nat end.
Definition dot3 (a v : nat -> R) : R := rs 3 (fun i => a i * v i).
(** Rodrigues: the matrix turns every vector by the angle about the axis, right-handed. It is a proper rotation, fixes
    the axis, and angles add up. *)
Lemma rotation_act theta axis v i : (i < 3)%nat -> let a := unit_axis axis in dot3 a a = 1 ->
  m1 (rotation theta axis) v i = cos theta * v i + sin theta * cross3 a v i + (1 - cos theta) * dot3 a v * a i.
Proof.
  intros Hi a U. unfold m1, rotation. fold (unit_axis axis). change (fun i0 => axis i0 / sqrt (rs 3 (fun i1 => axis i1 * axis i1))) with (unit_axis axis). fold a.
  unfold dot3 in *. cbn [rs] in U. assert (U' : a 2%nat * a 2%nat = 1 - a 0%nat * a 0%nat - a 1%nat * a 1%nat) by lra.
  idx i; unfold kd, skew, cross3; cbn [rs Nat.eqb]; ring [U'].
Qed.
Theorem C83_rotation theta axis : nonzero3 axis -> let a := unit_axis axis in let Q := rotation theta axis in
  dot3 a a = 1 /\ orthogonal Q /\ det3 Q = 1 /\
  (forall i, (i < 3)%nat -> m1 Q axis i = axis i) /\
  (forall v i, (i < 3)%nat -> m1 Q v i = cos theta * v i + sin theta * cross3 a v i + (1 - cos theta) * dot3 a v * a i) /\
  (forall t', eq2 (mul (rotation t' axis) Q) (rotation (t' + theta) axis)) /\
  eq2 (rotation 0 axis) kd.
Proof.
  intros N a Q. assert (U : dot3 a a = 1) by apply (unit_axis_norm axis N).
  assert (P := norm_pos axis N). set (n := sqrt (rs 3 (fun j => axis j * axis j))).
  assert (Nn : n <> 0). { unfold n. intros E. pose proof (sqrt_sqrt _ (Rlt_le _ _ P)) as S. rewrite E in S. lra. }
  assert (EA : forall i, axis i = n * a i) by (intros i; unfold a, unit_axis; fold n; field; exact Nn).
  assert (U' : a 2%nat * a 2%nat = 1 - a 0%nat * a 0%nat - a 1%nat * a 1%nat) by (unfold dot3 in U; cbn [rs] in U; lra).
  pose proof (sin2_cos2 theta) as SC. unfold Rsqr in SC. assert (SC' : sin theta * sin theta = 1 - cos theta * cos theta) by lra.
  assert (QE : Q = fun i j => kd i j + sin theta * skew a i j + (1 - cos theta) * rs 3 (fun k => skew a i k * skew a k j)) by reflexivity.
  split; [exact U|]. split; [|split; [|split; [|split; [|split]]]].
  - rewrite QE. split; intros i j Hi Hj; idx i; idx j; unfold kd, skew; cbn [rs Nat.eqb]; ring [U' SC'].
  - rewrite QE. unfold det3, kd, skew. cbn [rs Nat.eqb]. ring [U' SC'].
  - intros i Hi. unfold Q. rewrite (rotation_act theta axis axis i Hi U). fold a.
    assert (D : dot3 a axis = n) by (unfold dot3; rewrite (rs_ext _ _ (fun i => n * (a i * a i))) by (intros k _; rewrite EA; ring); rewrite rs_scale; unfold dot3 in U; rewrite U; ring).
    rewrite D. assert (Cr : cross3 a axis i = 0) by (unfold cross3; rewrite !EA; idx i; ring). rewrite Cr, EA. ring.
  - intros v i Hi. apply rotation_act; assumption.
  - intros t' i j Hi Hj. unfold mul. assert (E' : forall t, rotation t axis = fun i j => kd i j + sin t * skew a i j + (1 - cos t) * rs 3 (fun k => skew a i k * skew a k j)) by reflexivity.
    rewrite QE, !E', sin_plus, cos_plus. idx i; idx j; unfold kd, skew; cbn [rs Nat.eqb]; ring [U'].
  - intros i j Hi Hj. unfold rotation. rewrite sin_0, cos_0. ring.
Qed.
Print Assumptions C83_rotation.
(** The default axis: the familiar matrix. *)
Example C83_rotation_z theta : let z := fun i => if Nat.eqb i 2 then 1 else 0 in nonzero3 z /\ let Q := rotation theta z in
  Q 0%nat 0%nat = cos theta /\ Q 0%nat 1%nat = - sin theta /\ Q 1%nat 0%nat = sin theta /\ Q 1%nat 1%nat = cos theta /\ Q 2%nat 2%nat = 1.
Proof.
  intros z. split; [exists 2%nat; split; [lia|unfold z; cbn; lra]|]. intros Q. unfold Q, rotation, kd, skew, z. cbn [rs Nat.eqb].
  replace (0 + 0 * 0 + 0 * 0 + 1 * 1) with 1 by ring. rewrite sqrt_1. repeat split; field.
Qed.
Print Assumptions C83_rotation_z.

(** ** Wound plies *)
Lemma columns_orth Q : (forall i j, (i < 3)%nat -> (j < 3)%nat -> rs 3 (fun k => Q k i * Q k j) = kd i j) -> orthogonal Q.
Proof.
  intros H. split; [|exact H].
  assert (D : det3 Q * det3 Q = 1).
  { transitivity (det3 (fun i j => rs 3 (fun k => Q k i * Q k j))); [unfold det3; cbn [rs]; ring|].
    unfold det3. rewrite !H by lia. unfold kd. cbn [Nat.eqb]. ring. }
  assert (D0 : det3 Q <> 0) by (intros E; rewrite E in D; lra).
  assert (T : forall i k, (i < 3)%nat -> (k < 3)%nat -> Q k i = inv3 Q i k).
  { intros i k Hi Hk. transitivity (rs 3 (fun j => Q j i * rs 3 (fun l => Q j l * inv3 Q l k))).
    - rewrite (rs_ext _ _ (fun j => (if Nat.eqb j k then 1 else 0) * Q j i)); [symmetry; apply (rs_delta 3 k (fun j => Q j i) Hk)|].
      intros j Hj. rewrite inv3_right by assumption. ring.
    - transitivity (rs 3 (fun l => rs 3 (fun j => Q j i * Q j l) * inv3 Q l k)); [cbn [rs]; ring|].
      rewrite (rs_ext _ _ (fun l => (if Nat.eqb l i then 1 else 0) * inv3 Q l k)); [apply (rs_delta 3 i (fun l => inv3 Q l k) Hi)|].
      intros l Hl. rewrite H by assumption. unfold kd. rewrite Nat.eqb_sym. reflexivity. }
  intros i j Hi Hj. rewrite (rs_ext _ _ (fun k => Q i k * inv3 Q k j)); [apply inv3_right; assumption|]. intros k Hk. rewrite (T k j Hk Hj). reflexivity.
Qed.
Lemma frame_orth f1 f2 n : frame f1 f2 n -> orthogonal (frame_matrix (f1, f2, n)).
Proof.
  intros (H1 & H2 & H3 & H4 & H5 & H6 & H7). apply columns_orth.
  destruct f1 as [[x1 y1] z1], f2 as [[x2 y2] z2], n as [[x3 y3] z3]. unfold vdot, vx, vy, vz in *. cbn [fst snd] in *.
  intros i j Hi Hj. idx i; idx j; unfold kd, frame_matrix, vcomp, vx, vy, vz; cbn [fst snd rs Nat.eqb]; lra.
Qed.
(** What a wound cell gets. In a shell cell every ply's tensors, read in the axes (fibre, transverse, wall normal) of
    that ply, are the given ply tensors; stiffness and expansion use the same axes. Fill cells get the fill tensors. *)
Definition components4 (C : ten) (F : mat) : ten := fun a b c d =>
  rs 3 (fun i => rs 3 (fun j => rs 3 (fun k => rs 3 (fun l => F i a * F j b * F k c * F l d * C i j k l)))).
Definition components2 (A : mat) (F : mat) : mat := fun a b => rs 3 (fun i => rs 3 (fun j => F i a * F j b * A i j)).
Theorem C83_winding nodes dome axis r_p layup drop z ply_C ply_a fill_C fill_a :
  let '(t_m, t_h, e3, r) := cell_triad nodes axis in frame t_m t_h e3 ->
  let Cs := winding_stiffness nodes dome axis r_p layup drop z ply_C fill_C in
  let As := winding_cte nodes dome axis r_p layup drop z ply_a fill_a in
  length Cs = length layup /\ length As = length layup /\
  forall k (d4 : ten) (d2 : mat), (k < length layup)%nat ->
    let F := frame_matrix (nth k (ply_frames nodes dome axis r_p layup drop) (v0, v0, v0)) in
    orthogonal F /\
    match z, fill_C with Fill, Some C => nth k Cs d4 = C | _, _ => eq4 (components4 (nth k Cs d4) F) ply_C end /\
    match z, fill_a with Fill, Some a => nth k As d2 = a | _, _ => eq2 (components2 (nth k As d2) F) ply_a end.
Proof.
  pose proof (C82_frames nodes axis dome r_p layup drop) as Fr. destruct (cell_triad nodes axis) as [[[t_m t_h] e3] r].
  intros Hf. specialize (Fr Hf). cbv zeta in *. destruct Fr as (L & Fr).
  set (fr := ply_frames nodes dome axis r_p layup drop) in *.
  assert (E4 : forall k d4, (k < length layup)%nat -> let F := frame_matrix (nth k fr (v0, v0, v0)) in
    eq4 (components4 (nth k (map (fun f => rot4 ply_C (frame_matrix f)) fr) d4) F) ply_C).
  { intros k d4 Hk F. rewrite (nth_indep _ d4 (rot4 ply_C (frame_matrix (v0, v0, v0)))) by (rewrite map_length; lia).
    rewrite (map_nth (fun f => rot4 ply_C (frame_matrix f))). fold F.
    assert (O : orthogonal F). { specialize (Fr k Hk). unfold F. destruct (nth k fr (v0, v0, v0)) as [[f1 f2] n]. apply frame_orth, Fr. }
    destruct (C83_compose ply_C ply_a F F) as (_ & _ & X). destruct (X O) as (X4 & _). exact X4. }
  assert (E2 : forall k d2, (k < length layup)%nat -> let F := frame_matrix (nth k fr (v0, v0, v0)) in
    eq2 (components2 (nth k (map (fun f => rot2 ply_a (frame_matrix f)) fr) d2) F) ply_a).
  { intros k d2 Hk F. rewrite (nth_indep _ d2 (rot2 ply_a (frame_matrix (v0, v0, v0)))) by (rewrite map_length; lia).
    rewrite (map_nth (fun f => rot2 ply_a (frame_matrix f))). fold F.
    assert (O : orthogonal F). { specialize (Fr k Hk). unfold F. destruct (nth k fr (v0, v0, v0)) as [[f1 f2] n]. apply frame_orth, Fr. }
    destruct (C83_compose ply_C ply_a F F) as (_ & _ & X). destruct (X O) as (_ & X2). exact X2. }
  assert (RP : forall A (x d : A) n k, (k < n)%nat -> nth k (repeat x n) d = x).
  { intros A x d n k Hk. apply (repeat_spec n). apply nth_In. rewrite repeat_length. exact Hk. }
  unfold winding_stiffness, winding_cte. fold fr.
  split; [destruct fill_C, z; try (rewrite repeat_length; reflexivity); rewrite map_length; exact L|].
  split; [destruct fill_a, z; try (rewrite repeat_length; reflexivity); rewrite map_length; exact L|].
  intros k d4 d2 Hk. split; [specialize (Fr k Hk); destruct (nth k fr (v0, v0, v0)) as [[f1 f2] n]; apply frame_orth, Fr|].
  split; [destruct fill_C, z|destruct fill_a, z]; try (apply E4; exact Hk); try (apply E2; exact Hk); apply RP, Hk.
Qed.
Print Assumptions C83_winding.
