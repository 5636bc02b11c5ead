(** Property C83, second part: the stiffness builders. *)
From Coq Require Import Reals List Arith Bool Lia Lra.
From Verif Require Import Tmc_Model Tmc_Props Adaptive_Model Adaptive_Props Layered_Model LayeredRot_Props.
Import ListNotations.
Open Scope R_scope.

(** Engineering strain vector of a strain tensor, in the order 11, 22, 33, 23, 13, 12 with doubled shears. *)
Definition engineering (e : mat) (a : nat) : R :=
  match a with 0%nat => e 0%nat 0%nat | 1%nat => e 1%nat 1%nat | 2%nat => e 2%nat 2%nat
  | 3%nat => 2 * e 1%nat 2%nat | 4%nat => 2 * e 0%nat 2%nat | _ => 2 * e 0%nat 1%nat end.
Definition stress_vector (s : mat) (a : nat) : R :=
  match a with 0%nat => s 0%nat 0%nat | 1%nat => s 1%nat 1%nat | 2%nat => s 2%nat 2%nat
  | 3%nat => s 1%nat 2%nat | 4%nat => s 0%nat 2%nat | _ => s 0%nat 1%nat end.
Ltac idx6 i := destruct i as [|[|[|[|[|[|i]]]]]]; [| | | | | |lia].

(** The two Voigt conversions are inverse to each other, and a 6x6 matrix acts on engineering strains as its tensor acts
    on strain tensors. *)
Theorem C83_voigt :
  (forall C6, minor_sym (voigt_to_tensor C6) /\
    (forall a b, (a < 6)%nat -> (b < 6)%nat -> tensor_to_voigt (voigt_to_tensor C6) a b = C6 a b) /\
    (forall e a, sym2 e -> (a < 6)%nat -> stress_vector (ddot (voigt_to_tensor C6) e) a = rs 6 (fun b => C6 a b * engineering e b)) /\
    ((forall a b, (a < 6)%nat -> (b < 6)%nat -> C6 a b = C6 b a) -> major_sym (voigt_to_tensor C6))) /\
  (forall C, minor_sym C -> eq4 (voigt_to_tensor (tensor_to_voigt C)) C).
Proof.
  split.
  - intros C6. split; [|split; [|split]].
    + intros i j k l Hi Hj Hk Hl. unfold voigt_to_tensor. split; [idx i; idx j; reflexivity|idx k; idx l; reflexivity].
    + intros a b Ha Hb. idx6 a; idx6 b; reflexivity.
    + intros e a S Ha.
      assert (S1 : e 1%nat 0%nat = e 0%nat 1%nat) by (apply S; lia). assert (S2 : e 2%nat 0%nat = e 0%nat 2%nat) by (apply S; lia). assert (S3 : e 2%nat 1%nat = e 1%nat 2%nat) by (apply S; lia).
      idx6 a; unfold stress_vector, ddot, voigt_to_tensor, voigt, voigt_tab, engineering; cbn [rs nth]; rewrite S1, S2, S3; ring.
    + intros H i j k l Hi Hj Hk Hl. unfold voigt_to_tensor. apply H; [idx i; idx j|idx k; idx l]; cbn; lia.
  - intros C H i j k l Hi Hj Hk Hl. unfold voigt_to_tensor, tensor_to_voigt.
    assert (P : exists i' j', vpair (voigt i j) = (i', j') /\ ((i' = i /\ j' = j) \/ (i' = j /\ j' = i))) by (idx i; idx j; cbn; do 2 eexists; (split; [reflexivity|]); tauto).
    assert (P' : exists k' l', vpair (voigt k l) = (k', l') /\ ((k' = k /\ l' = l) \/ (k' = l /\ l' = k))) by (idx k; idx l; cbn; do 2 eexists; (split; [reflexivity|]); tauto).
    destruct P as (i' & j' & -> & P). destruct P' as (k' & l' & -> & P').
    destruct P as [(-> & ->)|(-> & ->)], P' as [(-> & ->)|(-> & ->)]; [reflexivity| | |].
    + symmetry. apply H; assumption.
    + apply H; assumption.
    + rewrite (proj1 (H j i l k Hj Hi Hl Hk)). symmetry. apply H; assumption.
Qed.
Print Assumptions C83_voigt.

(** ** Isotropic *)
Definition tr3 (e : mat) : R := rs 3 (fun i => e i i).
Theorem C83_isotropic E nu : 1 + nu <> 0 -> 1 - 2 * nu <> 0 ->
  let lam := E * nu / ((1 + nu) * (1 - 2 * nu)) in let mu := E / (2 * (1 + nu)) in
  minor_sym (isotropic E nu) /\ major_sym (isotropic E nu) /\
  (forall e i j, sym2 e -> (i < 3)%nat -> (j < 3)%nat -> ddot (isotropic E nu) e i j = lam * tr3 e * kd i j + 2 * mu * e i j) /\
  (forall s i j, sym2 s -> E <> 0 -> (i < 3)%nat -> (j < 3)%nat ->
     ddot (isotropic E nu) (fun k l => ((1 + nu) * s k l - nu * tr3 s * kd k l) / E) i j = s i j) /\
  (forall Q, orthogonal Q -> eq4 (rot4 (isotropic E nu) Q) (isotropic E nu)) /\
  (forall e, sym2 e -> 0 < E -> -1 < nu < 1 / 2 -> (exists i j, (i < 3)%nat /\ (j < 3)%nat /\ e i j <> 0) -> 0 < energy (isotropic E nu) e e).
Proof.
  intros H1 H2 lam mu.
  assert (Law : forall e i j, sym2 e -> (i < 3)%nat -> (j < 3)%nat -> ddot (isotropic E nu) e i j = lam * tr3 e * kd i j + 2 * mu * e i j).
  { intros e i j S Hi Hj. unfold isotropic. fold lam mu. clearbody lam mu. unfold ddot, tr3, kd.
    assert (S1 : e 1%nat 0%nat = e 0%nat 1%nat) by (apply S; lia). assert (S2 : e 2%nat 0%nat = e 0%nat 2%nat) by (apply S; lia). assert (S3 : e 2%nat 1%nat = e 1%nat 2%nat) by (apply S; lia).
    idx i; idx j; cbn [rs Nat.eqb]; rewrite ?S1, ?S2, ?S3; ring. }
  split; [|split; [|split; [exact Law|split; [|split]]]].
  - intros i j k l Hi Hj Hk Hl. unfold isotropic, kd. fold lam mu. clearbody lam mu.
    rewrite (Nat.eqb_sym j i), (Nat.eqb_sym l k). split; ring.
  - intros i j k l Hi Hj Hk Hl. unfold isotropic, kd. fold lam mu. clearbody lam mu.
    rewrite (Nat.eqb_sym k i), (Nat.eqb_sym l j), (Nat.eqb_sym k j), (Nat.eqb_sym l i). ring.
  - intros s i j S HE Hi Hj. rewrite Law; [|intros a b Ha Hb; rewrite (S a b Ha Hb); unfold kd; rewrite (Nat.eqb_sym b a); reflexivity|exact Hi|exact Hj].
    assert (T : tr3 (fun k l => ((1 + nu) * s k l - nu * tr3 s * kd k l) / E) = (1 - 2 * nu) * tr3 s / E) by (unfold tr3, kd; cbn [rs Nat.eqb]; field; exact HE).
    rewrite T. unfold lam, mu. field. repeat split; assumption.
  - intros Q (Hr & _) i j k l Hi Hj Hk Hl. unfold isotropic at 2. fold lam mu. rewrite <- !Hr by assumption.
    unfold rot4, isotropic. fold lam mu. clearbody lam mu. unfold kd. cbn [rs Nat.eqb]. ring.
  - intros e S HE Hnu Ex. unfold energy.
    assert (Mu : 0 < mu) by (unfold mu; apply Rdiv_lt_0_compat; lra).
    assert (Kp : 0 < 3 * lam + 2 * mu).
    { replace (3 * lam + 2 * mu) with (E / (1 - 2 * nu)) by (unfold lam, mu; field; split; assumption). apply Rdiv_lt_0_compat; lra. }
    assert (Nn : 0 < rs 3 (fun i => rs 3 (fun j => e i j * e i j))).
    { destruct Ex as (i & j & Hi & Hj & N). assert (P : 0 < e i j * e i j) by (apply Rsqr_pos_lt; exact N).
      assert (Sq : forall a b, 0 <= e a b * e a b) by (intros a b; apply Rle_0_sqr). cbn [rs].
      pose proof (Sq 0 0)%nat. pose proof (Sq 0 1)%nat. pose proof (Sq 0 2)%nat. pose proof (Sq 1 0)%nat. pose proof (Sq 1 1)%nat. pose proof (Sq 1 2)%nat.
      pose proof (Sq 2 0)%nat. pose proof (Sq 2 1)%nat. pose proof (Sq 2 2)%nat. idx i; idx j; lra. }
    rewrite (rs_ext _ _ (fun i => rs 3 (fun j => lam * tr3 e * (kd i j * e i j) + 2 * mu * (e i j * e i j)))).
    2:{ intros i Hi. apply rs_ext. intros j Hj. rewrite Law by assumption. ring. }
    assert (X : rs 3 (fun i => rs 3 (fun j => lam * tr3 e * (kd i j * e i j) + 2 * mu * (e i j * e i j))) = lam * (tr3 e * tr3 e) + 2 * mu * rs 3 (fun i => rs 3 (fun j => e i j * e i j)))
      by (unfold tr3, kd; cbn [rs Nat.eqb]; ring). rewrite X.
    assert (Cs : tr3 e * tr3 e <= 3 * rs 3 (fun i => rs 3 (fun j => e i j * e i j))).
    { pose proof (cauchy 3 (fun i => e i i)) as C. unfold tr3. replace (INR 3) with 3 in C by (cbn; ring).
      eapply Rle_trans; [exact C|]. cbn [rs].
      assert (Sq : forall a b, 0 <= e a b * e a b) by (intros a b; apply Rle_0_sqr).
      pose proof (Sq 0 1)%nat. pose proof (Sq 0 2)%nat. pose proof (Sq 1 0)%nat. pose proof (Sq 1 2)%nat. pose proof (Sq 2 0)%nat. pose proof (Sq 2 1)%nat. lra. }
    set (N2 := rs 3 (fun i => rs 3 (fun j => e i j * e i j))) in *. set (t := tr3 e * tr3 e) in *.
    assert (T0 : 0 <= t) by apply Rle_0_sqr.
    destruct (Rle_lt_dec 0 lam) as [L|L].
    + assert (0 <= lam * t) by (apply Rmult_le_pos; assumption). assert (0 < mu * N2) by (apply Rmult_lt_0_compat; assumption). lra.
    + assert (lam * (3 * N2) <= lam * t) by (apply Rmult_le_compat_neg_l; lra). assert (0 < (3 * lam + 2 * mu) * N2) by (apply Rmult_lt_0_compat; assumption). lra.
Qed.
Print Assumptions C83_isotropic.

(** ** Orthotropic *)
(** The engineering relations: strain caused by a stress, from the moduli and Poisson ratios. *)
Definition engineering_strain (E1 E2 E3 G12 G13 G23 nu12 nu13 nu23 : R) (s : mat) : mat := fun i j =>
  match i, j with
  | 0%nat, 0%nat => s 0%nat 0%nat / E1 - nu12 / E1 * s 1%nat 1%nat - nu13 / E1 * s 2%nat 2%nat
  | 1%nat, 1%nat => - nu12 / E1 * s 0%nat 0%nat + s 1%nat 1%nat / E2 - nu23 / E2 * s 2%nat 2%nat
  | 2%nat, 2%nat => - nu13 / E1 * s 0%nat 0%nat - nu23 / E2 * s 1%nat 1%nat + s 2%nat 2%nat / E3
  | 1%nat, 2%nat | 2%nat, 1%nat => s i j / (2 * G23)
  | 0%nat, 2%nat | 2%nat, 0%nat => s i j / (2 * G13)
  | _, _ => s i j / (2 * G12)
  end.
Section Ortho.
Variable E1 E2 E3 G12 G13 G23 nu12 nu13 nu23 : R.
Notation S6 := (compliance E1 E2 E3 G12 G13 G23 nu12 nu13 nu23).
Notation C4 := (orthotropic E1 E2 E3 G12 G13 G23 nu12 nu13 nu23).
Notation strain_of := (engineering_strain E1 E2 E3 G12 G13 G23 nu12 nu13 nu23).
(** The determinant of the normal block: zero exactly for the moduli that [linalg.inv] cannot invert. *)
Definition normal_det : R := det3 S6.
Lemma inv3_symm i j : (i < 3)%nat -> (j < 3)%nat -> inv3 S6 i j = inv3 S6 j i.
Proof using Type. intros Hi Hj. idx i; idx j; unfold inv3; cbn; unfold Rdiv; ring. Qed.
Lemma ortho_law s i j : E1 <> 0 -> E2 <> 0 -> E3 <> 0 -> G12 <> 0 -> G13 <> 0 -> G23 <> 0 -> normal_det <> 0 -> sym2 s ->
  (i < 3)%nat -> (j < 3)%nat -> ddot C4 (strain_of s) i j = s i j.
Proof using Type.
  intros HE1 HE2 HE3 HG12 HG13 HG23 HD S Hi Hj.
  assert (S1 : s 1%nat 0%nat = s 0%nat 1%nat) by (apply S; lia). assert (S2 : s 2%nat 0%nat = s 0%nat 2%nat) by (apply S; lia). assert (S3 : s 2%nat 1%nat = s 1%nat 2%nat) by (apply S; lia).
  assert (N : forall a, (a < 3)%nat -> inv3 S6 a 0%nat * strain_of s 0%nat 0%nat + inv3 S6 a 1%nat * strain_of s 1%nat 1%nat + inv3 S6 a 2%nat * strain_of s 2%nat 2%nat = s a a).
  { intros a Ha. pose proof (inv3_left S6 a 0%nat HD Ha ltac:(lia)) as A0. pose proof (inv3_left S6 a 1%nat HD Ha ltac:(lia)) as A1. pose proof (inv3_left S6 a 2%nat HD Ha ltac:(lia)) as A2.
    cbn [rs] in A0, A1, A2. transitivity ((0 + inv3 S6 a 0%nat * S6 0%nat 0%nat + inv3 S6 a 1%nat * S6 1%nat 0%nat + inv3 S6 a 2%nat * S6 2%nat 0%nat) * s 0%nat 0%nat
      + (0 + inv3 S6 a 0%nat * S6 0%nat 1%nat + inv3 S6 a 1%nat * S6 1%nat 1%nat + inv3 S6 a 2%nat * S6 2%nat 1%nat) * s 1%nat 1%nat
      + (0 + inv3 S6 a 0%nat * S6 0%nat 2%nat + inv3 S6 a 1%nat * S6 1%nat 2%nat + inv3 S6 a 2%nat * S6 2%nat 2%nat) * s 2%nat 2%nat).
    - generalize (inv3 S6 a 0%nat) (inv3 S6 a 1%nat) (inv3 S6 a 2%nat). intros x y z. cbn. field. repeat split; assumption.
    - rewrite A0, A1, A2. idx a; cbn [Nat.eqb]; ring. }
  unfold ddot, orthotropic, voigt_to_tensor.
  idx i; idx j; unfold voigt, voigt_tab; cbn [rs nth]; unfold inv6; cbn [Nat.ltb Nat.leb Nat.eqb andb].
  - rewrite <- (N 0%nat) at 1 by lia. ring.
  - cbn. rewrite S1. field. split; [assumption|]. lra.
  - cbn. rewrite S2. field. split; [assumption|]. lra.
  - cbn. rewrite S1. field. split; [assumption|]. lra.
  - rewrite <- (N 1%nat) at 1 by lia. ring.
  - cbn. rewrite S3. field. split; [assumption|]. lra.
  - cbn. rewrite S2. field. split; [assumption|]. lra.
  - cbn. rewrite S3. field. split; [assumption|]. lra.
  - rewrite <- (N 2%nat) at 1 by lia. ring.
Qed.
Lemma ortho_sym6 a b : (a < 6)%nat -> (b < 6)%nat -> inv6 S6 a b = inv6 S6 b a.
Proof using Type.
  intros Ha Hb. unfold inv6. destruct (Nat.ltb_spec a 3); destruct (Nat.ltb_spec b 3); cbn [andb]; [apply inv3_symm; assumption| | |].
  all: destruct (Nat.eqb_spec a b) as [->|N]; [rewrite ?Nat.eqb_refl; reflexivity|]; destruct (Nat.eqb_spec b a); [congruence|reflexivity].
Qed.
End Ortho.
(** The stiffness returns the stress that, by the engineering constants, causes a given strain: it is the inverse of the
    compliance, on both sides, with the full symmetries. *)
Theorem C83_orthotropic E1 E2 E3 G12 G13 G23 nu12 nu13 nu23 :
  let C := orthotropic E1 E2 E3 G12 G13 G23 nu12 nu13 nu23 in let S := engineering_strain E1 E2 E3 G12 G13 G23 nu12 nu13 nu23 in
  minor_sym C /\ major_sym C /\
  (E1 <> 0 -> E2 <> 0 -> E3 <> 0 -> G12 <> 0 -> G13 <> 0 -> G23 <> 0 -> normal_det E1 E2 E3 G12 G13 G23 nu12 nu13 nu23 <> 0 ->
   (forall s, sym2 s -> eq2 (ddot C (S s)) s) /\ (forall e, sym2 e -> eq2 (S (ddot C e)) e)).
Proof.
  intros C S. destruct C83_voigt as (V & _). destruct (V (inv6 (compliance E1 E2 E3 G12 G13 G23 nu12 nu13 nu23))) as (V1 & _ & _ & V4).
  split; [exact V1|]. split; [apply V4; apply ortho_sym6|]. intros HE1 HE2 HE3 HG12 HG13 HG23 HD. split.
  - intros s Hs i j Hi Hj. apply ortho_law; assumption.
  - intros e He i j Hi Hj.
    assert (S1 : e 1%nat 0%nat = e 0%nat 1%nat) by (apply He; lia). assert (S2 : e 2%nat 0%nat = e 0%nat 2%nat) by (apply He; lia). assert (S3 : e 2%nat 1%nat = e 1%nat 2%nat) by (apply He; lia).
    set (S6 := compliance E1 E2 E3 G12 G13 G23 nu12 nu13 nu23).
    assert (Nm : forall a, (a < 3)%nat -> ddot C e a a = inv3 S6 a 0%nat * e 0%nat 0%nat + inv3 S6 a 1%nat * e 1%nat 1%nat + inv3 S6 a 2%nat * e 2%nat 2%nat).
    { intros a Ha. unfold C, orthotropic, ddot, voigt_to_tensor. fold S6. idx a; unfold voigt, voigt_tab; cbn [rs nth]; unfold inv6; cbn [Nat.ltb Nat.leb Nat.eqb andb]; ring. }
    assert (N : forall a, (a < 3)%nat -> S6 a 0%nat * ddot C e 0%nat 0%nat + S6 a 1%nat * ddot C e 1%nat 1%nat + S6 a 2%nat * ddot C e 2%nat 2%nat = e a a).
    { intros a Ha. rewrite !Nm by lia.
      pose proof (inv3_right S6 a 0%nat HD Ha ltac:(lia)) as A0. pose proof (inv3_right S6 a 1%nat HD Ha ltac:(lia)) as A1. pose proof (inv3_right S6 a 2%nat HD Ha ltac:(lia)) as A2.
      cbn [rs] in A0, A1, A2. transitivity ((0 + S6 a 0%nat * inv3 S6 0%nat 0%nat + S6 a 1%nat * inv3 S6 1%nat 0%nat + S6 a 2%nat * inv3 S6 2%nat 0%nat) * e 0%nat 0%nat
        + (0 + S6 a 0%nat * inv3 S6 0%nat 1%nat + S6 a 1%nat * inv3 S6 1%nat 1%nat + S6 a 2%nat * inv3 S6 2%nat 1%nat) * e 1%nat 1%nat
        + (0 + S6 a 0%nat * inv3 S6 0%nat 2%nat + S6 a 1%nat * inv3 S6 1%nat 2%nat + S6 a 2%nat * inv3 S6 2%nat 2%nat) * e 2%nat 2%nat); [ring|].
      rewrite A0, A1, A2. idx a; cbn [Nat.eqb]; ring. }
    assert (Sh : forall p q, (p < 3)%nat -> (q < 3)%nat -> p <> q -> ddot C e p q = inv6 S6 (voigt p q) (voigt p q) * (2 * e p q)).
    { intros p q Hp Hq Npq. unfold C, orthotropic, ddot, voigt_to_tensor. fold S6.
      idx p; idx q; try congruence; unfold voigt, voigt_tab; cbn [rs nth]; unfold inv6; cbn [Nat.ltb Nat.leb Nat.eqb andb]; rewrite ?S1, ?S2, ?S3; ring. }
    unfold S. idx i; idx j; unfold engineering_strain; try (rewrite Sh by lia; unfold voigt, voigt_tab, inv6; cbn; field; repeat split; assumption).
    + rewrite <- (N 0%nat) by lia. unfold S6, compliance. field. repeat split; assumption.
    + rewrite <- (N 1%nat) by lia. unfold S6, compliance. field. repeat split; assumption.
    + rewrite <- (N 2%nat) by lia. unfold S6, compliance. field. repeat split; assumption.
Qed.
Print Assumptions C83_orthotropic.

(** Stable moduli: the compliance of the normal block is positive definite. *)
Lemma quad3_pos a b c p q r x y z : 0 < a -> 0 < a * b - p * p -> 0 < a * (b * c - r * r) - p * (p * c - r * q) + q * (p * r - b * q) ->
  (x <> 0 \/ y <> 0 \/ z <> 0) -> 0 < a * x * x + b * y * y + c * z * z + 2 * p * x * y + 2 * q * x * z + 2 * r * y * z.
Proof.
  intros Ha Hm Hd Nz. set (m := a * b - p * p) in *. set (D := a * (b * c - r * r) - p * (p * c - r * q) + q * (p * r - b * q)) in *.
  assert (E : a * m * (a * x * x + b * y * y + c * z * z + 2 * p * x * y + 2 * q * x * z + 2 * r * y * z)
    = m * ((a * x + p * y + q * z) * (a * x + p * y + q * z)) + (m * y + (a * r - p * q) * z) * (m * y + (a * r - p * q) * z) + a * D * (z * z)).
  { unfold m, D. ring. }
  assert (Am : 0 < a * m) by (apply Rmult_lt_0_compat; assumption).
  assert (AD : 0 < a * D) by (apply Rmult_lt_0_compat; assumption).
  apply (Rmult_lt_reg_l (a * m)); [exact Am|]. rewrite Rmult_0_r, E.
  pose proof (Rle_0_sqr (a * x + p * y + q * z)) as P1. pose proof (Rle_0_sqr (m * y + (a * r - p * q) * z)) as P2. pose proof (Rle_0_sqr z) as P3. unfold Rsqr in *.
  assert (0 <= m * ((a * x + p * y + q * z) * (a * x + p * y + q * z))) by (apply Rmult_le_pos; lra).
  assert (0 <= a * D * (z * z)) by (apply Rmult_le_pos; lra).
  destruct (Req_dec z 0) as [Z|Z].
  - subst z. destruct (Req_dec y 0) as [Y|Y].
    + subst y. destruct Nz as [X|[X|X]]; try congruence. assert (0 < m * ((a * x + p * 0 + q * 0) * (a * x + p * 0 + q * 0))).
      { apply Rmult_lt_0_compat; [exact Hm|]. apply Rsqr_pos_lt. replace (a * x + p * 0 + q * 0) with (a * x) by ring. apply Rmult_integral_contrapositive_currified; lra. }
      lra.
    + assert (0 < (m * y + (a * r - p * q) * 0) * (m * y + (a * r - p * q) * 0)).
      { apply Rsqr_pos_lt. replace (m * y + (a * r - p * q) * 0) with (m * y) by ring. apply Rmult_integral_contrapositive_currified; lra. }
      lra.
  - assert (0 < a * D * (z * z)) by (apply Rmult_lt_0_compat; [exact AD|]; apply Rsqr_pos_lt; exact Z). lra.
Qed.
(** For admissible engineering constants the strain energy of every non-zero strain is positive. *)
Theorem C83_stable E1 E2 E3 G12 G13 G23 nu12 nu13 nu23 e :
  0 < E1 -> 0 < E2 -> 0 < E3 -> 0 < G12 -> 0 < G13 -> 0 < G23 -> nu12 * nu12 * E2 < E1 ->
  0 < normal_det E1 E2 E3 G12 G13 G23 nu12 nu13 nu23 ->
  sym2 e -> (exists i j, (i < 3)%nat /\ (j < 3)%nat /\ e i j <> 0) ->
  0 < energy (orthotropic E1 E2 E3 G12 G13 G23 nu12 nu13 nu23) e e.
Proof.
  intros H1 H2 H3 H4 H5 H6 Hn HD He Ex.
  destruct (C83_orthotropic E1 E2 E3 G12 G13 G23 nu12 nu13 nu23) as (Mi & _ & Inv).
  destruct Inv as (_ & Inv); try lra. specialize (Inv e He). set (C := orthotropic E1 E2 E3 G12 G13 G23 nu12 nu13 nu23) in *.
  set (s := ddot C e) in *.
  assert (Ss : sym2 s).
  { intros i j Hi Hj. unfold s, ddot. apply rs_ext. intros k Hk. apply rs_ext. intros l Hl. rewrite (proj1 (Mi i j k l Hi Hj Hk Hl)). reflexivity. }
  assert (En : energy C e e = energy C e e) by reflexivity.
  assert (F : energy C e e = (1 / E1) * s 0%nat 0%nat * s 0%nat 0%nat + (1 / E2) * s 1%nat 1%nat * s 1%nat 1%nat + (1 / E3) * s 2%nat 2%nat * s 2%nat 2%nat
    + 2 * (- nu12 / E1) * s 0%nat 0%nat * s 1%nat 1%nat + 2 * (- nu13 / E1) * s 0%nat 0%nat * s 2%nat 2%nat + 2 * (- nu23 / E2) * s 1%nat 1%nat * s 2%nat 2%nat
    + (s 1%nat 2%nat * s 1%nat 2%nat / G23 + s 0%nat 2%nat * s 0%nat 2%nat / G13 + s 0%nat 1%nat * s 0%nat 1%nat / G12)).
  { unfold energy. fold s. rewrite (rs_ext _ _ (fun i => rs 3 (fun j => engineering_strain E1 E2 E3 G12 G13 G23 nu12 nu13 nu23 s i j * s i j))).
    - assert (S1 : s 1%nat 0%nat = s 0%nat 1%nat) by (apply Ss; lia). assert (S2 : s 2%nat 0%nat = s 0%nat 2%nat) by (apply Ss; lia). assert (S3 : s 2%nat 1%nat = s 1%nat 2%nat) by (apply Ss; lia).
      cbn [rs]. unfold engineering_strain. rewrite S1, S2, S3. field. repeat split; lra.
    - intros i Hi. apply rs_ext. intros j Hj. rewrite (Inv i j Hi Hj). reflexivity. }
  rewrite F.
  assert (Pos : forall x g, 0 < g -> 0 <= x * x / g) by (intros x g Hg; apply Rmult_le_pos; [apply Rle_0_sqr|left; apply Rinv_0_lt_compat; exact Hg]).
  assert (PosS : forall x g, 0 < g -> x <> 0 -> 0 < x * x / g) by (intros x g Hg Hx; apply Rmult_lt_0_compat; [apply Rsqr_pos_lt; exact Hx|apply Rinv_0_lt_compat; exact Hg]).
  assert (A1 : 0 < 1 / E1) by (apply Rdiv_lt_0_compat; lra).
  assert (A2 : 0 < 1 / E1 * (1 / E2) - - nu12 / E1 * (- nu12 / E1)).
  { replace (1 / E1 * (1 / E2) - - nu12 / E1 * (- nu12 / E1)) with ((E1 - nu12 * nu12 * E2) / (E1 * E1 * E2)) by (field; lra).
    apply Rdiv_lt_0_compat; [lra|]. apply Rmult_lt_0_compat; [apply Rmult_lt_0_compat|]; assumption. }
  assert (A3 : 0 < 1 / E1 * (1 / E2 * (1 / E3) - - nu23 / E2 * (- nu23 / E2)) - - nu12 / E1 * (- nu12 / E1 * (1 / E3) - - nu23 / E2 * (- nu13 / E1)) + - nu13 / E1 * (- nu12 / E1 * (- nu23 / E2) - 1 / E2 * (- nu13 / E1))).
  { unfold normal_det, det3, compliance in HD. eapply Rlt_le_trans; [exact HD|]. right. ring. }
  pose proof (quad3_pos (1 / E1) (1 / E2) (1 / E3) (- nu12 / E1) (- nu13 / E1) (- nu23 / E2) (s 0%nat 0%nat) (s 1%nat 1%nat) (s 2%nat 2%nat) A1 A2 A3) as Qp.
  pose proof (Pos (s 1%nat 2%nat) G23 H6) as B1. pose proof (Pos (s 0%nat 2%nat) G13 H5) as B2. pose proof (Pos (s 0%nat 1%nat) G12 H4) as B3.
  destruct (Req_dec (s 0%nat 0%nat) 0) as [Z0|Z0]; [|assert (Qp' := Qp ltac:(tauto)); lra].
  destruct (Req_dec (s 1%nat 1%nat) 0) as [Z1|Z1]; [|assert (Qp' := Qp ltac:(tauto)); lra].
  destruct (Req_dec (s 2%nat 2%nat) 0) as [Z2|Z2]; [|assert (Qp' := Qp ltac:(tauto)); lra].
  clear Qp. rewrite Z0, Z1, Z2.
  destruct (Req_dec (s 1%nat 2%nat) 0) as [Z3|Z3]; [|pose proof (PosS _ G23 H6 Z3); lra].
  destruct (Req_dec (s 0%nat 2%nat) 0) as [Z4|Z4]; [|pose proof (PosS _ G13 H5 Z4); lra].
  destruct (Req_dec (s 0%nat 1%nat) 0) as [Z5|Z5]; [|pose proof (PosS _ G12 H4 Z5); lra].
  exfalso. destruct Ex as (i & j & Hi & Hj & N). apply N. rewrite <- (Inv i j Hi Hj).
  assert (S1 : s 1%nat 0%nat = s 0%nat 1%nat) by (apply Ss; lia). assert (S2 : s 2%nat 0%nat = s 0%nat 2%nat) by (apply Ss; lia). assert (S3 : s 2%nat 1%nat = s 1%nat 2%nat) by (apply Ss; lia).
  idx i; idx j; unfold engineering_strain; rewrite ?S1, ?S2, ?S3, ?Z0, ?Z1, ?Z2, ?Z3, ?Z4, ?Z5; unfold Rdiv; ring.
Qed.
Print Assumptions C83_stable.

(** Isotropic constants given to the orthotropic builder give the isotropic tensor. *)
Theorem C83_iso_special E nu : E <> 0 -> 1 + nu <> 0 -> 1 - 2 * nu <> 0 -> let G := E / (2 * (1 + nu)) in
  eq4 (orthotropic E E E G G G nu nu nu) (isotropic E nu) /\ eq4 (transverse_isotropic E E G nu nu) (isotropic E nu).
Proof.
  intros HE H1 H2 G.
  assert (D : det3 (compliance E E E G G G nu nu nu) = (1 + nu) * (1 + nu) * (1 - 2 * nu) / (E * E * E)) by (unfold det3, compliance; field; exact HE).
  assert (Main : eq4 (orthotropic E E E G G G nu nu nu) (isotropic E nu)).
  { intros i j k l Hi Hj Hk Hl. unfold orthotropic, voigt_to_tensor, isotropic, kd.
    idx i; idx j; idx k; idx l; unfold voigt, voigt_tab; cbn [nth]; unfold inv6; cbn [Nat.ltb Nat.leb Nat.eqb andb];
      unfold inv3; cbn [Nat.add Nat.modulo Nat.divmod fst snd Nat.sub]; try rewrite D; unfold compliance, G; field; repeat split; assumption. }
  split; [exact Main|exact Main].
Qed.
Print Assumptions C83_iso_special.

(** ** Transverse isotropy *)
Section TI.
Variable E1 E2 G12 nu12 nu23 : R.
Notation C4 := (transverse_isotropic E1 E2 G12 nu12 nu23).
Notation G23 := (E2 / (2 * (1 + nu23))).
Definition ti_det : R := normal_det E1 E2 E2 G12 G12 G23 nu12 nu12 nu23.
(** The tensor of a transversely isotropic material with axis 1, by its five constants. *)
Definition ti_form (a b l m k : R) : ten := fun i j p q =>
  let n i := if Nat.eqb i 0 then 1 else 0 in let P i j := kd i j - n i * n j in
  a * (n i * n j * n p * n q) + b * (n i * n j * P p q + P i j * (n p * n q)) + l * (P i j * P p q) + m * (P i p * P j q + P i q * P j p)
  + k * (n i * n p * P j q + n i * n q * P j p + n j * n p * P i q + n j * n q * P i p).
Lemma ti_is_form : E1 <> 0 -> E2 <> 0 -> G12 <> 0 -> 1 + nu23 <> 0 -> ti_det <> 0 -> exists a b l, eq4 C4 (ti_form a b l G23 G12).
Proof using Type.
  intros H1 H2 H3 H4 HD. unfold ti_det, normal_det in HD. set (S6 := compliance E1 E2 E2 G12 G12 G23 nu12 nu12 nu23) in *.
  exists (inv3 S6 0%nat 0%nat), (inv3 S6 0%nat 1%nat), (inv3 S6 1%nat 2%nat).
  assert (Sy : forall i j, (i < 3)%nat -> (j < 3)%nat -> inv3 S6 i j = inv3 S6 j i) by (intros; apply inv3_symm; assumption).
  assert (X1 : inv3 S6 0%nat 2%nat = inv3 S6 0%nat 1%nat) by (unfold inv3; cbn; unfold Rdiv; ring).
  assert (X2 : inv3 S6 2%nat 2%nat = inv3 S6 1%nat 1%nat) by (unfold inv3; cbn; unfold Rdiv; ring).
  assert (X3 : inv3 S6 1%nat 1%nat = inv3 S6 1%nat 2%nat + 2 * G23).
  { pose proof (inv3_left S6 1 1 HD ltac:(lia) ltac:(lia)) as L1. pose proof (inv3_left S6 1 2 HD ltac:(lia) ltac:(lia)) as L2.
    cbn [rs Nat.eqb] in L1, L2.
    assert (L : (inv3 S6 1%nat 1%nat - inv3 S6 1%nat 2%nat) * (S6 1%nat 1%nat - S6 1%nat 2%nat) = 1).
    { assert (E : S6 0%nat 1%nat = S6 0%nat 2%nat /\ S6 2%nat 2%nat = S6 1%nat 1%nat /\ S6 2%nat 1%nat = S6 1%nat 2%nat) by (repeat split; reflexivity).
      destruct E as (Ea & Eb & Ec). rewrite Ea, Ec in L1. rewrite Eb in L2. lra. }
    assert (M : S6 1%nat 1%nat - S6 1%nat 2%nat = (1 + nu23) / E2) by (cbn; field; exact H2). rewrite M in L.
    apply (Rmult_eq_reg_r ((1 + nu23) / E2)); [|intros Z; rewrite Z, Rmult_0_r in L; lra].
    transitivity (inv3 S6 1%nat 2%nat * ((1 + nu23) / E2) + 1); [lra|]. field. split; assumption. }
  assert (Y3 : / S6 3%nat 3%nat = G23) by (cbn; field; repeat split; assumption).
  assert (Y4 : / S6 4%nat 4%nat = G12) by (cbn; field; assumption).
  assert (Y5 : / S6 5%nat 5%nat = G12) by (cbn; field; assumption).
  intros i j k l Hi Hj Hk Hl. unfold transverse_isotropic, orthotropic, voigt_to_tensor, ti_form, kd. fold S6.
  idx i; idx j; idx k; idx l; unfold voigt, voigt_tab; cbn [nth]; unfold inv6; cbn [Nat.ltb Nat.leb Nat.eqb andb];
    rewrite ?Y3, ?Y4, ?Y5, ?(Sy 1 0)%nat, ?(Sy 2 0)%nat, ?(Sy 2 1)%nat, ?X1, ?X2, ?X3 by lia; ring.
Qed.
End TI.
(** A unidirectional ply has no preferred direction across the fibre: its stiffness and expansion do not change under
    any rotation about the fibre axis (any orthogonal matrix that keeps axis 1). *)
Theorem C83_transverse E1 E2 G12 nu12 nu23 a1 a2 Q :
  E1 <> 0 -> E2 <> 0 -> G12 <> 0 -> 1 + nu23 <> 0 -> ti_det E1 E2 G12 nu12 nu23 <> 0 ->
  orthogonal Q -> (forall i, (i < 3)%nat -> Q i 0%nat = kd i 0) ->
  eq4 (rot4 (transverse_isotropic E1 E2 G12 nu12 nu23) Q) (transverse_isotropic E1 E2 G12 nu12 nu23) /\
  eq2 (rot2 (transverse_isotropic_cte a1 a2) Q) (transverse_isotropic_cte a1 a2).
Proof.
  intros H1 H2 H3 H4 HD (Hr & Hc) Hax.
  assert (R0 : forall j, (j < 3)%nat -> Q 0%nat j = kd 0 j).
  { intros j Hj. assert (S : rs 3 (fun k => Q 0%nat k * Q 0%nat k) = 1) by (rewrite Hr by lia; reflexivity). cbn [rs] in S. rewrite (Hax 0%nat) in S by lia. unfold kd in *. cbn [Nat.eqb] in S.
    pose proof (Rle_0_sqr (Q 0%nat 1%nat)) as P1. pose proof (Rle_0_sqr (Q 0%nat 2%nat)) as P2. unfold Rsqr in *.
    idx j; cbn [Nat.eqb]; [apply (Hax 0%nat); lia| |]; apply Rsqr_0_uniq; unfold Rsqr; lra. }
  assert (Pr : forall i j, (i < 3)%nat -> (j < 3)%nat -> Q i 1%nat * Q j 1%nat + Q i 2%nat * Q j 2%nat = kd i j - kd i 0 * kd j 0).
  { intros i j Hi Hj. pose proof (Hr i j Hi Hj) as E. cbn [rs] in E. rewrite (Hax i Hi), (Hax j Hj) in E. lra. }
  split.
  - destruct (ti_is_form E1 E2 G12 nu12 nu23 H1 H2 H3 H4 HD) as (a & b & l & Fm).
    set (m := E2 / (2 * (1 + nu23))) in *. clearbody m. set (F := ti_form a b l m G12) in *.
    intros i j k p Hi Hj Hk Hp. rewrite (Fm i j k p) by assumption.
    transitivity (rot4 F Q i j k p).
    + unfold rot4. do 4 (apply rs_ext; intros). rewrite Fm by assumption. reflexivity.
    + unfold F, ti_form. fold (kd i 0) (kd j 0) (kd k 0) (kd p 0).
      rewrite <- (Pr i j), <- (Pr k p), <- (Pr i k), <- (Pr j p), <- (Pr i p), <- (Pr j k) by assumption.
      rewrite <- (Hax i), <- (Hax j), <- (Hax k), <- (Hax p) by assumption.
      unfold rot4, kd. cbn [rs Nat.eqb]. ring.
  - intros i j Hi Hj. unfold rot2, transverse_isotropic_cte.
    transitivity (a1 * (Q i 0%nat * Q j 0%nat) + a2 * (Q i 1%nat * Q j 1%nat + Q i 2%nat * Q j 2%nat)); [unfold kd; cbn [rs Nat.eqb]; ring|].
    rewrite Pr, (Hax i), (Hax j) by assumption. idx i; idx j; unfold kd; cbn [Nat.eqb]; ring.
Qed.
Print Assumptions C83_transverse.
(** The expansion of an isotropic material does not depend on the frame. *)
Theorem C83_isotropic_cte al Q : orthogonal Q -> eq2 (rot2 (isotropic_cte al) Q) (isotropic_cte al).
Proof.
  intros (Hr & _) i j Hi Hj. unfold rot2, isotropic_cte. rewrite <- Hr by assumption. unfold kd. cbn [rs Nat.eqb]. ring.
Qed.
Print Assumptions C83_isotropic_cte.
(** A carbon-fibre ply (GPa): the hypotheses above hold, and a quarter turn about the fibre is such a rotation. *)
Example C83_example :
  let d := ti_det 140 10 5 (3 / 10) (4 / 10) in
  0 < d /\ (3 / 10) * (3 / 10) * 10 < 140 /\ orthogonal (rotation (PI / 2) (fun i => kd i 0)) /\
  (forall i, (i < 3)%nat -> rotation (PI / 2) (fun i => kd i 0) i 0%nat = kd i 0) /\
  rotation (PI / 2) (fun i => kd i 0) 2%nat 1%nat = 1.
Proof.
  intros d. split; [unfold d, ti_det, normal_det, det3, compliance; lra|]. split; [lra|].
  assert (N : nonzero3 (fun i => kd i 0)) by (exists 0%nat; split; [lia|unfold kd; cbn; lra]).
  destruct (C83_rotation (PI / 2) (fun i => kd i 0) N) as (_ & O & _ & Fx & _). split; [exact O|].
  assert (Q1 : sqrt (0 + 1 * 1 + 0 * 0 + 0 * 0) = 1) by (replace (0 + 1 * 1 + 0 * 0 + 0 * 0) with 1 by ring; apply sqrt_1).
  split.
  - intros i Hi. rewrite <- (Fx i Hi). unfold m1, kd. cbn [rs Nat.eqb]. ring.
  - unfold rotation, kd, skew. cbn [rs Nat.eqb]. rewrite Q1, sin_PI2, cos_PI2. field.
Qed.
Print Assumptions C83_example.
