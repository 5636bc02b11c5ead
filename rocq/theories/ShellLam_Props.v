(** Property C85, second part: the laminate stiffness and thermal loads are the through-thickness integrals. *)
From Coq Require Import Reals List Arith Bool Lia Lra FunctionalExtensionality.
From Verif Require Import Tmc_Model Tmc_Props Layered_Model LayeredQuad_Props Shell_Model Shell_Props.
Import ListNotations.
Open Scope R_scope.

(** Specification: ply [k] lies between [bottom k] and [bottom (k + 1)], heights measured from the mid-plane. *)
Definition bottom (th : list R) (k : nat) : R := - rsuml th / 2 + rsuml (firstn k th).
Definition ply_C (Cs : list ten) (thetas : list R) (k : nat) : ten := rotate4 (nth k Cs zero4) (nth k thetas 0).
Definition ply_al (As : list mat) (thetas : list R) (k : nat) : mat := rotate2 (nth k As zero2) (nth k thetas 0).
(** Stress at height [z] of a ply with stiffness [C] and expansion [al], under mid-plane strain, curvature and temperature. *)
Definition stress_at (C : ten) (al eps kappa : mat) (a g z : R) : mat := ddot2 C (fun i j => eps i j + z * kappa i j - (a + z * g) * al i j).

Lemma z_nth th k : (k <= length th)%nat -> nth k (z_coords th) 0 = bottom th k.
Proof.
  intros Hk. unfold z_coords, bottom. destruct k as [|k]; [cbn; ring|]. cbn [nth].
  rewrite (nth_indep _ 0 ((fun c => - rsuml th / 2 + c) 0)) by (rewrite map_length, cumsum_length; lia). rewrite map_nth, cumsum_nth by lia. ring.
Qed.
Lemma z_lo th k : (k < length th)%nat -> zlo th k = bottom th k.
Proof. intros. unfold zlo. apply z_nth. lia. Qed.
Lemma z_hi th k : (k < length th)%nat -> zhi th k = bottom th (k + 1).
Proof. intros. unfold zhi. apply z_nth. lia. Qed.
Lemma bottom_step th k : (k < length th)%nat -> bottom th (k + 1) - bottom th k = nth k th 0.
Proof. intros H. unfold bottom. rewrite Nat.add_1_r, firstn_S_sum by exact H. ring. Qed.
(** The interfaces start at minus half the thickness, end at plus half, and are one ply apart. *)
Theorem C85_interfaces th : length (z_coords th) = (length th + 1)%nat /\ nth 0 (z_coords th) 0 = - rsuml th / 2 /\
  nth (length th) (z_coords th) 0 = rsuml th / 2 /\ forall k, (k < length th)%nat -> nth (k + 1) (z_coords th) 0 - nth k (z_coords th) 0 = nth k th 0.
Proof.
  split; [|split; [|split]].
  - unfold z_coords. cbn [length]. rewrite map_length, cumsum_length. lia.
  - reflexivity.
  - rewrite z_nth by lia. unfold bottom. rewrite firstn_all. field.
  - intros k Hk. rewrite !z_nth by lia. apply bottom_step. exact Hk.
Qed.
Print Assumptions C85_interfaces.

Lemma lam_inv thetas th C G ks A B D Gs Cs : laminate_stiffness thetas th C G ks = Some (A, B, D, Gs) -> layers C (length thetas) = Some Cs ->
  length th = length thetas /\ A = lam_A thetas th Cs /\ B = lam_B thetas th Cs /\ D = lam_D thetas th Cs /\ exists Gl, layers G (length thetas) = Some Gl /\ Gs = lam_G thetas th Gl ks.
Proof.
  unfold laminate_stiffness. intros H HC. destruct (_ =? _)%nat eqn:E; [|discriminate]. apply Nat.eqb_eq in E. rewrite HC in H.
  destruct (layers G _) as [Gl|] eqn:EG; [|discriminate]. inversion H; subst. repeat split; try assumption. exists Gl. auto.
Qed.
Lemma th_inv thetas th C al a g NT MT Cs As : laminate_thermal thetas th C al a g = Some (NT, MT) -> layers C (length thetas) = Some Cs -> layers al (length thetas) = Some As ->
  length th = length thetas /\ NT = thermal_N thetas th Cs As a g /\ MT = thermal_M thetas th Cs As a g.
Proof.
  unfold laminate_thermal. intros H HC HA. destruct (_ =? _)%nat eqn:E; [|discriminate]. apply Nat.eqb_eq in E. rewrite HC, HA in H. inversion H; subst. auto.
Qed.
(** Antiderivative of a cubic. *)
Lemma quad_anti p q r x : derivable_pt_lim (fun z => p * z + q / 2 * z ^ 2 + r / 3 * z ^ 3) x (p + q * x + r * x ^ 2).
Proof.
  assert (P : forall n c, derivable_pt_lim (fun z => c * z ^ n) x (c * (INR n * x ^ pred n))).
  { intros n c. apply derivable_pt_lim_scal. apply derivable_pt_lim_pow. }
  replace (p + q * x + r * x ^ 2) with (p * 1 + q / 2 * (INR 2 * x ^ pred 2) + r / 3 * (INR 3 * x ^ pred 3)) by (cbn; field).
  apply derivable_pt_lim_plus; [apply derivable_pt_lim_plus|]; [apply derivable_pt_lim_scal, derivable_pt_lim_id|apply P|apply P].
Qed.
Lemma quad_int F p q r a b : (forall x, derivable_pt_lim F x (p + q * x + r * x ^ 2)) -> F b - F a = p * (b - a) + q / 2 * (b ^ 2 - a ^ 2) + r / 3 * (b ^ 3 - a ^ 3).
Proof. intros H. rewrite (same_deriv F _ _ H (fun x => quad_anti p q r x) a b). ring. Qed.
Lemma ddot2_lin C e k al a g z i j : stress_at C al e k a g z i j = (ddot2 C e i j - a * ddot2 C al i j) + (ddot2 C k i j - g * ddot2 C al i j) * z.
Proof. unfold stress_at, ddot2. cbn [rs]. ring. Qed.
Lemma ddot2_lsum n f e i j : ddot2 (fun i j k l => rs n (fun m => f m i j k l)) e i j = rs n (fun m => ddot2 (f m) e i j).
Proof.
  unfold ddot2. rewrite (rs_ext 2 _ (fun k => rs n (fun m => rs 2 (fun l => f m i j k l * e k l)))).
  - apply rs_swap.
  - intros k _. rewrite rs_swap. apply rs_ext. intros l _. rewrite <- rs_scale_r. reflexivity.
Qed.

(** For every laminate, mid-plane strain, curvature and temperature profile: the membrane resultant is the integral of the
    ply stress over the thickness, the moment the integral of height times ply stress (any antiderivatives [F0], [F1]), and
    the transverse force the corrected sum of the ply shears. *)
Theorem C85_resultants thetas th C G al ks a g A B D Gs NT MT Cs Gl As eps kappa gamma F0 F1 :
  laminate_stiffness thetas th C G ks = Some (A, B, D, Gs) -> laminate_thermal thetas th C al a g = Some (NT, MT) ->
  layers C (length thetas) = Some Cs -> layers al (length thetas) = Some As -> layers G (length thetas) = Some Gl ->
  (forall k i j z, derivable_pt_lim (F0 k i j) z (stress_at (ply_C Cs thetas k) (ply_al As thetas k) eps kappa a g z i j)) ->
  (forall k i j z, derivable_pt_lim (F1 k i j) z (z * stress_at (ply_C Cs thetas k) (ply_al As thetas k) eps kappa a g z i j)) ->
  let '(N, M, Q) := resultants eps kappa gamma A D Gs (Some B) (Some NT) (Some MT) in
  (forall i j, N i j = rs (length thetas) (fun k => F0 k i j (bottom th (k + 1)) - F0 k i j (bottom th k))) /\
  (forall i j, M i j = rs (length thetas) (fun k => F1 k i j (bottom th (k + 1)) - F1 k i j (bottom th k))) /\
  (forall i, Q i = ks * rs (length thetas) (fun k => nth k th 0 * rs 2 (fun j => rotate2 (nth k Gl zero2) (nth k thetas 0) i j * gamma j))).
Proof.
  intros HL HT HC HA HG H0 H1. destruct (lam_inv _ _ _ _ _ _ _ _ _ _ HL HC) as (E & -> & -> & -> & Gl' & HG' & ->). rewrite HG in HG'. inversion HG'; subst Gl'.
  destruct (th_inv _ _ _ _ _ _ _ _ _ _ HT HC HA) as (_ & -> & ->). unfold resultants. split; [|split].
  - intros i j. unfold oadd, lam_A, lam_B, thermal_N, lsum. rewrite !ddot2_lsum, <- rs_plus, <- rs_minus. apply rs_ext. intros k Hk. rewrite <- (z_hi th k), <- (z_lo th k) by lia.
    rewrite (quad_int (F0 k i j) (ddot2 (ply_C Cs thetas k) eps i j - a * ddot2 (ply_C Cs thetas k) (ply_al As thetas k) i j) (ddot2 (ply_C Cs thetas k) kappa i j - g * ddot2 (ply_C Cs thetas k) (ply_al As thetas k) i j) 0).
    + unfold sigma_dT. fold (ply_C Cs thetas k) (ply_al As thetas k). unfold ddot2. cbn [rs]. unfold ply_C. field.
    + intros x. specialize (H0 k i j x). rewrite ddot2_lin in H0. rewrite Rmult_0_l, Rplus_0_r. exact H0.
  - intros i j. unfold oadd, lam_D, lam_B, thermal_M, lsum. rewrite !ddot2_lsum, <- rs_plus, <- rs_minus. apply rs_ext. intros k Hk. rewrite <- (z_hi th k), <- (z_lo th k) by lia.
    rewrite (quad_int (F1 k i j) 0 (ddot2 (ply_C Cs thetas k) eps i j - a * ddot2 (ply_C Cs thetas k) (ply_al As thetas k) i j) (ddot2 (ply_C Cs thetas k) kappa i j - g * ddot2 (ply_C Cs thetas k) (ply_al As thetas k) i j)).
    + unfold sigma_dT. fold (ply_C Cs thetas k) (ply_al As thetas k). unfold ddot2. cbn [rs]. unfold ply_C. field.
    + intros x. specialize (H1 k i j x). rewrite ddot2_lin in H1. match goal with |- derivable_pt_lim _ _ ?r => match type of H1 with derivable_pt_lim _ _ ?s => replace r with s by ring end end. exact H1.
  - intros i. unfold lam_G, lsum. cbn [rs]. rewrite !(Rmult_assoc ks), <- !rs_scale_r. rewrite Rplus_0_l, <- Rmult_plus_distr_l, <- rs_plus. f_equal. apply rs_ext. intros k Hk.
    rewrite <- (bottom_step th k) by lia. rewrite <- (z_hi th k), <- (z_lo th k) by lia. ring.
Qed.
Print Assumptions C85_resultants.

Lemma energy2_lsum n f e g : energy2 (fun i j k l => rs n (fun m => f m i j k l)) e g = rs n (fun m => energy2 (f m) e g).
Proof.
  unfold energy2. rewrite (rs_ext 2 _ (fun i => rs n (fun m => rs 2 (fun j => e i j * ddot2 (f m) g i j)))).
  - apply rs_swap.
  - intros i _. rewrite rs_swap. apply rs_ext. intros j _. rewrite ddot2_lsum, <- rs_scale. reflexivity.
Qed.
(** The laminate stiffnesses have the symmetries of the plies', and plies that store no negative energy make a laminate that stores none, coupling included. *)
Theorem C85_positive thetas th C G ks A B D Gs Cs : laminate_stiffness thetas th C G ks = Some (A, B, D, Gs) -> layers C (length thetas) = Some Cs ->
  (forall t, In t th -> 0 <= t) -> (forall k, (k < length thetas)%nat -> minor2 (nth k Cs zero4) /\ major2 (nth k Cs zero4) /\ forall e, symm e -> 0 <= energy2 (nth k Cs zero4) e e) ->
  (minor2 A /\ minor2 B /\ minor2 D) /\ (major2 A /\ major2 B /\ major2 D) /\
  forall e k, symm e -> symm k -> 0 <= energy2 A e e + energy2 B e k + energy2 B k e + energy2 D k k.
Proof.
  intros HL HC Ht HP. destruct (lam_inv _ _ _ _ _ _ _ _ _ _ HL HC) as (E & -> & -> & -> & _).
  assert (Mi : forall n, (n < length thetas)%nat -> minor2 (ply_C Cs thetas n)). { intros n Hn. apply (C85_rotation (nth n Cs zero4) zero2 zero2 zero2 (nth n thetas 0) 0). apply HP. exact Hn. }
  assert (Ma : forall n, (n < length thetas)%nat -> major2 (ply_C Cs thetas n)). { intros n Hn. apply (C85_rotation (nth n Cs zero4) zero2 zero2 zero2 (nth n thetas 0) 0). apply HP. exact Hn. }
  assert (Po : forall n, (n < length thetas)%nat -> forall e, symm e -> 0 <= energy2 (ply_C Cs thetas n) e e).
  { intros n Hn e S. set (t := nth n thetas 0).
    destruct (C85_rotation (nth n Cs zero4) e (rotate2 e (- t)) (rotate2 e (- t)) (- t) t) as (_ & R2 & _ & _ & _ & _ & Sy & _ & _).
    destruct (C85_rotation (nth n Cs zero4) e (rotate2 e (- t)) (rotate2 e (- t)) t t) as (_ & _ & _ & R0 & _ & _ & _ & _ & En).
    assert (X : e2 (rotate2 (rotate2 e (- t)) t) e). { intros i j Hi Hj. rewrite R2 by assumption. replace (t + - t) with 0 by ring. apply R0; assumption. }
    assert (Y : energy2 (ply_C Cs thetas n) e e = energy2 (rotate4 (nth n Cs zero4) t) (rotate2 (rotate2 e (- t)) t) (rotate2 (rotate2 e (- t)) t)).
    { unfold ply_C. fold t. unfold energy2, ddot2. apply rs_ext. intros i Hi. apply rs_ext. intros j Hj. rewrite (X i j) by assumption. f_equal. apply rs_ext. intros k Hk. apply rs_ext. intros l Hl. rewrite (X k l) by assumption. reflexivity. }
    rewrite Y, En. apply HP; [exact Hn|]. apply Sy. exact S. }
  split; [|split].
  - repeat split; unfold lam_A, lam_B, lam_D, lsum; apply rs_ext; intros n Hn; destruct (Mi n Hn i j k l) as [M1 M2]; try assumption; unfold ply_C in M1, M2; first [rewrite <- M1; reflexivity|rewrite <- M2; reflexivity].
  - repeat split; intros i j k l Hi Hj Hk Hl; unfold lam_A, lam_B, lam_D, lsum; apply rs_ext; intros n Hn; pose proof (Ma n Hn i j k l Hi Hj Hk Hl) as M1; unfold ply_C in M1; rewrite M1; reflexivity.
  - intros e k Se Sk. unfold lam_A, lam_B, lam_D, lsum. rewrite !energy2_lsum, <- !rs_plus. apply rs_nonneg. intros n Hn. set (lo := zlo th n). set (hi := zhi th n).
    assert (H0 : 0 <= hi - lo). { unfold hi, lo. rewrite z_lo, z_hi, bottom_step by lia. apply Ht. apply nth_In. lia. }
    set (at_ := fun z => energy2 (ply_C Cs thetas n) (fun i j => e i j + z * k i j) (fun i j => e i j + z * k i j)).
    assert (P : forall z, 0 <= at_ z). { intros z. apply Po; [exact Hn|]. intros i j Hi Hj. rewrite (Se i j), (Sk i j) by assumption. reflexivity. }
    match goal with |- 0 <= ?x => replace x with ((hi - lo) * (at_ lo + 4 * at_ ((lo + hi) / 2) + at_ hi) / 6) end.
    + apply Rmult_le_pos; [|lra]. apply Rmult_le_pos; [exact H0|]. pose proof (P lo). pose proof (P hi). pose proof (P ((lo + hi) / 2)). lra.
    + unfold at_, energy2, ddot2, ply_C. cbn [rs]. field.
Qed.
Print Assumptions C85_positive.

Lemma rs_tele n f : rs n (fun k => f (k + 1)%nat - f k) = f n - f 0%nat.
Proof. induction n as [|n IH]; cbn [rs]; [ring|]. rewrite IH, Nat.add_1_r. ring. Qed.
(** A laminate all of whose plies have the same stiffness and shear stiffness in laminate axes is the homogeneous plate of the total thickness, however it is split. *)
Theorem C85_homogeneous thetas th C G ks A B D Gs Cs Gl C0 G0 : laminate_stiffness thetas th C G ks = Some (A, B, D, Gs) ->
  layers C (length thetas) = Some Cs -> layers G (length thetas) = Some Gl ->
  (forall k, (k < length thetas)%nat -> e4 (ply_C Cs thetas k) C0 /\ e2 (ply_al Gl thetas k) G0) ->
  let '(A0, D0, Gs0) := plate_stiffness C0 (rsuml th) (MatrixG G0) ks in e4 A A0 /\ e4 B zero4 /\ e4 D D0 /\ e2 Gs Gs0.
Proof.
  intros HL HC HG H. destruct (lam_inv _ _ _ _ _ _ _ _ _ _ HL HC) as (E & -> & -> & -> & Gl' & HG' & ->). rewrite HG in HG'. inversion HG'; subst Gl'.
  cbn [plate_stiffness].
  assert (T : forall f : R -> R, rs (length thetas) (fun n => f (zhi th n) - f (zlo th n)) = f (rsuml th / 2) - f (- rsuml th / 2)).
  { intros f. rewrite (rs_ext _ _ (fun n => (fun m => f (bottom th m)) (n + 1)%nat - (fun m => f (bottom th m)) n)).
    - rewrite (rs_tele (length thetas) (fun m => f (bottom th m))). unfold bottom. rewrite <- E, firstn_all. cbn [firstn rsuml fold_right]. f_equal; [f_equal; lra|f_equal; unfold rsuml; cbn; lra].
    - intros n Hn. rewrite z_lo, z_hi by lia. reflexivity. }
  split; [|split; [|split]].
  - intros i j k l Hi Hj Hk Hl. unfold lam_A, lsum. transitivity (rs (length thetas) (fun n => C0 i j k l * ((fun z => z) (zhi th n) - (fun z => z) (zlo th n)))).
    + apply rs_ext. intros n Hn. destruct (H n Hn) as [H1 _]. unfold ply_C in H1. rewrite H1 by assumption. reflexivity.
    + rewrite rs_scale, (T (fun z => z)). field.
  - intros i j k l Hi Hj Hk Hl. unfold lam_B, lsum. transitivity (rs (length thetas) (fun n => 1 / 2 * C0 i j k l * ((fun z => z ^ 2) (zhi th n) - (fun z => z ^ 2) (zlo th n)))).
    + apply rs_ext. intros n Hn. destruct (H n Hn) as [H1 _]. unfold ply_C in H1. rewrite H1 by assumption. reflexivity.
    + rewrite rs_scale, (T (fun z => z ^ 2)). unfold zero4. field.
  - intros i j k l Hi Hj Hk Hl. unfold lam_D, lsum. transitivity (rs (length thetas) (fun n => 1 / 3 * C0 i j k l * ((fun z => z ^ 3) (zhi th n) - (fun z => z ^ 3) (zlo th n)))).
    + apply rs_ext. intros n Hn. destruct (H n Hn) as [H1 _]. unfold ply_C in H1. rewrite H1 by assumption. reflexivity.
    + rewrite rs_scale, (T (fun z => z ^ 3)). field.
  - intros i j Hi Hj. unfold lam_G, lsum. transitivity (ks * rs (length thetas) (fun n => G0 i j * ((fun z => z) (zhi th n) - (fun z => z) (zlo th n)))).
    + f_equal. apply rs_ext. intros n Hn. destruct (H n Hn) as [_ H1]. unfold ply_al in H1. rewrite H1 by assumption. reflexivity.
    + rewrite rs_scale, (T (fun z => z)). field.
Qed.
Print Assumptions C85_homogeneous.

Lemma rs_shift n f : rs (S n) f = f 0%nat + rs n (fun i => f (S i)).
Proof. induction n as [|n IH]; [cbn; ring|]. change (rs (S (S n)) f) with (rs (S n) f + f (S n)). rewrite IH. cbn [rs]. ring. Qed.
Lemma rs_rev n f : rs n f = rs n (fun k => f (n - 1 - k)%nat).
Proof.
  revert f. induction n as [|n IH]; intros f; [reflexivity|]. cbn [rs]. rewrite (IH f). rewrite <- (rs_shift n (fun k => f (S n - 1 - k)%nat)) || idtac.
  change (rs n (fun k => f (S n - 1 - k)%nat) + f (S n - 1 - n)%nat) with (rs (S n) (fun k => f (S n - 1 - k)%nat)). rewrite rs_shift. replace (S n - 1 - 0)%nat with n by lia.
  rewrite Rplus_comm. f_equal. apply rs_ext. intros k Hk. f_equal. lia.
Qed.
Lemma rsuml_rev l : rsuml (rev l) = rsuml l.
Proof. induction l as [|x l IH]; [reflexivity|]. cbn [rev]. rewrite rsuml_app, IH. unfold rsuml. cbn. ring. Qed.
Lemma bottom_mirror th k : rev th = th -> (k <= length th)%nat -> bottom th (length th - k) = - bottom th k.
Proof.
  intros S Hk. unfold bottom. assert (H : rsuml (skipn (length th - k) th) = rsuml (firstn k th)).
  { rewrite <- S at 2. rewrite skipn_rev, rsuml_rev. f_equal. f_equal. lia. }
  assert (X : rsuml th = rsuml (firstn (length th - k) th) + rsuml (skipn (length th - k) th)) by (rewrite <- rsuml_app, firstn_skipn; reflexivity). rewrite H in X. lra.
Qed.
Lemma nth_mirror {A} (l : list A) d k : rev l = l -> (k < length l)%nat -> nth (length l - 1 - k) l d = nth k l d.
Proof. intros S Hk. rewrite <- S at 3. rewrite rev_nth by exact Hk. f_equal. lia. Qed.
Lemma odd_zero n f : (forall k, (k < n)%nat -> f (n - 1 - k)%nat = - f k) -> rs n f = 0.
Proof. intros H. assert (X : rs n f = - rs n f); [|lra]. rewrite rs_rev at 1. transitivity (rs n (fun k => -1 * f k)); [|rewrite rs_scale; ring]. apply rs_ext. intros k Hk. rewrite H by exact Hk. ring. Qed.
Lemma layers_length {A} (p : per_layer A) n l : layers p n = Some l -> length l = n.
Proof. destruct p; cbn; [intros [= <-]; apply repeat_length|]. destruct (_ =? _)%nat eqn:E; [|discriminate]. apply Nat.eqb_eq in E. intros [= <-]. exact E. Qed.
(** A lay-up that reads the same from both faces couples nothing: no stretching-bending stiffness, and no thermal moment under a uniform temperature change. *)
Theorem C85_symmetric thetas th C G ks A B D Gs Cs al As a NT MT : laminate_stiffness thetas th C G ks = Some (A, B, D, Gs) -> layers C (length thetas) = Some Cs ->
  laminate_thermal thetas th C al a 0 = Some (NT, MT) -> layers al (length thetas) = Some As ->
  rev thetas = thetas -> rev th = th -> rev Cs = Cs -> rev As = As ->
  (forall i j k l, B i j k l = 0) /\ (forall i j, MT i j = 0).
Proof.
  intros HL HC HT HA S1 S2 S3 S4. destruct (lam_inv _ _ _ _ _ _ _ _ _ _ HL HC) as (E & _ & -> & _). destruct (th_inv _ _ _ _ _ _ _ _ _ _ HT HC HA) as (_ & _ & ->).
  pose proof (layers_length _ _ _ HC) as LC. pose proof (layers_length _ _ _ HA) as LA.
  assert (Z : forall k, (k < length thetas)%nat -> zlo th (length thetas - 1 - k) = - zhi th k /\ zhi th (length thetas - 1 - k) = - zlo th k).
  { intros k Hk. rewrite !z_lo, !z_hi by lia. replace (length thetas - 1 - k)%nat with (length th - (k + 1))%nat by lia. replace (length th - (k + 1) + 1)%nat with (length th - k)%nat by lia.
    split; apply bottom_mirror; (exact S2 || lia). }
  assert (Pc : forall k, (k < length thetas)%nat -> nth (length thetas - 1 - k) Cs zero4 = nth k Cs zero4) by (intros k Hk; rewrite <- LC; apply nth_mirror; [exact S3|lia]).
  assert (Pa : forall k, (k < length thetas)%nat -> nth (length thetas - 1 - k) As zero2 = nth k As zero2) by (intros k Hk; rewrite <- LA; apply nth_mirror; [exact S4|lia]).
  assert (Pt : forall k, (k < length thetas)%nat -> nth (length thetas - 1 - k) thetas 0 = nth k thetas 0) by (intros k Hk; apply nth_mirror; [exact S1|lia]).
  split.
  - intros i j k l. unfold lam_B, lsum. apply odd_zero. intros n Hn. destruct (Z n Hn) as [-> ->]. rewrite Pc, Pt by exact Hn. ring.
  - intros i j. unfold thermal_M, lsum, sigma_dT. apply odd_zero. intros n Hn. destruct (Z n Hn) as [-> ->]. rewrite Pc, Pt, Pa by exact Hn. ring.
Qed.
Print Assumptions C85_symmetric.

(** Free expansion: if every ply expands alike in laminate axes, strain [al a] and curvature [al g] leave no force and no moment. *)
Theorem C85_free thetas th C G ks A B D Gs Cs al As a g NT MT al0 gamma : laminate_stiffness thetas th C G ks = Some (A, B, D, Gs) -> layers C (length thetas) = Some Cs ->
  laminate_thermal thetas th C al a g = Some (NT, MT) -> layers al (length thetas) = Some As ->
  (forall k, (k < length thetas)%nat -> e2 (ply_al As thetas k) al0) ->
  let '(N, M, _) := resultants (fun i j => a * al0 i j) (fun i j => g * al0 i j) gamma A D Gs (Some B) (Some NT) (Some MT) in
  (forall i j, N i j = 0) /\ (forall i j, M i j = 0).
Proof.
  intros HL HC HT HA H. destruct (lam_inv _ _ _ _ _ _ _ _ _ _ HL HC) as (E & -> & -> & -> & _ & _ & _). destruct (th_inv _ _ _ _ _ _ _ _ _ _ HT HC HA) as (_ & -> & ->). unfold resultants, oadd.
  assert (S : forall n i j, (n < length thetas)%nat -> sigma_dT thetas Cs As n i j = ddot2 (ply_C Cs thetas n) al0 i j).
  { intros n i j Hn. unfold sigma_dT. fold (ply_C Cs thetas n) (ply_al As thetas n). unfold ddot2. apply rs_ext. intros k Hk. apply rs_ext. intros l Hl. rewrite (H n Hn k l) by assumption. reflexivity. }
  split; intros i j.
  - unfold lam_A, lam_B, thermal_N, lsum. rewrite !ddot2_lsum, <- rs_plus, <- rs_minus. apply rs_zero. intros n Hn. rewrite S by exact Hn. unfold ddot2, ply_C. cbn [rs]. field.
  - unfold lam_D, lam_B, thermal_M, lsum. rewrite !ddot2_lsum, <- rs_plus, <- rs_minus. apply rs_zero. intros n Hn. rewrite S by exact Hn. unfold ddot2, ply_C. cbn [rs]. field.
Qed.
Print Assumptions C85_free.

(** Inputs of different lengths are refused, matching ones accepted; an isotropic expansion is the same in all plies. *)
Theorem C85_lengths thetas th C G ks al a g :
  ((exists r, laminate_stiffness thetas th C G ks = Some r) <-> length th = length thetas /\ (forall l, C = Each l -> length l = length thetas) /\ (forall l, G = Each l -> length l = length thetas)) /\
  ((exists r, laminate_thermal thetas th C al a g = Some r) <-> length th = length thetas /\ (forall l, C = Each l -> length l = length thetas) /\ (forall l, al = Each l -> length l = length thetas)).
Proof.
  assert (L : forall T (p : per_layer T) n, (exists l, layers p n = Some l) <-> (forall l, p = Each l -> length l = n)).
  { intros T p n. destruct p as [x|l]; cbn; [split; [discriminate|eauto]|]. split.
    - intros [l' H] l'' [= <-]. destruct (_ =? _)%nat eqn:E; [apply Nat.eqb_eq in E; exact E|discriminate].
    - intros H. rewrite (H l eq_refl), Nat.eqb_refl. eauto. }
  split; rewrite <- !L; [unfold laminate_stiffness|unfold laminate_thermal]; (destruct (_ =? _)%nat eqn:E;
    [apply Nat.eqb_eq in E|apply Nat.eqb_neq in E; split; [intros [r H]; discriminate|intros [H _]; contradiction]]).
  - split; [intros [r H]; destruct (layers C _) eqn:X; [|discriminate]; destruct (layers G _) eqn:Y; [|discriminate]; eauto|]. intros (_ & [l ->] & [m ->]). eauto.
  - split; [intros [r H]; destruct (layers C _) eqn:X; [|discriminate]; destruct (layers al _) eqn:Y; [|discriminate]; eauto|]. intros (_ & [l ->] & [m ->]). eauto.
Qed.
Print Assumptions C85_lengths.

(** A symmetric three-ply carbon laminate meets the hypotheses: accepted, symmetric, antiderivatives exist. *)
Example C85_laminate :
  (exists r, laminate_stiffness [0; PI / 2; 0] [1; 2; 1] (One (ortho2 140 10 5 (3 / 10))) (Each [kd; kd; kd]) (5 / 6) = Some r) /\
  (exists r, laminate_thermal [0; PI / 2; 0] [1; 2; 1] (One (ortho2 140 10 5 (3 / 10))) (One kd) 1 0 = Some r) /\
  rev [0; PI / 2; 0] = [0; PI / 2; 0] /\ rev [1; 2; 1] = [1; 2; 1] /\ (forall t, In t [1; 2; 1] -> 0 <= t) /\
  (forall C al e k a g i j, exists F, forall z, derivable_pt_lim F z (z * stress_at C al e k a g z i j)).
Proof.
  repeat split; try (eexists; reflexivity).
  - intros t [<-|[<-|[<-|[]]]]; lra.
  - intros C al e k a g i j. eexists. intros z. pose proof (quad_anti 0 (ddot2 C e i j - a * ddot2 C al i j) (ddot2 C k i j - g * ddot2 C al i j) z) as Q.
    rewrite ddot2_lin. match type of Q with derivable_pt_lim _ _ ?s => match goal with |- derivable_pt_lim _ _ ?r => replace r with s by ring end end. exact Q.
Qed.
Print Assumptions C85_laminate.
