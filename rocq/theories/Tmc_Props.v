(** C75: third-medium contact: energy density, regularization, classification. *)
From Coq Require Import Reals List Arith Lia Lra Psatz.
From Coquelicot Require Import Coquelicot.
From Verif Require Import Tmc_Model.
Import ListNotations.
Open Scope R_scope.

(** ** Sums *)
Lemma rs_ext n f g : (forall i, (i < n)%nat -> f i = g i) -> rs n f = rs n g.
Proof. induction n as [|n IH]; intros H; [reflexivity|]. cbn [rs]. rewrite IH, H by auto. reflexivity. Qed.
Lemma rs_zero n f : (forall i, (i < n)%nat -> f i = 0) -> rs n f = 0.
Proof. induction n as [|n IH]; intros H; [reflexivity|]. cbn [rs]. rewrite IH, H by auto. ring. Qed.
Lemma rs_plus n f g : rs n (fun i => f i + g i) = rs n f + rs n g.
Proof. induction n as [|n IH]; cbn [rs]; [ring|]. rewrite IH. ring. Qed.
Lemma rs_minus n f g : rs n (fun i => f i - g i) = rs n f - rs n g.
Proof. induction n as [|n IH]; cbn [rs]; [ring|]. rewrite IH. ring. Qed.
Lemma rs_scale n c f : rs n (fun i => c * f i) = c * rs n f.
Proof. induction n as [|n IH]; cbn [rs]; [ring|]. rewrite IH. ring. Qed.
Lemma rs_scale_r n c f : rs n (fun i => f i * c) = rs n f * c.
Proof. induction n as [|n IH]; cbn [rs]; [ring|]. rewrite IH. ring. Qed.
Lemma rs_swap n m f : rs n (fun i => rs m (fun j => f i j)) = rs m (fun j => rs n (fun i => f i j)).
Proof. induction n as [|n IH]; cbn [rs]; [symmetry; apply rs_zero; reflexivity|]. rewrite IH, <- rs_plus. reflexivity. Qed.
Lemma rs_nonneg n f : (forall i, (i < n)%nat -> 0 <= f i) -> 0 <= rs n f.
Proof. induction n as [|n IH]; intros H; cbn [rs]; [lra|]. assert (0 <= rs n f) by (apply IH; auto). specialize (H n ltac:(lia)). lra. Qed.
Lemma rs_le n f g : (forall i, (i < n)%nat -> f i <= g i) -> rs n f <= rs n g.
Proof. induction n as [|n IH]; intros H; cbn [rs]; [lra|]. assert (rs n f <= rs n g) by (apply IH; auto). specialize (H n ltac:(lia)). lra. Qed.
Lemma rs_zero_inv n f : (forall i, (i < n)%nat -> 0 <= f i) -> rs n f = 0 -> forall i, (i < n)%nat -> f i = 0.
Proof.
  induction n as [|n IH]; intros H E i Hi; [lia|]. cbn [rs] in E.
  assert (0 <= rs n f) by (apply rs_nonneg; auto). pose proof (H n ltac:(lia)).
  destruct (Nat.eq_dec i n) as [->|N]; [lra|]. apply IH; [auto|lra|lia].
Qed.
Lemma rs_delta n j f : (j < n)%nat -> rs n (fun i => (if Nat.eqb i j then 1 else 0) * f i) = f j.
Proof.
  induction n as [|n IH]; intros H; [lia|]. cbn [rs]. destruct (Nat.eq_dec j n) as [->|N].
  - rewrite Nat.eqb_refl, rs_zero; [ring|]. intros i Hi. destruct (Nat.eqb_spec i n); [lia|ring].
  - rewrite IH by lia. destruct (Nat.eqb_spec n j); [lia|ring].
Qed.
Lemma cauchy n f : rs n f * rs n f <= INR n * rs n (fun i => f i * f i).
Proof.
  induction n as [|n IH]; [cbn; lra|]. cbn [rs]. rewrite S_INR. set (S := rs n f) in *. set (Q := rs n (fun i => f i * f i)) in *.
  assert (QN : 0 <= Q) by (apply rs_nonneg; intros; nra). pose proof (pos_INR n) as Pn. set (x := f n).
  destruct (Req_dec (INR n) 0) as [Z|Z].
  - rewrite Z in *. assert (S = 0) by nra. nra.
  - assert (X : 2 * S * x <= Q + INR n * (x * x)).
    { apply Rmult_le_reg_l with (INR n); [lra|]. pose proof (Rle_0_sqr (S - INR n * x)) as Y. unfold Rsqr in Y. lra. }
    lra.
Qed.

(** ** Classification *)
Theorem C75_classify dim points cells fn nc :
  length (classify_medium_cells dim points cells fn nc) = length cells /\
  forall c, (c < length cells)%nat ->
    nth c (classify_medium_cells dim points cells fn nc) 0 =
      (if fn (centroid dim points (nth c cells []) nc) then 1 else 0) /\
    forall i, (i < dim)%nat -> (0 < nc)%nat -> nth c cells [] <> [] ->
      let corners := firstn nc (nth c cells []) in
      nth i (centroid dim points (nth c cells []) nc) 0 * INR (length corners) =
      fold_right Rplus 0 (map (fun n => nth i (nth n points []) 0) corners).
Proof.
  split; [apply map_length|]. intros c Hc. split.
  - unfold classify_medium_cells. rewrite (nth_indep _ 0 (if fn (centroid dim points [] nc) then 1 else 0)) by (rewrite map_length; exact Hc).
    rewrite (map_nth (fun cell => if fn (centroid dim points cell nc) then 1 else 0)). reflexivity.
  - intros i Hi Hn Hne. cbv zeta. unfold centroid.
    set (g := fun i0 => fold_right Rplus 0 (map (fun n => nth i0 (nth n points []) 0) (firstn nc (nth c cells []))) / INR (length (firstn nc (nth c cells [])))).
    rewrite (nth_indep _ 0 (g 0%nat)) by (rewrite map_length, seq_length; exact Hi). rewrite map_nth, seq_nth by exact Hi. unfold g. cbn [Nat.add].
    field. apply not_0_INR. destruct (nth c cells []) as [|x l]; [contradiction|]. destruct nc; [lia|]. cbn. lia.
Qed.
Print Assumptions C75_classify.

(** ** The extended logarithm *)
Lemma Jm : 0 < J_min /\ J_min * 10000 = 1. Proof. unfold J_min. lra. Qed.
Lemma ln_le_sub1 x : 0 < x -> ln x <= x - 1.
Proof. intros H. pose proof (exp_ineq1_le (ln x)) as E. rewrite exp_ln in E by exact H. lra. Qed.
Definition dlog (J : R) : R := if Rlt_dec J_min J then / J else (1 - (J - J_min) / J_min) / J_min.
(** The extension is the logarithm above [J_min]; it is differentiable at every real [J], with a continuous
    positive derivative: no jump in energy or stress where it takes over. *)
Theorem C75_safe_log :
  (forall J, J_min < J -> safe_lnJ J = ln J) /\
  (forall J, derivable_pt_lim safe_lnJ J (dlog J)) /\
  (forall J, 0 < dlog J) /\
  (forall J, continuity_pt dlog J) /\
  (forall a b, a < b -> safe_lnJ a < safe_lnJ b).
Proof.
  destruct Jm as [JP JE].
  assert (Pos : forall J, 0 < dlog J).
  { intros J. unfold dlog. destruct (Rlt_dec J_min J) as [L|L]; [apply Rinv_0_lt_compat; lra|].
    apply Rdiv_lt_0_compat; [|exact JP]. assert ((J - J_min) / J_min <= 0); [|lra].
    apply Rmult_le_reg_r with J_min; [exact JP|]. unfold Rdiv. rewrite Rmult_assoc, Rinv_l by lra. lra. }
  assert (Dext : forall J, is_derive ln_ext J ((1 - (J - J_min) / J_min) / J_min)).
  { intros J. unfold ln_ext. auto_derive; [lra|]. field. lra. }
  assert (Dln : forall J, 0 < J -> is_derive ln J (/ J)).
  { intros J H. auto_derive; [exact H|]. field. lra. }
  assert (EJ : ln_ext J_min = ln J_min) by (unfold ln_ext; field; lra).
  assert (D : forall J, is_derive safe_lnJ J (dlog J)).
  { intros J. unfold dlog. destruct (Rlt_dec J_min J) as [L|L].
    - apply (is_derive_ext_loc ln); [|apply Dln; lra]. exists (mkposreal (J - J_min) ltac:(lra)). intros y Hy.
      change (Rabs (y - J) < J - J_min) in Hy. apply Rabs_def2 in Hy. unfold safe_lnJ. destruct (Rlt_dec J_min y); [reflexivity|exfalso; lra].
    - destruct (Req_dec J J_min) as [->|N].
      + (* the junction *)
        replace ((1 - (J_min - J_min) / J_min) / J_min) with (/ J_min) by (field; lra).
        apply is_derive_Reals. intros eps He.
        assert (A1 : derivable_pt_lim ln_ext J_min (/ J_min)).
        { apply is_derive_Reals. replace (/ J_min) with ((1 - (J_min - J_min) / J_min) / J_min) by (field; lra). apply Dext. }
        assert (A2 : derivable_pt_lim ln J_min (/ J_min)) by (apply is_derive_Reals; apply Dln; exact JP).
        destruct (A1 eps He) as [d1 H1]. destruct (A2 eps He) as [d2 H2].
        exists (mkposreal (Rmin d1 d2) (Rmin_pos d1 d2 (cond_pos d1) (cond_pos d2))). intros h Hh Hd. cbn in Hd.
        pose proof (Rmin_l d1 d2). pose proof (Rmin_r d1 d2).
        assert (E0 : safe_lnJ J_min = ln J_min) by (unfold safe_lnJ; destruct (Rlt_dec J_min J_min); [exfalso; lra|exact EJ]).
        rewrite E0. unfold safe_lnJ. destruct (Rlt_dec J_min (J_min + h)).
        * apply H2; [exact Hh|lra].
        * rewrite <- EJ. apply H1; [exact Hh|lra].
      + apply (is_derive_ext_loc ln_ext); [|apply Dext]. exists (mkposreal (J_min - J) ltac:(lra)). intros y Hy.
        change (Rabs (y - J) < J_min - J) in Hy. apply Rabs_def2 in Hy. unfold safe_lnJ. destruct (Rlt_dec J_min y); [exfalso; lra|reflexivity]. }
  split; [intros J H; unfold safe_lnJ; destruct (Rlt_dec J_min J); [reflexivity|contradiction]|].
  split; [intros J; apply is_derive_Reals; apply D|]. split; [exact Pos|]. split.
  - assert (Cinv : forall J, 0 < J -> continuity_pt (fun y => / y) J).
    { intros J H. apply (continuity_pt_inv (fun y => y)); [apply derivable_continuous_pt, derivable_pt_id|lra]. }
    assert (Clin : forall J, continuity_pt (fun y => (1 - (y - J_min) / J_min) / J_min) J).
    { intros J. apply derivable_continuous_pt. exists (- / (J_min * J_min)). apply is_derive_Reals. auto_derive; [exact I|]. field. lra. }
    intros J eps He. destruct (Rtotal_order J J_min) as [L|[E|L]].
    + destruct (Clin J eps He) as (a & Ha & H). exists (Rmin a (J_min - J)). split; [apply Rmin_pos; lra|].
      intros y [[Hy1 Hy2] Hy3]. pose proof (Rmin_l a (J_min - J)). pose proof (Rmin_r a (J_min - J)).
      cbn in Hy3 |- *. unfold R_dist in *. assert (Y : y < J_min) by (apply Rabs_def2 in Hy3; lra).
      unfold dlog. destruct (Rlt_dec J_min y); [exfalso; lra|]. destruct (Rlt_dec J_min J); [exfalso; lra|].
      apply (H y). split; [split; [exact Hy1|exact Hy2]|]. cbn. unfold R_dist. lra.
    + subst J. destruct (Clin J_min eps He) as (a & Ha & H). destruct (Cinv J_min JP eps He) as (b & Hb & H').
      exists (Rmin a b). split; [apply Rmin_pos; assumption|]. intros y [[Hy1 Hy2] Hy3]. pose proof (Rmin_l a b). pose proof (Rmin_r a b).
      cbn in Hy3 |- *. unfold R_dist in *. unfold dlog. destruct (Rlt_dec J_min J_min); [exfalso; lra|].
      destruct (Rlt_dec J_min y) as [L|L].
      * replace ((1 - (J_min - J_min) / J_min) / J_min) with (/ J_min) by (field; lra). apply (H' y). split; [split; [exact Hy1|exact Hy2]|]. cbn. unfold R_dist. lra.
      * apply (H y). split; [split; [exact Hy1|exact Hy2]|]. cbn. unfold R_dist. lra.
    + destruct (Cinv J ltac:(lra) eps He) as (a & Ha & H). exists (Rmin a (J - J_min)). split; [apply Rmin_pos; lra|].
      intros y [[Hy1 Hy2] Hy3]. pose proof (Rmin_l a (J - J_min)). pose proof (Rmin_r a (J - J_min)).
      cbn in Hy3 |- *. unfold R_dist in *. assert (Y : J_min < y) by (apply Rabs_def2 in Hy3; lra).
      unfold dlog. destruct (Rlt_dec J_min y); [|exfalso; lra]. destruct (Rlt_dec J_min J); [|exfalso; lra].
      apply (H y). split; [split; [exact Hy1|exact Hy2]|]. cbn. unfold R_dist. lra.
  - intros a b Hab. destruct (MVT_cor2 safe_lnJ dlog a b Hab) as (c & E & _).
    { intros c _. apply is_derive_Reals. apply D. }
    pose proof (Pos c). nra.
Qed.
Print Assumptions C75_safe_log.

(** ** The energy density *)
Lemma safe_le_sub1 J : safe_lnJ J <= J - 1.
Proof.
  destruct Jm as [JP JE]. unfold safe_lnJ. destruct (Rlt_dec J_min J) as [L|L]; [apply ln_le_sub1; lra|].
  unfold ln_ext. pose proof (ln_le_sub1 J_min JP) as A.
  assert (S : (J - J_min) / J_min = 10000 * (J - J_min)) by (unfold J_min; field). rewrite S. nra.
Qed.
Lemma safe_neg J : J <= J_min -> safe_lnJ J <= - (3 / 2).
Proof.
  destruct Jm as [JP JE]. intros L. unfold safe_lnJ. destruct (Rlt_dec J_min J) as [L'|L']; [exfalso; lra|].
  unfold ln_ext. pose proof (ln_le_sub1 (/ 100) ltac:(lra)) as A.
  assert (B : ln J_min = ln (/ 100) + ln (/ 100)) by (rewrite <- ln_mult by lra; f_equal; unfold J_min; field).
  assert (S : (J - J_min) / J_min = 10000 * (J - J_min)) by (unfold J_min; field). rewrite S. nra.
Qed.
Lemma safe_one : safe_lnJ 1 = 0.
Proof. unfold safe_lnJ, J_min. destruct (Rlt_dec (/ 10000) 1); [apply ln_1|exfalso; lra]. Qed.
Lemma amgm3' x y z : 0 <= x -> 0 <= y -> 0 <= z -> 27 * (x * y * z) <= (x + y + z) * (x + y + z) * (x + y + z).
Proof.
  intros Hx Hy Hz.
  assert (0 <= x * ((y - z) * (y - z))) by (apply Rmult_le_pos; [exact Hx|apply Rle_0_sqr]).
  assert (0 <= y * ((z - x) * (z - x))) by (apply Rmult_le_pos; [exact Hy|apply Rle_0_sqr]).
  assert (0 <= z * ((x - y) * (x - y))) by (apply Rmult_le_pos; [exact Hz|apply Rle_0_sqr]).
  assert (0 <= (x + y + z) * ((x - y) * (x - y) + (y - z) * (y - z) + (z - x) * (z - x))) by (apply Rmult_le_pos; [lra|]; pose proof (Rle_0_sqr (x - y)); pose proof (Rle_0_sqr (y - z)); pose proof (Rle_0_sqr (z - x)); unfold Rsqr in *; lra).
  lra.
Qed.
Lemma cauchy3 a b c x y z : (a * x + b * y + c * z) * (a * x + b * y + c * z) <= (a * a + b * b + c * c) * (x * x + y * y + z * z).
Proof.
  pose proof (Rle_0_sqr (a * y - b * x)). pose proof (Rle_0_sqr (b * z - c * y)). pose proof (Rle_0_sqr (a * z - c * x)). unfold Rsqr in *. lra.
Qed.
Lemma hadamard3 F : det3 F * det3 F <=
  (F 0%nat 0%nat * F 0%nat 0%nat + F 0%nat 1%nat * F 0%nat 1%nat + F 0%nat 2%nat * F 0%nat 2%nat) *
  (F 1%nat 0%nat * F 1%nat 0%nat + F 1%nat 1%nat * F 1%nat 1%nat + F 1%nat 2%nat * F 1%nat 2%nat) *
  (F 2%nat 0%nat * F 2%nat 0%nat + F 2%nat 1%nat * F 2%nat 1%nat + F 2%nat 2%nat * F 2%nat 2%nat).
Proof.
  unfold det3. generalize (F 0%nat 0%nat) (F 0%nat 1%nat) (F 0%nat 2%nat) (F 1%nat 0%nat) (F 1%nat 1%nat) (F 1%nat 2%nat) (F 2%nat 0%nat) (F 2%nat 1%nat) (F 2%nat 2%nat).
  intros a b c d e f g h i.
  apply Rle_trans with ((a * a + b * b + c * c) * ((e * i - f * h) * (e * i - f * h) + (f * g - d * i) * (f * g - d * i) + (d * h - e * g) * (d * h - e * g))).
  - replace (a * (e * i - f * h) - b * (d * i - f * g) + c * (d * h - e * g)) with (a * (e * i - f * h) + b * (f * g - d * i) + c * (d * h - e * g)) by ring.
    apply cauchy3.
  - rewrite Rmult_assoc. apply Rmult_le_compat_l; [pose proof (Rle_0_sqr a); pose proof (Rle_0_sqr b); pose proof (Rle_0_sqr c); unfold Rsqr in *; lra|].
    pose proof (Rle_0_sqr (d * g + e * h + f * i)) as S. unfold Rsqr in S. lra.
Qed.
(** The undeformed state minimises the energy density among all displacement gradients, inverted ones
    included, in two dimensions (plane strain or not) and three. *)
Theorem C75_rest_minimal dim ps H mu lmbda : dim = 2%nat \/ dim = 3%nat -> 0 <= mu -> 0 <= lmbda ->
  energy_density dim ps (fun _ _ => 0) mu lmbda <= energy_density dim ps H mu lmbda.
Proof.
  intros D Hmu Hl.
  assert (Key : forall t0 t J : R, t0 / 2 <= t / 2 - safe_lnJ J ->
    psi ps mu lmbda t0 1 <= psi ps mu lmbda t J).
  { intros t0 t J K. unfold psi. rewrite safe_one. set (l := safe_lnJ J) in *.
    assert (0 <= lmbda / 2 * (l * l)) by (apply Rmult_le_pos; [lra|apply Rle_0_sqr]). assert (M : mu * (t0 / 2) <= mu * (t / 2 - l)) by (apply Rmult_le_compat_l; assumption). destruct ps; lra. }
  unfold energy_density. destruct D as [-> | ->]; cbn [Nat.eqb].
  - replace (det2 (defgrad (fun _ _ => 0))) with 1 by (unfold det2, defgrad, delta; cbn; ring).
    apply Key. set (F := defgrad H). set (J := det2 F).
    assert (T : 2 * J <= trFF 2 F).
    { unfold J, det2, trFF. cbn [rs]. generalize (F 0%nat 0%nat) (F 0%nat 1%nat) (F 1%nat 0%nat) (F 1%nat 1%nat). intros a b c d.
      pose proof (Rle_0_sqr (a - d)). pose proof (Rle_0_sqr (b + c)). unfold Rsqr in *. lra. }
    pose proof (safe_le_sub1 J). replace (trFF 2 (defgrad (fun _ _ => 0))) with 2 by (unfold trFF, defgrad, delta; cbn; ring). lra.
  - replace (det3 (defgrad (fun _ _ => 0))) with 1 by (unfold det3, defgrad, delta; cbn; ring).
    apply Key. set (F := defgrad H). set (J := det3 F).
    replace (trFF 3 (defgrad (fun _ _ => 0))) with 3 by (unfold trFF, defgrad, delta; cbn; ring).
    set (t := trFF 3 F).
    assert (T0 : 0 <= t) by (unfold t, trFF; apply rs_nonneg; intros; apply rs_nonneg; intros; apply Rle_0_sqr).
    destruct (Rlt_dec J_min J) as [L|L].
    + destruct Jm as [JP _]. assert (E : safe_lnJ J = ln J) by (unfold safe_lnJ; destruct (Rlt_dec J_min J); [reflexivity|contradiction]). rewrite E.
      assert (C : 27 * (J * J) <= t * t * t).
      { pose proof (hadamard3 F) as Hd. fold J in Hd. unfold t, trFF. cbn [rs].
        eapply Rle_trans; [apply Rmult_le_compat_l; [lra|exact Hd]|]. eapply Rle_trans; [apply amgm3'; (repeat apply Rplus_le_le_0_compat); apply Rle_0_sqr|]. apply Req_le. ring. }
      assert (JJ : 0 < J * J) by (apply Rmult_lt_0_compat; lra).
      assert (tp : 0 < t) by (destruct (Req_dec t 0) as [Z|Z]; [rewrite Z in C; lra|lra]).
      assert (X : ln (J * J) <= ln (t / 3 * (t / 3) * (t / 3))) by (apply ln_le; [exact JJ|lra]).
      rewrite !ln_mult in X by (try (apply Rmult_lt_0_compat); lra). pose proof (ln_le_sub1 (t / 3) ltac:(lra)). lra.
    + pose proof (safe_neg J ltac:(lra)). lra.
Qed.
Print Assumptions C75_rest_minimal.

(** Frame indifference: a rotation of the deformed configuration does not change the energy. *)
Definition orthogonal (dim : nat) (Q : nat -> nat -> R) : Prop :=
  forall m n, (m < dim)%nat -> (n < dim)%nat -> rs dim (fun k => Q k m * Q k n) = if Nat.eqb m n then 1 else 0.
Definition detd (dim : nat) (Q : nat -> nat -> R) : R := if Nat.eqb dim 2 then det2 Q else det3 Q.
Theorem C75_objective dim ps Q H H' mu lmbda : dim = 2%nat \/ dim = 3%nat -> orthogonal dim Q -> detd dim Q = 1 ->
  (forall i j, (i < dim)%nat -> (j < dim)%nat -> H' i j + delta i j = rs dim (fun k => Q i k * (H k j + delta k j))) ->
  energy_density dim ps H' mu lmbda = energy_density dim ps H mu lmbda.
Proof.
  intros D O DQ E. unfold energy_density.
  assert (T : trFF dim (defgrad H') = trFF dim (defgrad H)).
  { unfold trFF. apply rs_ext. intros i Hi. unfold defgrad.
    rewrite (rs_ext dim _ (fun k => rs dim (fun m => rs dim (fun n => (H m i + delta m i) * (H n i + delta n i) * (Q k m * Q k n))))).
    - rewrite rs_swap. apply rs_ext. intros m Hm. rewrite rs_swap.
      rewrite (rs_ext dim _ (fun n => (if Nat.eqb n m then 1 else 0) * ((H m i + delta m i) * (H n i + delta n i)))).
      + rewrite (rs_delta dim m (fun n => (H m i + delta m i) * (H n i + delta n i))) by exact Hm. reflexivity.
      + intros n Hn. rewrite rs_scale, O by assumption. rewrite (Nat.eqb_sym m n). ring.
    - intros k Hk. rewrite E by assumption. rewrite <- rs_scale_r. apply rs_ext. intros m Hm. rewrite <- rs_scale. apply rs_ext. intros n Hn. ring. }
  rewrite T. f_equal. destruct D as [-> | ->]; cbn [Nat.eqb]; unfold detd in DQ; cbn [Nat.eqb] in DQ.
  - unfold det2, defgrad. rewrite !E by lia. cbn [rs].
    transitivity (det2 Q * det2 (defgrad H)); [unfold det2, defgrad; ring|rewrite DQ; unfold det2, defgrad; ring].
  - unfold det3, defgrad. rewrite !E by lia. cbn [rs].
    transitivity (det3 Q * det3 (defgrad H)); [unfold det3, defgrad; ring|rewrite DQ; unfold det3, defgrad; ring].
Qed.
Print Assumptions C75_objective.

(** Specification: a plane displacement gradient seen in space. *)
Definition in_space (H : nat -> nat -> R) (i j : nat) : R := if (Nat.ltb i 2 && Nat.ltb j 2)%bool then H i j else 0.
(** Plane strain is the three-dimensional energy of the plane deformation, and without it the energy is lower by the constant [mu / 2]. *)
Theorem C75_plane_strain H mu lmbda :
  energy_density 2 true H mu lmbda = energy_density 3 false (in_space H) mu lmbda /\
  energy_density 2 true H mu lmbda = energy_density 2 false H mu lmbda + mu / 2.
Proof.
  split.
  - unfold energy_density. cbn [Nat.eqb]. unfold psi.
    replace (det3 (defgrad (in_space H))) with (det2 (defgrad H)) by (unfold det2, det3, defgrad, delta, in_space; cbn; ring).
    replace (trFF 3 (defgrad (in_space H))) with (trFF 2 (defgrad H) + 1) by (unfold trFF, defgrad, delta, in_space; cbn; ring). reflexivity.
  - unfold energy_density, psi. cbn [Nat.eqb]. lra.
Qed.
Print Assumptions C75_plane_strain.

(** ** The regularization *)
(** Specification: the documented energy [kr int (H:::H - (1/d) L.L)] on a cell, and its polar form. *)
Definition reg_form (d : cdata) (kr m : R) (u w : nat -> nat -> R) : R :=
  kr * m * rs (cd_nq d) (fun q => rs (cd_dim d) (fun v =>
    rs (cd_dim d) (fun k => rs (cd_dim d) (fun l => u_hess d u q v k l * u_hess d w q v k l))
    - / INR (cd_dim d) * (lapl_u d u q v * lapl_u d w q v)) * cd_JxW d q).
Definition documented_energy (d : cdata) (kr m : R) (u : nat -> nat -> R) : R := reg_form d kr m u u.
(** Work of the kernel's element vector on the nodal displacements [w]. *)
Definition reg_work (d : cdata) (kr m : R) (u w : nat -> nat -> R) : R :=
  rs (cd_nn d) (fun a => rs (cd_dim d) (fun v => w a v * reg_kernel d kr m u a v)).

Lemma lapl_w d w q v : lapl_u d w q v = rs (cd_nn d) (fun a => w a v * shape_lapl d q a).
Proof.
  unfold lapl_u, u_hess, shape_lapl. rewrite rs_swap. apply rs_ext. intros a Ha. rewrite rs_scale. reflexivity.
Qed.
Lemma reg_work_form d kr m u w : reg_work d kr m u w = reg_form d kr m u w.
Proof.
  unfold reg_work, reg_form, reg_kernel. cbv zeta.
  rewrite (rs_ext (cd_nn d) _ (fun a => kr * m * rs (cd_dim d) (fun v => rs (cd_nq d) (fun q =>
    w a v * ((rs (cd_dim d) (fun k => rs (cd_dim d) (fun l => u_hess d u q v k l * cd_hess d q a k l)) - lapl_u d u q v * shape_lapl d q a / INR (cd_dim d)) * cd_JxW d q))))).
  2:{ intros a Ha. rewrite <- rs_scale. apply rs_ext. intros v Hv. rewrite rs_scale. ring. }
  rewrite rs_scale. f_equal. rewrite rs_swap.
  rewrite (rs_ext (cd_dim d) _ (fun v => rs (cd_nq d) (fun q => rs (cd_nn d) (fun a =>
    w a v * ((rs (cd_dim d) (fun k => rs (cd_dim d) (fun l => u_hess d u q v k l * cd_hess d q a k l)) - lapl_u d u q v * shape_lapl d q a / INR (cd_dim d)) * cd_JxW d q))))) by (intros; apply rs_swap).
  rewrite rs_swap. apply rs_ext. intros q Hq. rewrite <- rs_scale_r. apply rs_ext. intros v Hv.
  rewrite (rs_ext (cd_nn d) _ (fun a => (w a v * rs (cd_dim d) (fun k => rs (cd_dim d) (fun l => u_hess d u q v k l * cd_hess d q a k l)) - / INR (cd_dim d) * (lapl_u d u q v * (w a v * shape_lapl d q a))) * cd_JxW d q)).
  2:{ intros a Ha. unfold Rdiv. ring. }
  rewrite rs_scale_r. f_equal. rewrite rs_minus. f_equal.
  - rewrite (rs_ext (cd_nn d) _ (fun a => rs (cd_dim d) (fun k => rs (cd_dim d) (fun l => u_hess d u q v k l * (w a v * cd_hess d q a k l))))).
    2:{ intros a Ha. rewrite <- rs_scale. apply rs_ext. intros k Hk. rewrite <- rs_scale. apply rs_ext. intros l Hl. ring. }
    rewrite rs_swap. apply rs_ext. intros k Hk. rewrite rs_swap. apply rs_ext. intros l Hl. rewrite rs_scale. reflexivity.
  - rewrite rs_scale. f_equal. rewrite rs_scale. f_equal. symmetry. apply lapl_w.
Qed.
Lemma u_hess_lin d u w t q v k l : u_hess d (fun a c => u a c + t * w a c) q v k l = u_hess d u q v k l + t * u_hess d w q v k l.
Proof. unfold u_hess. rewrite <- rs_scale, <- rs_plus. apply rs_ext. intros a Ha. ring. Qed.
Lemma lapl_lin d u w t q v : lapl_u d (fun a c => u a c + t * w a c) q v = lapl_u d u q v + t * lapl_u d w q v.
Proof. unfold lapl_u. rewrite <- rs_scale, <- rs_plus. apply rs_ext. intros k Hk. apply u_hess_lin. Qed.
Lemma reg_form_sym d kr m u w : reg_form d kr m u w = reg_form d kr m w u.
Proof.
  unfold reg_form. f_equal. apply rs_ext. intros q Hq. f_equal. apply rs_ext. intros v Hv. f_equal; [|ring].
  apply rs_ext. intros k Hk. apply rs_ext. intros l Hl. ring.
Qed.
Lemma reg_form_lin d kr m u w z t : reg_form d kr m (fun a c => u a c + t * w a c) z = reg_form d kr m u z + t * reg_form d kr m w z.
Proof.
  unfold reg_form. match goal with |- _ = kr * m * ?A + t * (kr * m * ?B) => transitivity (kr * m * (A + t * B)); [|ring] end. f_equal.
  rewrite <- rs_scale, <- rs_plus. apply rs_ext. intros q Hq. rewrite <- Rmult_assoc, <- Rmult_plus_distr_r. f_equal.
  rewrite <- rs_scale, <- rs_plus. apply rs_ext. intros v Hv. rewrite lapl_lin.
  rewrite (rs_ext (cd_dim d) _ (fun k => rs (cd_dim d) (fun l => u_hess d u q v k l * u_hess d z q v k l) + t * rs (cd_dim d) (fun l => u_hess d w q v k l * u_hess d z q v k l))).
  2:{ intros k Hk. rewrite <- rs_scale, <- rs_plus. apply rs_ext. intros l Hl. rewrite u_hess_lin. ring. }
  rewrite rs_plus, rs_scale. ring.
Qed.

(** The element vector is a symmetric bilinear form of displacement and test field (so its tangent is
    constant and symmetric), and vanishes off the medium. *)
Theorem C75_reg_symmetric d kr m u w : reg_work d kr m u w = reg_work d kr m w u /\ (m = 0 -> forall a v, reg_kernel d kr m u a v = 0).
Proof.
  split; [rewrite !reg_work_form; apply reg_form_sym|]. intros -> a v. unfold reg_kernel. ring.
Qed.
Print Assumptions C75_reg_symmetric.
(** FINDING: the derivative of the documented energy is twice the kernel: the code regularizes with half
    the documented coefficient. *)
Theorem C75_reg_energy d kr m u w :
  derivable_pt_lim (fun t => documented_energy d kr m (fun a c => u a c + t * w a c)) 0 (2 * reg_work d kr m u w) /\
  derivable_pt_lim (fun t => / 2 * documented_energy d kr m (fun a c => u a c + t * w a c)) 0 (reg_work d kr m u w).
Proof.
  assert (E : forall t, documented_energy d kr m (fun a c => u a c + t * w a c) =
    documented_energy d kr m u + 2 * t * reg_form d kr m u w + t * t * documented_energy d kr m w).
  { intros t. unfold documented_energy. rewrite reg_form_lin.
    rewrite (reg_form_sym d kr m u (fun a c => u a c + t * w a c)), (reg_form_sym d kr m w (fun a c => u a c + t * w a c)), !reg_form_lin, (reg_form_sym d kr m w u). ring. }
  rewrite reg_work_form. split; apply is_derive_Reals; (eapply is_derive_ext; [intros t; symmetry; rewrite E; reflexivity|]); (auto_derive; [exact I|]); field.
Qed.
Print Assumptions C75_reg_energy.
(** The regularization never releases energy, and stores none exactly when the Hessian of every component is
    spherical at every quadrature point; affine displacements are among those. *)
Lemma rs_const n c : rs n (fun _ => c) = INR n * c.
Proof. induction n as [|n IH]; [cbn; ring|]. cbn [rs]. rewrite IH, S_INR. ring. Qed.
Lemma reg_density d u q v : (0 < cd_dim d)%nat ->
  let n := INR (cd_dim d) in let L := lapl_u d u q v in
  rs (cd_dim d) (fun k => rs (cd_dim d) (fun l => u_hess d u q v k l * u_hess d u q v k l)) - / n * (L * L) =
  rs (cd_dim d) (fun k => rs (cd_dim d) (fun l => (u_hess d u q v k l - L / n * delta k l) * (u_hess d u q v k l - L / n * delta k l))).
Proof.
  intros Hd n L. assert (n0 : n <> 0) by (apply not_0_INR; lia). symmetry.
  rewrite (rs_ext (cd_dim d) _ (fun k => rs (cd_dim d) (fun l => u_hess d u q v k l * u_hess d u q v k l) - 2 * (L / n) * u_hess d u q v k k + L / n * (L / n))).
  2:{ intros k Hk. rewrite (rs_ext (cd_dim d) _ (fun l => u_hess d u q v k l * u_hess d u q v k l + (if Nat.eqb l k then 1 else 0) * (- (2 * (L / n) * u_hess d u q v k l) + L / n * (L / n)))).
      - rewrite rs_plus, (rs_delta (cd_dim d) k (fun l => - (2 * (L / n) * u_hess d u q v k l) + L / n * (L / n))) by exact Hk. ring.
      - intros l Hl. unfold delta. rewrite (Nat.eqb_sym k l). destruct (Nat.eqb l k); ring. }
  rewrite rs_plus, rs_minus, rs_scale.
  assert (C : rs (cd_dim d) (fun _ => L / n * (L / n)) = n * (L / n * (L / n))).
  { apply rs_const. }
  change (fun x => u_hess d u q v x x) with (fun k => u_hess d u q v k k).
  change (rs (cd_dim d) (fun k => u_hess d u q v k k)) with L.
  replace (rs (cd_dim d) (fun _ => L / n * (L / n))) with (n * (L / n * (L / n))). field. exact n0.
Qed.
Theorem C75_reg_semidefinite d kr m u : (0 < cd_dim d)%nat -> (forall q, (q < cd_nq d)%nat -> 0 < cd_JxW d q) -> 0 < kr * m ->
  0 <= reg_work d kr m u u /\
  (reg_work d kr m u u = 0 <-> forall q v k l, (q < cd_nq d)%nat -> (v < cd_dim d)%nat -> (k < cd_dim d)%nat -> (l < cd_dim d)%nat ->
     u_hess d u q v k l = lapl_u d u q v / INR (cd_dim d) * delta k l).
Proof.
  intros Hd HJ HK. rewrite reg_work_form. unfold reg_form.
  set (dens := fun q v => rs (cd_dim d) (fun k => rs (cd_dim d) (fun l => (u_hess d u q v k l - lapl_u d u q v / INR (cd_dim d) * delta k l) * (u_hess d u q v k l - lapl_u d u q v / INR (cd_dim d) * delta k l)))).
  rewrite (rs_ext (cd_nq d) _ (fun q => rs (cd_dim d) (fun v => dens q v) * cd_JxW d q)).
  2:{ intros q Hq. f_equal. apply rs_ext. intros v Hv. apply (reg_density d u q v Hd). }
  assert (Nk : forall q v k, 0 <= rs (cd_dim d) (fun l => (u_hess d u q v k l - lapl_u d u q v / INR (cd_dim d) * delta k l) * (u_hess d u q v k l - lapl_u d u q v / INR (cd_dim d) * delta k l))).
  { intros q v k. apply rs_nonneg. intros l Hl. apply Rle_0_sqr. }
  assert (Nd : forall q v, 0 <= dens q v) by (intros q v; apply rs_nonneg; intros k Hk; apply Nk).
  assert (Nq : forall q, (q < cd_nq d)%nat -> 0 <= rs (cd_dim d) (fun v => dens q v) * cd_JxW d q).
  { intros q Hq. apply Rmult_le_pos; [apply rs_nonneg; intros; apply Nd|]. specialize (HJ q Hq). lra. }
  split; [apply Rmult_le_pos; [lra|apply rs_nonneg; exact Nq]|]. split.
  - intros E q v k l Hq Hv Hk Hl. apply Rmult_integral in E. destruct E as [E|E]; [lra|].
    pose proof (rs_zero_inv _ _ Nq E q Hq) as E1. cbv beta in E1. apply Rmult_integral in E1. destruct E1 as [E1|E1]; [|specialize (HJ q Hq); lra].
    pose proof (rs_zero_inv _ _ (fun v _ => Nd q v) E1 v Hv) as E2. cbv beta in E2.
    pose proof (rs_zero_inv _ _ (fun k _ => Nk q v k) E2 k Hk) as E3. cbv beta in E3.
    pose proof (rs_zero_inv _ _ (fun l _ => Rle_0_sqr (u_hess d u q v k l - lapl_u d u q v / INR (cd_dim d) * delta k l)) E3 l Hl) as E4. cbv beta in E4.
    apply Rmult_integral in E4. lra.
  - intros Z. rewrite rs_zero; [ring|]. intros q Hq. rewrite rs_zero; [ring|]. intros v Hv. unfold dens. apply rs_zero. intros k Hk. apply rs_zero. intros l Hl.
    rewrite Z by assumption. ring.
Qed.
Print Assumptions C75_reg_semidefinite.
(** Affine displacements (rigid motions, homogeneous strain) give no regularization force, for elements whose
    second derivatives vanish on nodal constants and nodal coordinates. *)
Theorem C75_reg_affine d kr m (X : nat -> nat -> R) (b : nat -> R) (A : nat -> nat -> R) a v :
  (forall q k l, (k < cd_dim d)%nat -> (l < cd_dim d)%nat -> rs (cd_nn d) (fun n => cd_hess d q n k l) = 0) ->
  (forall q k l i, (k < cd_dim d)%nat -> (l < cd_dim d)%nat -> (i < cd_dim d)%nat -> rs (cd_nn d) (fun n => X n i * cd_hess d q n k l) = 0) ->
  reg_kernel d kr m (fun n c => b c + rs (cd_dim d) (fun i => A c i * X n i)) a v = 0.
Proof.
  intros H0 H1. set (u := fun n c => b c + rs (cd_dim d) (fun i => A c i * X n i)).
  assert (Z : forall q k l, (k < cd_dim d)%nat -> (l < cd_dim d)%nat -> u_hess d u q v k l = 0).
  { intros q k l Hk Hl. unfold u_hess, u.
    rewrite (rs_ext (cd_nn d) _ (fun n => b v * cd_hess d q n k l + rs (cd_dim d) (fun i => A v i * (X n i * cd_hess d q n k l)))).
    2:{ intros n Hn. rewrite Rmult_plus_distr_r. f_equal. rewrite <- rs_scale_r. apply rs_ext. intros i Hi. ring. }
    rewrite rs_plus, rs_scale, H0, rs_swap by assumption. rewrite (rs_zero (cd_dim d)); [ring|]. intros i Hi. rewrite rs_scale, H1 by assumption. ring. }
  unfold reg_kernel, lapl_u. rewrite rs_zero; [ring|]. intros q Hq.
  rewrite (rs_zero (cd_dim d) (fun k => rs (cd_dim d) (fun l => u_hess d u q v k l * cd_hess d q a k l))).
  2:{ intros k Hk. apply rs_zero. intros l Hl. rewrite Z by assumption. ring. }
  rewrite (rs_zero (cd_dim d) (fun k => u_hess d u q v k k)) by (intros; apply Z; assumption). unfold Rdiv. ring.
Qed.
Print Assumptions C75_reg_affine.

(** ** The factory *)
Theorem C75_create : (forall ps, create_plane_strain 3 ps = false /\ create_plane_strain 2 ps = ps) /\
  (forall g x, cell_modulus g x 0 = x /\ forall m, m <> 0 -> cell_modulus g x m = g * x) /\
  (forall kr l r, kr_coeff kr l r = kr * l * r ^ 2).
Proof.
  split; [intros ps; split; reflexivity|]. split; [|intros; unfold kr_coeff; ring]. intros g x. split.
  - unfold cell_modulus. destruct (Req_EM_T 0 0); [reflexivity|contradiction].
  - intros m Hm. unfold cell_modulus. destruct (Req_EM_T m 0); [contradiction|ring].
Qed.
Print Assumptions C75_create.

(** One 6-node triangle with a single quadrature point meets the hypotheses; the regularization sees the
    displacement [xy] but not [x^2 + y^2]. *)
Definition tri6 : cdata :=
  {| cd_dim := 2; cd_nn := 6; cd_nq := 1; cd_JxW := fun _ => / 2;
     cd_hess := fun _ a k l => nth l (nth k (nth a [[[4; 4]; [4; 4]]; [[4; 0]; [0; 0]]; [[0; 0]; [0; 4]];
       [[-8; -4]; [-4; 0]]; [[0; 4]; [4; 0]]; [[0; -4]; [-4; -8]]] []) []) 0 |}.
Definition tri6_x (a i : nat) : R := nth i (nth a [[0; 0]; [1; 0]; [0; 1]; [/ 2; 0]; [/ 2; / 2]; [0; / 2]] []) 0.
Definition tri6_u (f : R -> R -> R) (a v : nat) : R := if Nat.eqb v 0 then f (tri6_x a 0) (tri6_x a 1) else 0.
Example C75_example :
  (0 < cd_dim tri6)%nat /\ (forall q, (q < cd_nq tri6)%nat -> 0 < cd_JxW tri6 q) /\
  (forall q k l, (k < 2)%nat -> (l < 2)%nat -> rs (cd_nn tri6) (fun n => cd_hess tri6 q n k l) = 0) /\
  (forall q k l i, (k < 2)%nat -> (l < 2)%nat -> (i < cd_dim tri6)%nat -> rs (cd_nn tri6) (fun n => tri6_x n i * cd_hess tri6 q n k l) = 0) /\
  reg_work tri6 3 1 (tri6_u (fun x y => x * x + y * y)) (tri6_u (fun x y => x * x + y * y)) = 0 /\
  reg_work tri6 3 1 (tri6_u (fun x y => x * y)) (tri6_u (fun x y => x * y)) = 3 /\
  orthogonal 2 (fun i j => nth j (nth i [[0; - (1)]; [1; 0]] []) 0) /\ detd 2 (fun i j => nth j (nth i [[0; - (1)]; [1; 0]] []) 0) = 1.
Proof.
  split; [cbn; lia|]. split; [intros; cbn; lra|].
  split; [intros q k l Hk Hl; destruct k as [|[|k]]; destruct l as [|[|l]]; try lia; cbn; ring|].
  split; [intros q k l i Hk Hl Hi; cbn in Hi; destruct k as [|[|k]]; destruct l as [|[|l]]; destruct i as [|[|i]]; try lia; cbn; field|].
  split; [unfold reg_work, reg_kernel, lapl_u, shape_lapl, u_hess, tri6_u, tri6_x; cbn; field|].
  split; [unfold reg_work, reg_kernel, lapl_u, shape_lapl, u_hess, tri6_u, tri6_x; cbn; field|].
  split; [|unfold detd, det2; cbn; ring].
  intros m n Hm Hn. destruct m as [|[|m]]; destruct n as [|[|n]]; try lia; cbn; ring.
Qed.
