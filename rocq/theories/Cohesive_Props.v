(** C71: the cohesive potentials. *)
From Coq Require Import Reals List Lia Lra Psatz Arith.
From Coquelicot Require Import Coquelicot.
From Verif Require Import Cohesive_Model.
Import ListNotations.
Open Scope R_scope.

(** ** The exponential law *)
Definition dc (Gamma sigma_c : R) : R := Gamma / (exp 1 * sigma_c).
Lemma dc_pos G s : 0 < G -> 0 < s -> 0 < dc G s.
Proof. intros HG Hs. unfold dc. apply Rdiv_lt_0_compat; [exact HG|]. apply Rmult_lt_0_compat; [apply exp_pos|exact Hs]. Qed.
Lemma tols : 0 < tol15 /\ 0 < tol30 /\ tol15 * tol15 = tol30.
Proof. unfold tol15, tol30. split; [|split]; lra. Qed.

Lemma exp_sq x : 0 <= x -> 1 + x + x * x / 4 <= exp x.
Proof.
  intros H. pose proof (exp_ineq1_le (x / 2)) as E. replace x with (x / 2 + x / 2) at 4 by field. rewrite exp_plus. nra.
Qed.
Lemma one_plus_exp x : 0 <= x -> 0 < (1 + x) * exp (- x) <= 1.
Proof.
  intros H. pose proof (exp_pos (- x)) as P. split; [apply Rmult_lt_0_compat; lra|].
  rewrite exp_Ropp in *. pose proof (exp_pos x). pose proof (exp_ineq1_le x) as E.
  apply Rmult_le_reg_r with (exp x); [assumption|]. rewrite Rmult_assoc, Rinv_l by lra. lra.
Qed.

(** Loading branch: the derivative (traction) is [Gamma / dc^2 delta exp(-delta / dc)]. *)
Lemma exp_load_derive G c d : c <> 0 -> derivable_pt_lim (exp_load G c) d (G / (c * c) * (d * exp (- d / c))).
Proof.
  intros Hc. apply is_derive_Reals. unfold exp_load. auto_derive; [exact I|].
  replace (- d * / c) with (- d / c) by reflexivity. set (e := exp (- d / c)).  field. exact Hc.
Qed.
Lemma exp_load_bounds G c d : 0 < G -> 0 < c -> 0 <= d -> 0 <= exp_load G c d < G.
Proof.
  intros HG Hc Hd. unfold exp_load. assert (X : 0 <= d / c) by (apply Rmult_le_pos; [exact Hd|left; apply Rinv_0_lt_compat; exact Hc]).
  pose proof (one_plus_exp _ X) as [A B]. replace (- d / c) with (- (d / c)) by (field; lra). split; [apply Rmult_le_pos; lra|nra].
Qed.
Lemma exp_load_increasing G c a b : 0 < G -> 0 < c -> 0 <= a < b -> exp_load G c a < exp_load G c b.
Proof.
  intros HG Hc [Ha Hab].
  assert (P : forall t, a < t < b -> 0 < G / (c * c) * (t * exp (- t / c))).
  { intros t [T _]. apply Rmult_lt_0_compat; [apply Rdiv_lt_0_compat; [exact HG|nra]|]. apply Rmult_lt_0_compat; [lra|apply exp_pos]. }
  destruct (MVT_cor2 (exp_load G c) (fun t => G / (c * c) * (t * exp (- t / c))) a b Hab) as (t & E & T).
  { intros t _. apply exp_load_derive. lra. }
  specialize (P t T). nra.
Qed.

(** On the loading branch the energy is zero at closure, strictly increasing, below [Gamma] and as close
    to it as one likes; the traction is its derivative, at most [sigma_c], and equal to [sigma_c]
    exactly at [dc = Gamma / (e sigma_c)]. *)
Theorem C71_exponential_loading G s : 0 < G -> 0 < s ->
  (forall d dmax, dmax <= d -> exponential_potential G s d dmax = exp_load G (dc G s) d) /\
  exp_load G (dc G s) 0 = 0 /\
  (forall d, 0 <= d -> 0 <= exp_load G (dc G s) d < G) /\
  (forall a b, 0 <= a < b -> exp_load G (dc G s) a < exp_load G (dc G s) b) /\
  (forall r, 0 < r -> exists d, 0 <= d /\ G - r < exp_load G (dc G s) d) /\
  exists traction : R -> R,
    (forall d, derivable_pt_lim (exp_load G (dc G s)) d (traction d)) /\
    (forall d, 0 <= d -> 0 <= traction d <= s) /\
    (forall d, 0 <= d -> (traction d = s <-> d = dc G s)).
Proof.
  intros HG Hs. pose proof (dc_pos G s HG Hs) as Hc. destruct tols as [T1 [T2 T3]].
  split; [|split; [|split; [|split; [|split]]]].
  - intros d dmax H. unfold exponential_potential. fold (dc G s). unfold where_ge.
    destruct (Rle_dec (dmax - tol15) d) as [L|L]; [reflexivity|exfalso; lra].
  - unfold exp_load. replace (- 0 / dc G s) with 0 by (field; lra). rewrite exp_0. field. lra.
  - intros d Hd. apply exp_load_bounds; assumption.
  - intros a b H. apply exp_load_increasing; assumption.
  - intros r Hr. set (x := 4 * G / r + 1). assert (X : 0 < x) by (unfold x; pose proof (Rdiv_lt_0_compat (4 * G) r ltac:(lra) Hr); lra).
    exists (x * dc G s). split; [apply Rmult_le_pos; lra|]. unfold exp_load.
    replace (x * dc G s / dc G s) with x by (field; lra). replace (- (x * dc G s) / dc G s) with (- x) by (field; lra).
    assert (B : (1 + x) * exp (- x) < r / G); [|assert (G * ((1 + x) * exp (- x)) < r) by (apply Rmult_lt_reg_r with (/ G); [apply Rinv_0_lt_compat; exact HG|]; replace (G * ((1 + x) * exp (- x)) * / G) with ((1 + x) * exp (- x)) by (field; lra); exact B); lra].
    rewrite exp_Ropp. pose proof (exp_sq x ltac:(lra)) as E. pose proof (exp_pos x) as P.
    assert (Q : (1 + x) * / exp x <= 4 / x).
    { apply Rmult_le_reg_r with (x * exp x); [apply Rmult_lt_0_compat; lra|].
      replace ((1 + x) * / exp x * (x * exp x)) with ((1 + x) * x) by (field; lra).
      replace (4 / x * (x * exp x)) with (4 * exp x) by (field; lra). nra. }
    apply Rle_lt_trans with (4 / x); [exact Q|].
    apply Rmult_lt_reg_r with (x * G); [apply Rmult_lt_0_compat; lra|].
    replace (4 / x * (x * G)) with (4 * G) by (field; lra). replace (r / G * (x * G)) with (r * x) by (field; lra).
    unfold x. rewrite Rmult_plus_distr_l. replace (r * (4 * G / r)) with (4 * G) by (field; lra). lra.
  - exists (fun d => G / (dc G s * dc G s) * (d * exp (- d / dc G s))).
    assert (Key : forall d, 0 <= d -> G / (dc G s * dc G s) * (d * exp (- d / dc G s)) = s * (d / dc G s * exp (1 - d / dc G s))).
    { intros d _. replace (1 - d / dc G s) with (1 + - d / dc G s) by (field; lra). rewrite exp_plus. unfold dc. field.
      pose proof (exp_pos 1). repeat split; lra. }
    split; [intros d; apply exp_load_derive; lra|]. split.
    + intros d Hd. rewrite Key by exact Hd. set (y := d / dc G s).
      assert (Y : 0 <= y) by (apply Rmult_le_pos; [exact Hd|left; apply Rinv_0_lt_compat; exact Hc]).
      pose proof (exp_pos (1 - y)) as P. split; [apply Rmult_le_pos; [lra|apply Rmult_le_pos; lra]|].
      assert (B : y * exp (1 - y) <= 1); [|nra].
      replace (1 - y) with (- (y - 1)) by ring. rewrite exp_Ropp. pose proof (exp_ineq1_le (y - 1)) as E. pose proof (exp_pos (y - 1)).
      apply Rmult_le_reg_r with (exp (y - 1)); [assumption|]. rewrite Rmult_assoc, Rinv_l by lra. lra.
    + intros d Hd. rewrite Key by exact Hd. set (y := d / dc G s).
      assert (Dy : d = y * dc G s) by (unfold y; field; lra). split.
      * intros E. assert (E1 : y * exp (1 - y) = 1) by (apply (Rmult_eq_reg_l s); lra).
        destruct (Req_dec y 1) as [->|N]; [lra|]. exfalso.
        assert (N' : y - 1 <> 0) by lra. pose proof (exp_ineq1 (y - 1) N') as X.
        assert (Z : exp (1 - y) * exp (y - 1) = 1) by (rewrite <- exp_plus; replace (1 - y + (y - 1)) with 0 by ring; apply exp_0).
        pose proof (exp_pos (1 - y)). pose proof (exp_pos (y - 1)).
        assert (Ey : y = exp (y - 1)).
        { transitivity (y * (exp (1 - y) * exp (y - 1))); [rewrite Z; ring|]. rewrite <- Rmult_assoc, E1. ring. }
        lra.
      * intros E. assert (Y1 : y = 1) by (unfold y; rewrite E; field; lra). rewrite Y1. replace (1 - 1) with 0 by ring. rewrite exp_0. ring.
Qed.
Print Assumptions C71_exponential_loading.

(** Below the historical maximum the energy is the documented secant law, between zero and the energy at
    the maximum; so the energy is between 0 and [Gamma] for every opening and history. *)
Theorem C71_exponential_unloading G s d dmax : 0 < G -> 0 < s -> 0 <= d -> d < dmax - tol15 ->
  exponential_potential G s d dmax = exp_load G (dc G s) dmax / (dmax * dmax + tol30) * (d * d) /\
  0 <= exponential_potential G s d dmax <= exp_load G (dc G s) dmax.
Proof.
  intros HG Hs Hd Hm. pose proof (dc_pos G s HG Hs) as Hc. destruct tols as [T1 [T2 T3]].
  assert (E : exponential_potential G s d dmax = exp_load G (dc G s) dmax / (dmax * dmax + tol30) * (d * d)).
  { unfold exponential_potential. fold (dc G s). unfold where_ge, where_lt.
    destruct (Rle_dec (dmax - tol15) d) as [L|L]; [exfalso; lra|]. destruct (Rlt_dec tol15 dmax) as [L2|L2]; [reflexivity|exfalso; lra]. }
  split; [exact E|]. rewrite E.
  pose proof (exp_load_bounds G (dc G s) dmax HG Hc ltac:(lra)) as [B1 B2].
  assert (P : 0 < dmax * dmax + tol30) by nra.
  assert (R : 0 <= d * d / (dmax * dmax + tol30) <= 1).
  { split; [apply Rmult_le_pos; [nra|left; apply Rinv_0_lt_compat; exact P]|].
    apply Rmult_le_reg_r with (dmax * dmax + tol30); [exact P|]. unfold Rdiv. rewrite Rmult_assoc, Rinv_l by lra. nra. }
  replace (exp_load G (dc G s) dmax / (dmax * dmax + tol30) * (d * d)) with (exp_load G (dc G s) dmax * (d * d / (dmax * dmax + tol30))) by (field; lra).
  split; [apply Rmult_le_pos; lra|]. nra.
Qed.
Print Assumptions C71_exponential_unloading.

Theorem C71_exponential_bounds G s d dmax : 0 < G -> 0 < s -> 0 <= d -> 0 <= exponential_potential G s d dmax < G.
Proof.
  intros HG Hs Hd. pose proof (dc_pos G s HG Hs) as Hc. destruct (Rlt_dec d (dmax - tol15)) as [L|L].
  - destruct (C71_exponential_unloading G s d dmax HG Hs Hd L) as [_ B]. destruct tols as [T1 _].
    pose proof (exp_load_bounds G (dc G s) dmax HG Hc ltac:(lra)). lra.
  - assert (E : exponential_potential G s d dmax = exp_load G (dc G s) d).
    { unfold exponential_potential. fold (dc G s). unfold where_ge. destruct (Rle_dec (dmax - tol15) d) as [L'|L']; [reflexivity|exfalso; lra]. }
    rewrite E. apply exp_load_bounds; assumption.
Qed.
Print Assumptions C71_exponential_bounds.

(** FINDING: the unloading secant is in the energy, not in the traction. With a history [dmax] the
    slope of the unloading branch at the maximum is about [2 phi(dmax) / dmax], not the traction reached in
    loading. At [dmax = dc], where the loading traction is [sigma_c], it exceeds [1.3 sigma_c]: the
    traction jumps up when unloading starts. And unloading to zero gives back the whole energy: nothing is
    dissipated. *)
Theorem C71_unloading_traction_jump G s : 0 < G -> 0 < s -> tol15 < dc G s / 1000 ->
  let c := dc G s in
  let unload := fun d => exp_load G c c / (c * c + tol30) * (d * d) in
  (forall d, 0 <= d < c - tol15 -> exponential_potential G s d c = unload d) /\
  derivable_pt_lim (exp_load G c) c s /\
  exists slope, derivable_pt_lim unload c slope /\ 13 / 10 * s < slope.
Proof.
  intros HG Hs Hsmall. cbv zeta. pose proof (dc_pos G s HG Hs) as Hc. destruct tols as [T1 [T2 T3]].
  split; [|split].
  - intros d [H1 H2]. destruct (C71_exponential_unloading G s d (dc G s) HG Hs H1 H2) as [E _]. exact E.
  - destruct (C71_exponential_loading G s HG Hs) as (_ & _ & _ & _ & _ & t & D & _ & Eq).
    specialize (D (dc G s)). destruct (Eq (dc G s) ltac:(lra)) as [_ E]. rewrite (E eq_refl) in D. exact D.
  - set (c := dc G s) in *. exists (exp_load G c c / (c * c + tol30) * (2 * c)). split.
    + apply is_derive_Reals. auto_derive; [exact I|]. ring.
    + unfold exp_load. replace (- c / c) with (-1) by (field; lra). replace (c / c) with 1 by (field; lra).
      assert (Hcc : c * (exp 1 * s) = G) by (unfold c, dc; field; pose proof (exp_pos 1); lra).
      assert (E1 : exp (-1) = / exp 1) by (rewrite <- exp_Ropp; f_equal; lra). rewrite E1.
      assert (e1 : 267 / 100 < exp 1).
      { pose proof (exp_sq (1 / 16) ltac:(lra)) as X. set (h := exp (1 / 16)) in *.
        assert (H16 : exp 1 = h * h * (h * h) * (h * h * (h * h)) * (h * h * (h * h) * (h * h * (h * h)))).
        { unfold h. rewrite <- !exp_plus. f_equal. field. }
        assert (h2 : 17 / 16 * (17 / 16) <= h * h) by nra.
        assert (Z1 : 11309 / 10000 < h * h) by nra. set (h2' := h * h) in *. clearbody h2'.
        assert (Z2 : 12789 / 10000 < h2' * h2') by nra. set (h4 := h2' * h2') in *. clearbody h4.
        assert (Z3 : 1635 / 1000 < h4 * h4) by nra. set (h8 := h4 * h4) in *. clearbody h8.
        rewrite H16. nra. }
      pose proof (exp_pos 1) as ep. set (E := exp 1) in *. clearbody E.
      replace (G * (1 - (1 + 1) * / E) / (c * c + tol30) * (2 * c)) with (s * (2 * (E - 2)) * (c * c / (c * c + tol30))).
      2:{ rewrite <- Hcc. field. split; nra. }
      assert (Rt : 1 - 1 / 1000000 <= c * c / (c * c + tol30)).
      { apply Rmult_le_reg_r with (c * c + tol30); [nra|]. unfold Rdiv at 2. rewrite Rmult_assoc, Rinv_l by nra.
        assert (tol30 <= c * c / 1000000) by (rewrite <- T3; nra). nra. }
      assert (0 < s * (2 * (E - 2))) by (apply Rmult_lt_0_compat; lra).
      apply Rlt_le_trans with (s * (2 * (E - 2)) * (1 - 1 / 1000000)); [nra|]. apply Rmult_le_compat_l; lra.
Qed.
Print Assumptions C71_unloading_traction_jump.

(** Nothing is dissipated: once the interface has opened past the tolerance, closing it brings the
    energy back to zero, under either law and whatever the history. *)
Theorem C71_no_dissipation G s dmax : 0 < dmax -> tol15 < dmax ->
  exponential_potential G s 0 dmax = 0 /\ bilinear_potential G s 0 dmax = 0.
Proof.
  intros H0 H. unfold exponential_potential, bilinear_potential, where_ge. cbv zeta.
  destruct (Rle_dec (dmax - tol15) 0) as [L|L]; [exfalso; lra|]. split; rewrite Rmult_0_l, Rmult_0_r; reflexivity.
Qed.
Print Assumptions C71_no_dissipation.

(** ** The bilinear law *)
Lemma bil_0 G s : G <> 0 -> s <> 0 -> bil_delta_0 G s = 1.
Proof. intros HG Hs. unfold bil_delta_0, bil_delta_f. field. split; assumption. Qed.

(** FINDING: the elastic limit is the number 1, whatever the material and the unit of length; and the
    formula of the docstring is the final opening itself. *)
Theorem C71_bilinear_elastic_limit G s : 0 < G -> 0 < s ->
  bil_delta_0 G s = 1 /\ (let k0 := s * s / (2 * G) in s / k0 = bil_delta_f G s).
Proof.
  intros HG Hs. split; [apply bil_0; lra|]. cbv zeta. unfold bil_delta_f. field. split; lra.
Qed.
Print Assumptions C71_bilinear_elastic_limit.

(** With [sigma_c <= 2 Gamma] (a final opening of at least 1) the loading energy is between 0 and [Gamma],
    monotone, [Gamma] from the final opening on; below the elastic limit its slope is [sigma_c delta], and
    in the softening part it is at most [sigma_c]. *)
Theorem C71_bilinear_loading G s : 0 < s -> s <= 2 * G ->
  let f := bil_load G s in
  (forall d dmax, dmax <= d -> bilinear_potential G s d dmax = f d) /\
  f 0 = 0 /\
  (forall d, 0 <= d -> 0 <= f d <= G) /\
  (forall a b, 0 <= a <= b -> f a <= f b) /\
  (forall d, bil_delta_f G s <= d -> f d = G) /\
  (forall d, 0 <= d < 1 -> derivable_pt_lim f d (s * d)) /\
  (forall d, 1 < d < bil_delta_f G s -> exists t, derivable_pt_lim f d t /\ 0 <= t <= s).
Proof.
  intros Hs H f. assert (HG : 0 < G) by lra. destruct tols as [T1 [T2 T3]].
  assert (E0 : bil_delta_0 G s = 1) by (apply bil_0; lra).
  set (F := bil_delta_f G s) in *.
  assert (EF : s * F = 2 * G) by (unfold F, bil_delta_f; field; lra).
  assert (HF : 1 <= F) by nra.
  set (D := F - 1 + tol30). assert (HD : 0 < D) by (unfold D; lra).
  set (iD := / D). assert (HiD : 0 < iD) by (apply Rinv_0_lt_compat; exact HD). assert (DiD : D * iD = 1) by (apply Rinv_r; lra).
  assert (Hf : forall d, f d = where_lt d 1 (1 / 2 * s * (d * d)) (where_lt d F (G - 1 / 2 * s * ((F - d) * (F - d)) * iD) G)).
  { intros d. unfold f, bil_load. fold F. rewrite E0. unfold where_lt. fold D. unfold iD, Rdiv.
    destruct (Rlt_dec d 1); [|reflexivity]. field. }
  assert (Mono : forall a b, 0 <= a <= b -> f a <= f b).
  { intros a b [Ha Hab]. rewrite !Hf. unfold where_lt.
    assert (Sq : forall d, 1 <= d -> d < F -> (F - d) * (F - d) * iD <= F - d).
    { intros d D1 D2. assert ((F - d) * iD <= 1); [|nra]. rewrite <- DiD. unfold D. apply Rmult_le_compat_r; lra. }
    destruct (Rlt_dec a 1) as [A|A]; destruct (Rlt_dec b 1) as [B|B]; try (exfalso; lra).
    - assert (a * a <= b * b) by nra. nra.
    - assert (a * a <= 1) by nra. destruct (Rlt_dec b F) as [BF|BF]; [specialize (Sq b ltac:(lra) BF)|nra].
      assert (Y : s * (a * a + (F - b) * (F - b) * iD) <= s * F) by (apply Rmult_le_compat_l; lra). lra.
    - destruct (Rlt_dec a F) as [AF|AF]; destruct (Rlt_dec b F) as [BF|BF]; try (exfalso; lra); try lra.
      + assert (X : (F - b) * (F - b) <= (F - a) * (F - a)) by nra. assert (0 < s * iD) by nra. nra.
      + assert (0 <= s * iD * ((F - a) * (F - a))) by (apply Rmult_le_pos; [nra|nra]). lra. }
  assert (Z : f 0 = 0). { rewrite Hf. unfold where_lt. destruct (Rlt_dec 0 1); [ring|exfalso; lra]. }
  assert (Full : forall d, F <= d -> f d = G).
  { intros d Hd. rewrite Hf. unfold where_lt. destruct (Rlt_dec d 1); [exfalso; lra|]. destruct (Rlt_dec d F); [exfalso; lra|reflexivity]. }
  assert (Loc : forall g d l (e : posreal), (forall y, Rabs (y - d) < e -> f y = g y) -> is_derive g d l -> is_derive f d l).
  { intros g d l e Hg Hd. apply (is_derive_ext_loc g); [|exact Hd]. exists e. intros y Hy. symmetry. apply Hg. exact Hy. }
  split; [|split; [|split; [|split; [|split; [|split]]]]].
  - intros d dmax Hd. unfold bilinear_potential, where_ge. fold f. destruct (Rle_dec (dmax - tol15) d); [reflexivity|exfalso; lra].
  - exact Z.
  - intros d Hd. split; [rewrite <- Z; apply Mono; lra|]. rewrite <- (Full (Rmax d F) (Rmax_r _ _)). apply Mono. split; [exact Hd|apply Rmax_l].
  - exact Mono.
  - exact Full.
  - intros d [D1 D2]. apply is_derive_Reals.
    apply (Loc (fun y => 1 / 2 * s * (y * y)) d (s * d) (mkposreal (1 - d) ltac:(lra))).
    + intros y Hy. cbn in Hy. apply Rabs_def2 in Hy. rewrite Hf. unfold where_lt. destruct (Rlt_dec y 1); [reflexivity|exfalso; lra].
    + auto_derive; [exact I|]. field.
  - intros d [D1 D2]. exists (s * (F - d) * iD). split.
    + apply is_derive_Reals.
      apply (Loc (fun y => G - 1 / 2 * s * ((F - y) * (F - y)) * iD) d _ (mkposreal (Rmin (d - 1) (F - d)) (Rmin_pos (d - 1) (F - d) ltac:(lra) ltac:(lra)))).
      * intros y Hy. cbn in Hy. apply Rabs_def2 in Hy. pose proof (Rmin_l (d - 1) (F - d)). pose proof (Rmin_r (d - 1) (F - d)).
        rewrite Hf. unfold where_lt. destruct (Rlt_dec y 1); [exfalso; lra|]. destruct (Rlt_dec y F); [reflexivity|exfalso; lra].
      * auto_derive; [exact I|]. field.
    + assert ((F - d) * iD <= 1) by (rewrite <- DiD; unfold D; apply Rmult_le_compat_r; lra).
      assert (0 <= (F - d) * iD) by (apply Rmult_le_pos; lra). split; nra.
Qed.
Print Assumptions C71_bilinear_loading.

(** FINDING: with [sigma_c > 2 Gamma] (as with the values [Gamma=15, sigma_c=20000] of the docstrings) the
    energy rises above the fracture energy, up to [sigma_c / 2], and drops back to [Gamma] at opening 1. *)
Theorem C71_bilinear_overshoot G s : 0 < G -> 2 * G < s ->
  (forall d, 0 <= d < 1 -> 2 * G / s < d * d -> G < bilinear_potential G s d 0) /\
  (forall r, 0 < r -> exists d, 0 <= d < 1 /\ s / 2 - r < bilinear_potential G s d 0) /\
  bilinear_potential G s 1 0 = G.
Proof.
  intros HG H. destruct tols as [T1 [T2 T3]].
  assert (E0 : bil_delta_0 G s = 1) by (apply bil_0; lra).
  assert (Ev : forall d, 0 <= d -> d < 1 -> bilinear_potential G s d 0 = s / 2 * (d * d)).
  { intros d D0 D1. unfold bilinear_potential, bil_load, where_ge, where_lt. rewrite E0.
    destruct (Rle_dec (0 - tol15) d); [|exfalso; lra]. destruct (Rlt_dec d 1); [field|exfalso; lra]. }
  split; [|split].
  - intros d [D0 D1] Hd. rewrite Ev by assumption. assert (2 * G / s * s = 2 * G) by (field; lra). nra.
  - intros r Hr. exists (Rmax 0 (1 - r / s)). assert (0 < r / s) by (apply Rdiv_lt_0_compat; lra).
    assert (B : 0 <= Rmax 0 (1 - r / s) < 1) by (split; [apply Rmax_l|apply Rmax_lub_lt; lra]).
    split; [exact B|]. rewrite Ev by (apply B). assert (M : 1 - r / s <= Rmax 0 (1 - r / s)) by apply Rmax_r.
    set (m := Rmax 0 (1 - r / s)) in *. assert (r / s * s = r) by (field; lra). set (q := r / s) in *. clearbody m q.
    assert (1 - 2 * q < m * m); [|nra]. destruct (Rle_dec q 1); nra.
  - unfold bilinear_potential, bil_load, where_ge, where_lt. rewrite E0.
    destruct (Rle_dec (0 - tol15) 1); [|exfalso; lra]. destruct (Rlt_dec 1 1); [exfalso; lra|].
    destruct (Rlt_dec 1 (bil_delta_f G s)) as [L|L]; [|reflexivity].
    exfalso. unfold bil_delta_f in L. assert (2 * G / s < 1); [|lra]. apply Rmult_lt_reg_r with s; [lra|]. unfold Rdiv. rewrite Rmult_assoc, Rinv_l by lra. lra.
Qed.
Print Assumptions C71_bilinear_overshoot.

Theorem C71_bilinear_energy_refuted : exists G s d1 d2,
  0 < G /\ 0 < s /\ 0 <= d1 < d2 /\ bilinear_potential G s d2 0 = G /\ 100 * G < bilinear_potential G s d1 0.
Proof.
  exists 15, 20000, (1 / 2), 1. destruct (C71_bilinear_overshoot 15 20000 ltac:(lra) ltac:(lra)) as (_ & _ & E).
  split; [lra|]. split; [lra|]. split; [lra|]. split; [exact E|]. destruct tols as [T1 _].
  unfold bilinear_potential, bil_load, where_ge, where_lt. rewrite (bil_0 15 20000) by lra.
  destruct (Rle_dec (0 - tol15) (1 / 2)); [|exfalso; lra]. destruct (Rlt_dec (1 / 2) 1); [lra|exfalso; lra].
Qed.
Print Assumptions C71_bilinear_energy_refuted.

(** Unloading is the secant of the energy, also for the bilinear law. *)
Theorem C71_bilinear_unloading G s d dmax : 0 < s -> s <= 2 * G -> 0 <= d -> d < dmax - tol15 ->
  bilinear_potential G s d dmax = bil_load G s dmax / (dmax * dmax + tol30) * (d * d) /\
  0 <= bilinear_potential G s d dmax <= bil_load G s dmax.
Proof.
  intros Hs H Hd Hm. destruct tols as [T1 [T2 T3]].
  assert (E : bilinear_potential G s d dmax = bil_load G s dmax / (dmax * dmax + tol30) * (d * d)).
  { unfold bilinear_potential. unfold where_ge.
    destruct (Rle_dec (dmax - tol15) d) as [L|L]; [exfalso; lra|]. unfold where_lt at 1. destruct (Rlt_dec tol15 dmax) as [L2|L2]; [reflexivity|exfalso; lra]. }
  split; [exact E|]. rewrite E.
  destruct (C71_bilinear_loading G s Hs H) as (_ & _ & B & _). specialize (B dmax ltac:(lra)). destruct B as [B1 B2].
  assert (P : 0 < dmax * dmax + tol30) by nra.
  assert (R : 0 <= d * d / (dmax * dmax + tol30) <= 1).
  { split; [apply Rmult_le_pos; [nra|left; apply Rinv_0_lt_compat; exact P]|].
    apply Rmult_le_reg_r with (dmax * dmax + tol30); [exact P|]. unfold Rdiv. rewrite Rmult_assoc, Rinv_l by lra. nra. }
  replace (bil_load G s dmax / (dmax * dmax + tol30) * (d * d)) with (bil_load G s dmax * (d * d / (dmax * dmax + tol30))) by (field; lra).
  split; [apply Rmult_le_pos; lra|]. nra.
Qed.
Print Assumptions C71_bilinear_unloading.

(** The hypotheses are met: one material for each law and branch. *)
Example C71_example :
  (0 < 15 /\ 0 < 20000) /\ tol15 < dc 15 20000 / 1000 /\ (0 < 3 /\ 3 <= 2 * 2) /\ bil_delta_f 2 3 = 4 / 3 /\
  0 <= 1 / 2 < 1 - tol15 /\ 2 * 15 < 20000.
Proof.
  split; [lra|]. split; [|split; [lra|split; [unfold bil_delta_f; lra|unfold tol15; lra]]].
  unfold dc. assert (exp 1 <= 3) by apply exp_le_3. pose proof (exp_pos 1).
  assert (/ 60000 <= / (exp 1 * 20000)) by (apply Rinv_le_contravar; lra). unfold tol15. unfold Rdiv. lra.
Qed.
