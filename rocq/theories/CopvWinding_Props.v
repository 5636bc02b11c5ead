(** C82: wall directions and winding of the pressure vessel (feax/mechanics/copv.py). *)
From Coq Require Import String Reals List Arith Bool Lia Lra Psatz.
From Verif Require Import Copv_Model Copv_Props CopvCells_Props.
Import ListNotations.
Open Scope R_scope.

(** ** Specification: right-handed orthonormal frames *)
Definition frame (a b c : vec) : Prop :=
  vdot a a = 1 /\ vdot b b = 1 /\ vdot c c = 1 /\ vdot a b = 0 /\ vdot a c = 0 /\ vdot b c = 0 /\ vcross a b = c.

Ltac vunf := unfold vdot, vcross, vadd, vsub, vscale, vx, vy, vz in *; cbn [fst snd] in *.
Lemma vunit_dot p : p <> v0 -> vdot (vunit p) (vunit p) = 1.
Proof.
  intros N. assert (P : 0 < vdot p p).
  { destruct p as [[a b] c]. unfold vdot, vx, vy, vz. cbn [fst snd]. pose proof (Rle_0_sqr a). pose proof (Rle_0_sqr b). pose proof (Rle_0_sqr c). unfold Rsqr in *.
    destruct (Req_dec a 0) as [->|Na]; [|assert (0 < a * a) by (apply Rsqr_pos_lt in Na; exact Na); lra]. destruct (Req_dec b 0) as [->|Nb]; [|assert (0 < b * b) by (apply Rsqr_pos_lt in Nb; exact Nb); lra].
    destruct (Req_dec c 0) as [->|Nc]; [exfalso; apply N; reflexivity|assert (0 < c * c) by (apply Rsqr_pos_lt in Nc; exact Nc); lra]. }
  unfold vunit, vnorm. replace (vdot (vscale (/ sqrt (vdot p p)) p) (vscale (/ sqrt (vdot p p)) p)) with (/ (sqrt (vdot p p) * sqrt (vdot p p)) * vdot p p).
  - rewrite sqrt_sqrt by lra. apply Rinv_l. lra.
  - rewrite Rinv_mult. generalize (/ sqrt (vdot p p)). intros q. vunf. ring.
Qed.
Lemma vunit_perp p q : vdot p q = 0 -> vdot (vunit p) q = 0.
Proof. intros H. unfold vunit. replace (vdot (vscale (/ vnorm p) p) q) with (/ vnorm p * vdot p q) by (vunf; ring). rewrite H. ring. Qed.
Lemma cross_frame h e : vdot h h = 1 -> vdot e e = 1 -> vdot h e = 0 -> frame (vcross h e) h e.
Proof.
  intros Hh He Hp. destruct h as [[h1 h2] h3]. destruct e as [[e1 e2] e3]. unfold frame. vunf.
  assert (L : (h2 * e3 - h3 * e2) * (h2 * e3 - h3 * e2) + (h3 * e1 - h1 * e3) * (h3 * e1 - h1 * e3) + (h1 * e2 - h2 * e1) * (h1 * e2 - h2 * e1) = 1).
  { transitivity ((h1 * h1 + h2 * h2 + h3 * h3) * (e1 * e1 + e2 * e2 + e3 * e3) - (h1 * e1 + h2 * e2 + h3 * e3) * (h1 * e1 + h2 * e2 + h3 * e3)); [ring|rewrite Hh, He, Hp; ring]. }
  split; [exact L|]. split; [exact Hh|]. split; [exact He|]. split; [ring|]. split; [ring|]. split; [exact Hp|].
  apply (f_equal2 pair); [apply (f_equal2 pair)|].
  - transitivity (e1 * (h1 * h1 + h2 * h2 + h3 * h3) - h1 * (h1 * e1 + h2 * e2 + h3 * e3)); [ring|rewrite Hh, Hp; ring].
  - transitivity (e2 * (h1 * h1 + h2 * h2 + h3 * h3) - h2 * (h1 * e1 + h2 * e2 + h3 * e3)); [ring|rewrite Hh, Hp; ring].
  - transitivity (e3 * (h1 * h1 + h2 * h2 + h3 * h3) - h3 * (h1 * e1 + h2 * e2 + h3 * e3)); [ring|rewrite Hh, Hp; ring].
Qed.
(** ** The wall triad *)
(** The triad of any cell is a right-handed orthonormal frame, whenever none of the three normalisations divides by 0. *)
Theorem C82_triad nodes axis : let e := vsub (vmean (skipn 4 nodes)) (vmean (firstn 4 nodes)) in let c := vmean nodes in
  let r := vsub c (vscale (vdot c axis) axis) in let h := vcross axis (vunit r) in
  e <> v0 -> vsub h (vscale (vdot h (vunit e)) (vunit e)) <> v0 ->
  let '(t_m, t_h, e3, rad) := cell_triad nodes axis in frame t_m t_h e3 /\ e3 = vunit e /\ rad = vnorm r.
Proof.
  intros e c r h He Hh. unfold cell_triad. fold e c r h. cbv zeta. split; [|split; reflexivity]. apply cross_frame; [apply vunit_dot, Hh|apply vunit_dot, He|].
  apply vunit_perp. pose proof (vunit_dot e He) as U. generalize dependent (vunit e). intros u Hu U. transitivity (vdot h u - vdot h u * vdot u u); [vunf; ring|rewrite U; ring].
Qed.
Print Assumptions C82_triad.
Definition mid_theta (g : geom) (j : nat) : R := (theta g j + theta g (j + 1)) / 2.
Definition half_step (g : geom) : R := PI / INR (g_nc g).
Lemma vmean4 a b c d : vmean [a; b; c; d] = ((vx a + vx b + vx c + vx d) / 4, (vy a + vy b + vy c + vy d) / 4, (vz a + vz b + vz c + vz d) / 4).
Proof. unfold vmean. rewrite vsum_comp. cbn [length INR fold_right]. unfold vscale, vx, vy, vz. cbn [fst snd]. veq field. Qed.
Lemma vmean8 a b c d e f g h : vmean [a; b; c; d; e; f; g; h] = ((vx a + vx b + vx c + vx d + vx e + vx f + vx g + vx h) / 8, (vy a + vy b + vy c + vy d + vy e + vy f + vy g + vy h) / 8, (vz a + vz b + vz c + vz d + vz e + vz f + vz g + vz h) / 8).
Proof. unfold vmean. rewrite vsum_comp. cbn [length INR fold_right]. unfold vscale, vx, vy, vz. cbn [fst snd]. veq field. Qed.
Lemma mean_cos g j : (0 < g_nc g)%nat -> (cos (theta g j) + cos (theta g (j + 1))) / 2 = cos (half_step g) * cos (mid_theta g j) /\ (sin (theta g j) + sin (theta g (j + 1))) / 2 = cos (half_step g) * sin (mid_theta g j).
Proof.
  intros H. pose proof (theta_step g j H) as S. set (m := mid_theta g j). set (h := half_step g). assert (E0 : theta g j = m - h) by (unfold m, h, mid_theta, half_step; lra). assert (E1 : theta g (j + 1) = m + h) by (unfold m, h, mid_theta, half_step; lra).
  rewrite E0, E1, cos_minus, cos_plus, sin_minus, sin_plus. split; field.
Qed.
Lemma half_cos g : (3 <= g_nc g)%nat -> 0 < cos (half_step g).
Proof. intros H. destruct (angle_small _ H) as [A B]. pose proof PI_RGT_0. apply cos_gt_0; unfold half_step; lra. Qed.
(** The mid-latitude of a row: 0 on the cylinder. *)
Definition row_lat (g : geom) (i : nat) : R := if (i <? g_mc g)%nat then 0 else (lat g (i - g_mc g) + lat g (i - g_mc g + 1)) / 2.
Lemma row_normal g i : valid g -> (i < g_mc g + g_md g)%nat -> exists q, 0 < q /\
  (snd (fst (station g i)) + snd (fst (station g (i + 1)))) / 2 = q * cos (row_lat g i) /\ (snd (station g i) + snd (station g (i + 1))) / 2 = q * sin (row_lat g i) /\ 0 <= row_lat g i < PI / 2.
Proof.
  intros V Hi. pose proof V as (_ & _ & _ & _ & _ & _ & Hm & _). pose proof PI_RGT_0. unfold row_lat. destruct (Nat.ltb_spec i (g_mc g)) as [B|B].
  - rewrite !station_cyl by lia. cbn [fst snd]. exists 1. rewrite cos_0, sin_0. repeat split; lra.
  - assert (E : exists l, i = (g_mc g + l)%nat /\ (l + 1 <= g_md g)%nat) by (exists (i - g_mc g)%nat; lia). destruct E as (l & -> & Hl). replace (g_mc g + l + 1)%nat with (g_mc g + (l + 1))%nat by lia. replace (g_mc g + l - g_mc g)%nat with l by lia.
    rewrite !station_dome by lia. cbn [fst snd]. pose proof (lat_bounds g l V ltac:(lia)) as L0. pose proof (lat_bounds g (l + 1) V Hl) as L1. pose proof (lam_max_bounds g V) as Lm.
    assert (Lp : lat g l < lat g (l + 1)).
    { unfold lat. rewrite plus_INR. cbn [INR]. apply Rmult_lt_compat_r; [apply Rinv_0_lt_compat, lt_0_INR; lia|]. apply Rmult_lt_compat_l; lra. }
    set (m := (lat g l + lat g (l + 1)) / 2). set (h := (lat g (l + 1) - lat g l) / 2). exists (cos h). assert (E0 : lat g l = m - h) by (unfold m, h; lra). assert (E1 : lat g (l + 1) = m + h) by (unfold m, h; lra).
    split; [apply cos_gt_0; unfold h; lra|]. rewrite E0, E1, cos_minus, cos_plus, sin_minus, sin_plus. split; [field|]. split; [field|]. unfold m. lra.
Qed.
(** On the mesh: the hoop direction of a cell is the horizontal tangent at its mid-angle, the normal lies in the
    meridian plane of that angle and points outwards, the meridional direction is in that plane too and points towards
    the equator; on the cylinder they are exactly tangent, radial and axial. The radius is the distance of the cell
    centre from the axis. *)
Theorem C82_mesh_triad g i j ke : valid g -> cell_range g i j ke ->
  let '(t_m, t_h, e3, r) := cell_triad (cell_nodes g (cell_at g i j ke)) (g_axis g) in let th := 2 * PI * (INR j + 1 / 2) / INR (g_nc g) in
  frame t_m t_h e3 /\ t_h = (- sin th, cos th, 0) /\
  (exists nr nz, 0 < nr /\ 0 <= nz /\ e3 = (nr * cos th, nr * sin th, nz) /\ t_m = (nz * cos th, nz * sin th, - nr) /\ ((i < g_mc g)%nat -> nr = 1 /\ nz = 0)) /\
  0 < r.
Proof.
  intros V (Hi & Hj & Hk). pose proof V as (Ha & Ht & Hg & Hl & Hr & Hc & Hm & Hd & Hf & Ax).
  assert (Eth : 2 * PI * (INR j + 1 / 2) / INR (g_nc g) = mid_theta g j) by (unfold mid_theta, theta; rewrite plus_INR; cbn [INR]; field; apply not_0_INR; lia).
  cbv zeta. rewrite Eth. set (th := mid_theta g j). destruct (mean_cos g j ltac:(lia)) as [Mc Ms]. fold th in Mc, Ms. pose proof (half_cos g Hc) as K. set (kap := cos (half_step g)) in *.
  destruct (row_normal g i V ltac:(lia)) as (q & Q0 & Qc & Qs & Lr). set (lam := row_lat g i) in *.
  pose proof (thickness_pos g ke V Hk) as T. pose proof (layers_nonneg g ke V) as D0. pose proof (layers_nonneg g (ke + 1) V) as D1.
  set (nodes := cell_nodes g (cell_at g i j ke)). set (e := vsub (vmean (skipn 4 nodes)) (vmean (firstn 4 nodes))).
  set (d0 := nth ke (d_layers g) 0) in *. set (d1 := nth (ke + 1) (d_layers g) 0) in *.
  assert (En : nodes = [(rk g i ke * cos (theta g j), rk g i ke * sin (theta g j), zk g i ke); (rk g i ke * cos (theta g (j + 1)), rk g i ke * sin (theta g (j + 1)), zk g i ke);
     (rk g (i + 1) ke * cos (theta g (j + 1)), rk g (i + 1) ke * sin (theta g (j + 1)), zk g (i + 1) ke); (rk g (i + 1) ke * cos (theta g j), rk g (i + 1) ke * sin (theta g j), zk g (i + 1) ke);
     (rk g i (ke + 1) * cos (theta g j), rk g i (ke + 1) * sin (theta g j), zk g i (ke + 1)); (rk g i (ke + 1) * cos (theta g (j + 1)), rk g i (ke + 1) * sin (theta g (j + 1)), zk g i (ke + 1));
     (rk g (i + 1) (ke + 1) * cos (theta g (j + 1)), rk g (i + 1) (ke + 1) * sin (theta g (j + 1)), zk g (i + 1) (ke + 1)); (rk g (i + 1) (ke + 1) * cos (theta g j), rk g (i + 1) (ke + 1) * sin (theta g j), zk g (i + 1) (ke + 1))]).
  { unfold nodes. rewrite cell_nodes_eq. rewrite !mesh_point_next, !mesh_point_rz by (repeat split; lia). reflexivity. }
  set (rho := (d1 - d0) * q) in *. assert (Rho : 0 < rho) by (apply Rmult_lt_0_compat; lra).
  assert (Ee : e = (rho * (kap * cos lam) * cos th, rho * (kap * cos lam) * sin th, rho * sin lam)).
  { unfold e. rewrite En. cbn [skipn firstn]. rewrite !vmean4. unfold vsub, vx, vy, vz. cbn [fst snd].
    assert (DR : (rk g i (ke + 1) - rk g i ke + (rk g (i + 1) (ke + 1) - rk g (i + 1) ke)) / 2 = rho * cos lam /\ (zk g i (ke + 1) - zk g i ke + (zk g (i + 1) (ke + 1) - zk g (i + 1) ke)) / 2 = rho * sin lam).
    { unfold rk, zk. fold d0 d1. revert Qc Qs. destruct (station g i) as [[[r0 z0] n0] m0]. destruct (station g (i + 1)) as [[[r1 z1] n1] m1]. cbn [fst snd]. intros Qc Qs. unfold rho.
      split; [transitivity ((d1 - d0) * ((n0 + n1) / 2)); [field|rewrite Qc; ring]|transitivity ((d1 - d0) * ((m0 + m1) / 2)); [field|rewrite Qs; ring]]. }
    destruct DR as [DR DZ]. apply (f_equal2 pair); [apply (f_equal2 pair)|].
    - transitivity ((rk g i (ke + 1) - rk g i ke + (rk g (i + 1) (ke + 1) - rk g (i + 1) ke)) / 2 * ((cos (theta g j) + cos (theta g (j + 1))) / 2)); [field|rewrite DR, Mc; ring].
    - transitivity ((rk g i (ke + 1) - rk g i ke + (rk g (i + 1) (ke + 1) - rk g (i + 1) ke)) / 2 * ((sin (theta g j) + sin (theta g (j + 1))) / 2)); [field|rewrite DR, Ms; ring].
    - rewrite <- DZ. field. }
  set (rm := (rk g i ke + rk g (i + 1) ke + rk g i (ke + 1) + rk g (i + 1) (ke + 1)) / 4).
  assert (Rm : 0 < rm).
  { assert (Rk : forall l k, (l <= g_mc g + g_md g)%nat -> 0 <= rk g l k /\ ((l < g_mc g + g_md g)%nat -> 0 < rk g l k)).
    { intros l k Hl1. unfold rk. pose proof (layers_nonneg g k V) as Dk. destruct (row_cases g l Hl1) as [B|(m & -> & Hm1)]; [rewrite station_cyl by exact B; split; intros; lra|].
      rewrite station_dome by lia. pose proof (lat_bounds g m V ltac:(lia)) as L0. pose proof (lam_max_bounds g V) as Lm. pose proof PI_RGT_0.
      replace (g_a g * cos (lat g m) + nth k (d_layers g) 0 * cos (lat g m)) with ((g_a g + nth k (d_layers g) 0) * cos (lat g m)) by ring.
      split; [apply Rmult_le_pos; [lra|apply cos_ge_0; lra]|]. intros Hne. apply Rmult_lt_0_compat; [lra|]. apply cos_gt_0; [lra|].
      assert (lat g m < acos (g_rp g / g_a g)); [|lra]. unfold lat. assert (N : 0 < INR (g_md g)) by (apply lt_0_INR; lia). apply (Rmult_lt_reg_r (INR (g_md g))); [exact N|]. unfold Rdiv. rewrite Rmult_assoc, Rinv_l, Rmult_1_r by lra.
      apply Rmult_lt_compat_l; [lra|]. apply lt_INR. lia. }
    pose proof (Rk i ke ltac:(lia)) as [_ A1]. pose proof (Rk i (ke + 1)%nat ltac:(lia)) as [_ A2]. pose proof (Rk (i + 1)%nat ke ltac:(lia)) as [A3 _]. pose proof (Rk (i + 1)%nat (ke + 1)%nat ltac:(lia)) as [A4 _].
    specialize (A1 ltac:(lia)). specialize (A2 ltac:(lia)). unfold rm. lra. }
  assert (Ec : exists zc, vmean nodes = (rm * kap * cos th, rm * kap * sin th, zc)).
  { eexists. rewrite En, vmean8. unfold vx, vy, vz. cbn [fst snd]. apply (f_equal2 pair); [apply (f_equal2 pair)|reflexivity].
    - transitivity (rm * ((cos (theta g j) + cos (theta g (j + 1))) / 2)); [unfold rm; field|rewrite Mc; ring].
    - transitivity (rm * ((sin (theta g j) + sin (theta g (j + 1))) / 2)); [unfold rm; field|rewrite Ms; ring]. }
  destruct Ec as (zc & Ec). set (rv := vsub (vmean nodes) (vscale (vdot (vmean nodes) (g_axis g)) (g_axis g))).
  assert (Er : rv = (rm * kap * cos th, rm * kap * sin th, 0)) by (unfold rv; rewrite Ec, Ax; vunf; veq ring).
  pose proof (sc1 th) as Sc.
  assert (Nr : vnorm rv = rm * kap).
  { unfold vnorm. rewrite Er. vunf. replace (rm * kap * cos th * (rm * kap * cos th) + rm * kap * sin th * (rm * kap * sin th) + 0 * 0) with (Rsqr (rm * kap) * (sin th * sin th + cos th * cos th)) by (unfold Rsqr; ring).
    rewrite Sc, Rmult_1_r. apply sqrt_Rsqr. apply Rlt_le, Rmult_lt_0_compat; assumption. }
  assert (Rk0 : 0 < rm * kap) by (apply Rmult_lt_0_compat; assumption).
  assert (Eu : vunit rv = (cos th, sin th, 0)) by (unfold vunit; rewrite Nr, Er; unfold vscale, vx, vy, vz; cbn [fst snd]; veq (field; lra)).
  set (h := vcross (g_axis g) (vunit rv)). assert (Eh : h = (- sin th, cos th, 0)) by (unfold h; rewrite Eu, Ax; vunf; veq ring).
  assert (Hh : vdot h (vunit e) = 0) by (rewrite Eh, Ee; unfold vunit; generalize (/ vnorm (rho * (kap * cos lam) * cos th, rho * (kap * cos lam) * sin th, rho * sin lam)); intros w; vunf; ring).
  assert (Hs : vsub h (vscale (vdot h (vunit e)) (vunit e)) = h) by (rewrite Hh; destruct h as [[h1 h2] h3]; vunf; veq ring).
  assert (U1 : vunit h = h).
  { unfold vunit, vnorm. replace (vdot h h) with 1; [rewrite sqrt_1, Rinv_1; destruct h as [[h1 h2] h3]; vunf; veq ring|]. rewrite Eh. vunf. rewrite <- Sc. ring. }
  assert (Cl : 0 < cos lam) by (pose proof PI_RGT_0; apply cos_gt_0; lra). assert (Sl : 0 <= sin lam) by (pose proof PI_RGT_0; apply sin_ge_0; lra).
  assert (N0 : e <> v0).
  { intros E. assert (X : vdot e e = 0) by (rewrite E; vunf; unfold v0; cbn [fst snd]; ring). rewrite Ee in X. vunf.
    assert (P1 : 0 < rho * (kap * cos lam)) by (apply Rmult_lt_0_compat; [exact Rho|apply Rmult_lt_0_compat; assumption]).
    assert (X' : Rsqr (rho * (kap * cos lam)) * (sin th * sin th + cos th * cos th) + Rsqr (rho * sin lam) = 0) by (rewrite <- X; unfold Rsqr; ring). rewrite Sc, Rmult_1_r in X'.
    pose proof (Rsqr_pos_lt (rho * (kap * cos lam)) ltac:(lra)). pose proof (Rle_0_sqr (rho * sin lam)). lra. }
  unfold cell_triad. fold e. fold rv. fold h. cbv zeta. rewrite Hs, U1.
  assert (Hdot : vdot h h = 1) by (rewrite Eh; vunf; rewrite <- Sc; ring).
  split; [apply cross_frame; [exact Hdot|apply vunit_dot, N0|exact Hh]|]. split; [exact Eh|].
  split; [|rewrite Nr; exact Rk0].
  assert (Np : 0 < vnorm e) by (unfold vnorm; apply sqrt_lt_R0; pose proof (vunit_dot e N0) as U; destruct (Rle_lt_dec (vdot e e) 0) as [L|L]; [exfalso|exact L]; unfold vunit, vnorm in U; rewrite (sqrt_neg_0 _ L) in U; rewrite Rinv_0 in U; vunf; lra).
  exists (/ vnorm e * (rho * (kap * cos lam))), (/ vnorm e * (rho * sin lam)). assert (Ip : 0 < / vnorm e) by (apply Rinv_0_lt_compat, Np).
  split; [apply Rmult_lt_0_compat; [exact Ip|apply Rmult_lt_0_compat; [exact Rho|apply Rmult_lt_0_compat; assumption]]|].
  split; [apply Rmult_le_pos; [lra|apply Rmult_le_pos; lra]|].
  assert (Ue : vunit e = (/ vnorm e * (rho * (kap * cos lam)) * cos th, / vnorm e * (rho * (kap * cos lam)) * sin th, / vnorm e * (rho * sin lam))).
  { unfold vunit. generalize (/ vnorm e). intros w. rewrite Ee. vunf. veq ring. }
  split; [exact Ue|]. split.
  - rewrite Ue, Eh. generalize (/ vnorm e * (rho * (kap * cos lam))) (/ vnorm e * (rho * sin lam)). intros u w. vunf. apply (f_equal2 pair); [apply (f_equal2 pair); ring|]. transitivity (- u * (sin th * sin th + cos th * cos th)); [ring|rewrite Sc; ring].
  - intros Hcy. assert (L0 : lam = 0) by (unfold lam, row_lat; destruct (Nat.ltb_spec i (g_mc g)); [reflexivity|lia]). rewrite L0, sin_0, cos_0 in *. split; [|ring].
    unfold vnorm. rewrite Ee. vunf. replace (rho * (kap * 1) * cos th * (rho * (kap * 1) * cos th) + rho * (kap * 1) * sin th * (rho * (kap * 1) * sin th) + rho * 0 * (rho * 0)) with (Rsqr (rho * kap) * (sin th * sin th + cos th * cos th)) by (unfold Rsqr; ring).
    assert (0 < rho * kap) by (apply Rmult_lt_0_compat; assumption). rewrite Sc, Rmult_1_r, sqrt_Rsqr by lra. field. lra.
Qed.
Print Assumptions C82_mesh_triad.

(** ** Plies *)
Definition is_hoop (p : string * R) : bool := (fst p =? "hoop")%string.
Definition hoops_before (layup : list (string * R)) (k : nat) : nat := length (filter is_hoop (firstn k layup)).
(** The in-plane direction at angle [ang] from the meridian towards the hoop direction. *)
Definition at_angle (t_m t_h : vec) (ang : R) : vec := vadd (vscale (cos ang) t_m) (vscale (sin ang) t_h).
(** The angle of ply k from the meridian. *)
Definition ply_angle (alpha : R) (is_dome drop : bool) (layup : list (string * R)) (k : nat) : R :=
  let p := nth k layup (""%string, 0) in
  if is_hoop p then if drop && is_dome then (if Nat.even (hoops_before layup k) then alpha else - alpha) else PI / 2
  else snd p * alpha.
Lemma even_mod n : Nat.even n = (n mod 2 =? 0)%nat.
Proof.
  destruct (Nat.even n) eqn:E.
  - apply Nat.even_spec in E. destruct E as [m ->]. rewrite Nat.mul_comm, Nat.mod_mul by lia. reflexivity.
  - destruct (Nat.eqb_spec (n mod 2) 0) as [H|H]; [|reflexivity]. apply Nat.mod_divides in H; [|lia]. destruct H as [m ->]. rewrite Nat.even_mul in E. discriminate.
Qed.
Lemma rotate_frame a b c ang : frame a b c -> frame (at_angle a b ang) (vadd (vscale (- sin ang) a) (vscale (cos ang) b)) c.
Proof.
  intros (A & B & C & D & E & F & X). pose proof (sc1 ang) as S. set (s := sin ang) in *. set (k := cos ang) in *. unfold frame, at_angle. fold s k.
  assert (Lin : forall p q x y u v, vdot (vadd (vscale p x) (vscale q y)) (vadd (vscale u x) (vscale v y)) = p * u * vdot x x + (p * v + q * u) * vdot x y + q * v * vdot y y) by (intros; vunf; ring).
  assert (Lin1 : forall p q x y z, vdot (vadd (vscale p x) (vscale q y)) z = p * vdot x z + q * vdot y z) by (intros; vunf; ring).
  rewrite !Lin, !Lin1, A, B, D, E, F. repeat split; try lra; try (rewrite <- S; ring); try ring.
  rewrite <- X. transitivity (vscale (s * s + k * k) (vcross a b)); [vunf; veq ring|rewrite S; destruct (vcross a b) as [[x y] z]; vunf; veq ring].
Qed.
Lemma hoop_axes a b : (b, vscale (-1) a) = helical_axes a b (PI / 2).
Proof. unfold helical_axes. rewrite cos_PI2, sin_PI2. destruct a as [[a1 a2] a3]. destruct b as [[b1 b2] b3]. vunf. apply (f_equal2 pair); veq ring. Qed.
Lemma ply_axes_nth a b alpha dome drop : forall layup h k, (k < length layup)%nat ->
  nth k (ply_axes a b alpha dome drop h layup) (v0, v0) =
  helical_axes a b (let p := nth k layup (""%string, 0) in
    if is_hoop p then if drop && dome then (if Nat.even (h + hoops_before layup k) then alpha else - alpha) else PI / 2 else snd p * alpha).
Proof.
  induction layup as [|[kind sign] rest IH]; intros h k Hk; [cbn in Hk; lia|]. cbn [ply_axes]. destruct k as [|k].
  - cbn [nth]. unfold is_hoop, hoops_before. cbn [fst snd firstn filter length]. rewrite Nat.add_0_r, even_mod. destruct (kind =? "hoop")%string; cbn [nth]; [|reflexivity].
    destruct drop, dome; cbn [andb]; try apply hoop_axes. f_equal. destruct (h mod 2 =? 0)%nat; ring.
  - cbn [nth]. assert (Hk' : (k < length rest)%nat) by (cbn in Hk; lia).
    assert (E : hoops_before ((kind, sign) :: rest) (S k) = ((if (kind =? "hoop")%string then 1 else 0) + hoops_before rest k)%nat).
    { unfold hoops_before. cbn [firstn filter]. unfold is_hoop at 1. cbn [fst]. destruct (kind =? "hoop")%string; reflexivity. }
    rewrite E. destruct (kind =? "hoop")%string; cbn [nth]; rewrite IH by exact Hk'; cbv zeta; [replace (S h + hoops_before rest k)%nat with (h + (1 + hoops_before rest k))%nat by lia|]; reflexivity.
Qed.
Lemma ply_axes_length a b alpha dome drop layup : forall h, length (ply_axes a b alpha dome drop h layup) = length layup.
Proof. induction layup as [|[kind sign] rest IH]; intros h; [reflexivity|]. cbn [ply_axes]. destruct (kind =? "hoop")%string; cbn [length]; rewrite IH; reflexivity. Qed.
(** Ply k of a cell is wound at its angle in the wall plane, and its axes are a rotation of the wall triad about the
    normal: a right-handed orthonormal frame with the wall normal as third axis. *)
Theorem C82_frames nodes axis dome r_p layup drop : let '(t_m, t_h, e3, r) := cell_triad nodes axis in frame t_m t_h e3 ->
  let fr := ply_frames nodes dome axis r_p layup drop in length fr = length layup /\
  forall k, (k < length layup)%nat -> let '(f1, f2, n) := nth k fr (v0, v0, v0) in
    frame f1 f2 n /\ n = e3 /\ f1 = at_angle t_m t_h (ply_angle (winding_angle r_p r) dome drop layup k).
Proof.
  unfold ply_frames. destruct (cell_triad nodes axis) as [[[a b] c] r]. intros F. cbv zeta. split; [rewrite map_length; apply ply_axes_length|].
  intros k Hk. rewrite (map_nth_in _ _ (v0, v0)) by (rewrite ply_axes_length; exact Hk). rewrite (ply_axes_nth a b _ dome drop layup 0 k Hk). cbn [Nat.add].
  fold (ply_angle (winding_angle r_p r) dome drop layup k). unfold helical_axes. cbn [fst snd]. split; [apply rotate_frame, F|]. split; reflexivity.
Qed.
Print Assumptions C82_frames.
(** Clairaut's relation: at radius r the helical plies make the angle alpha with the meridian for which
    r sin alpha = r_p; inside the polar opening they turn hoop-wise. *)
Theorem C82_clairaut r_p r : 0 < r -> 0 <= r_p -> let alpha := winding_angle r_p r in
  0 <= alpha <= PI / 2 /\ (r_p <= r -> r * sin alpha = r_p) /\ (r <= r_p -> alpha = PI / 2).
Proof.
  intros Hr Hp alpha. assert (D : 0 <= r_p / r) by (apply Rmult_le_pos; [exact Hp|left; apply Rinv_0_lt_compat; exact Hr]).
  assert (C : 0 <= clip01 (r_p / r) <= 1) by (unfold clip01, Rmin, Rmax; repeat destruct (Rle_dec _ _); lra).
  pose proof PI_RGT_0. split.
  - unfold alpha, winding_angle. pose proof (asin_bound (clip01 (r_p / r))) as B. split; [|lra].
    destruct (Rle_lt_dec 0 (asin (clip01 (r_p / r)))) as [A|A]; [exact A|]. pose proof (sin_lt_0_var (asin (clip01 (r_p / r))) ltac:(lra) A) as S. rewrite sin_asin in S by lra. lra.
  - split.
    + intros L. unfold alpha, winding_angle. rewrite sin_asin by lra. assert (r_p / r <= 1) by (apply (Rmult_le_reg_r r); [exact Hr|]; unfold Rdiv; rewrite Rmult_assoc, Rinv_l by lra; lra).
      replace (clip01 (r_p / r)) with (r_p / r) by (unfold clip01, Rmin, Rmax; repeat destruct (Rle_dec _ _); lra). field. lra.
    + intros L. unfold alpha, winding_angle. assert (1 <= r_p / r) by (apply (Rmult_le_reg_r r); [exact Hr|]; unfold Rdiv; rewrite Rmult_assoc, Rinv_l by lra; lra).
      replace (clip01 (r_p / r)) with 1 by (unfold clip01, Rmin, Rmax; repeat destruct (Rle_dec _ _); lra). apply asin_1.
Qed.
Print Assumptions C82_clairaut.
(** Balanced dome: re-oriented hoop plies come in pairs of opposite angle, so the coupling of an even number of them
    between meridional and hoop direction cancels; with an odd number one ply is left over. *)
Definition coupling (t_m t_h : vec) (f : vec) : R := vdot f t_m * vdot f t_h.
Theorem C82_balanced t_m t_h e3 alpha n : frame t_m t_h e3 ->
  fold_right Rplus 0 (map (fun f => coupling t_m t_h (fst f)) (ply_axes t_m t_h alpha true true 0 (repeat ("hoop"%string, 1) n))) =
  (if Nat.even n then 0 else cos alpha * sin alpha).
Proof.
  intros (A & B & _ & D & _). 
  assert (Cp : forall ang, coupling t_m t_h (fst (helical_axes t_m t_h ang)) = cos ang * sin ang).
  { intros ang. unfold coupling, helical_axes. cbn [fst]. generalize (cos ang) (sin ang). intros k s.
    transitivity ((k * vdot t_m t_m + s * vdot t_m t_h) * (k * vdot t_m t_h + s * vdot t_h t_h)); [vunf; ring|rewrite A, B, D; ring]. }
  assert (G : forall n h, fold_right Rplus 0 (map (fun f => coupling t_m t_h (fst f)) (ply_axes t_m t_h alpha true true h (repeat ("hoop"%string, 1) n))) =
    (if Nat.even n then 0 else (if Nat.even h then 1 else -1) * (cos alpha * sin alpha))).
  { induction n0 as [|m IH]; intros h; [reflexivity|]. cbn [repeat ply_axes]. change ("hoop" =? "hoop")%string with true. cbv iota. cbn [map fold_right]. rewrite IH, Cp, <- even_mod, Nat.even_succ, <- Nat.negb_even.
    assert (Sg : cos ((if Nat.even h then 1 else -1) * alpha) * sin ((if Nat.even h then 1 else -1) * alpha) = (if Nat.even h then 1 else -1) * (cos alpha * sin alpha)).
    { destruct (Nat.even h); [rewrite !Rmult_1_l; reflexivity|]. replace (-1 * alpha) with (- alpha) by ring. rewrite cos_neg, sin_neg. ring. }
    rewrite Sg. rewrite Nat.even_succ, <- Nat.negb_even. destruct (Nat.even m), (Nat.even h); cbn [negb]; ring. }
  rewrite G. destruct (Nat.even n); cbn [Nat.even]; ring.
Qed.
Print Assumptions C82_balanced.
(** Fibre directions: unit vectors on the shells, zero on the fill (unless asked for everywhere). *)
Theorem C82_fibers nodes axis dome z r_p layup drop shell_only k : let '(t_m, t_h, e3, r) := cell_triad nodes axis in frame t_m t_h e3 -> (k < length layup)%nat ->
  let f := nth k (fiber_dirs nodes dome z axis r_p layup drop shell_only) v0 in
  (z = Fill /\ shell_only = true -> f = v0) /\
  (z <> Fill \/ shell_only = false -> f = at_angle t_m t_h (ply_angle (winding_angle r_p r) dome drop layup k) /\ vdot f f = 1 /\ vdot f e3 = 0).
Proof.
  pose proof (C82_frames nodes axis dome r_p layup drop) as C. destruct (cell_triad nodes axis) as [[[a b] c] r] eqn:E. intros F Hk. destruct (C F) as [L H]. specialize (H k Hk). cbv zeta in H, L |- *.
  unfold fiber_dirs. rewrite (map_nth_in _ _ (v0, v0, v0)) by (rewrite L; exact Hk). destruct (nth k (ply_frames nodes dome axis r_p layup drop) (v0, v0, v0)) as [[f1 f2] n]. destruct H as ((H1 & _ & _ & _ & H5 & _) & -> & H3). cbn [fst].
  split.
  - intros [-> ->]. destruct f1 as [[x y] w]. vunf. unfold v0. veq ring.
  - intros D. assert (X : (if shell_only then vscale match z with Fill => 0 | _ => 1 end f1 else f1) = f1).
    { destruct shell_only; [|reflexivity]. destruct z; [|destruct D as [D|D]; [destruct (D eq_refl)|discriminate]|]; destruct f1 as [[x y] w]; vunf; veq ring. }
    rewrite X. split; [exact H3|]. split; assumption.
Qed.
Print Assumptions C82_fibers.
(** FINDING: a misspelt kind is not an error; the ply is silently wound helically. *)
Theorem C82_kind_refuted : exists t_m t_h alpha kind, kind <> "helical"%string /\ kind <> "hoop"%string /\ frame t_m t_h (vcross t_m t_h) /\ alpha = PI / 6 /\
  ply_axes t_m t_h alpha false true 0 [(kind, 1)] = [helical_axes t_m t_h alpha] /\ fst (helical_axes t_m t_h alpha) <> t_h.
Proof.
  exists (1, 0, 0), (0, 1, 0), (PI / 6), "Hoop"%string. split; [discriminate|]. split; [discriminate|]. split; [unfold frame; vunf; repeat split; try ring; veq ring|]. split; [reflexivity|].
  split; [cbn [ply_axes]; change ("Hoop" =? "hoop")%string with false; cbv iota; rewrite Rmult_1_l; reflexivity|].
  unfold helical_axes. cbn [fst]. intros E. apply (f_equal vx) in E. vunf. pose proof PI_RGT_0. assert (0 < cos (PI / 6)) by (apply cos_gt_0; lra). lra.
Qed.
Print Assumptions C82_kind_refuted.
(** A vessel meeting the hypotheses, and a frame. *)
Example C82_example : valid {| g_a := 10; g_t := 1; g_gap := 2; g_len := 20; g_rp := 5; g_nc := 8; g_mc := 2; g_md := 2; g_nf := 1; g_axis := (0, 0, 1) |} /\ frame (1, 0, 0) (0, 1, 0) (0, 0, 1).
Proof. split; [unfold valid; cbn [g_a g_t g_gap g_len g_rp g_nc g_mc g_md g_nf g_axis]; repeat split; try lra; lia|unfold frame; vunf; repeat split; try ring; veq ring]. Qed.
