(** C81 continued: surfaces and boundary conditions of the double-wall pressure vessel. *)
From Coq Require Import Reals List Arith Bool Lia Lra Psatz.
From Verif Require Import Copv_Model Copv_Props CopvCells_Props.
Import ListNotations.
Open Scope R_scope.

Lemma vdot_self_nonneg p : 0 <= vdot p p.
Proof. unfold vdot. pose proof (Rle_0_sqr (vx p)). pose proof (Rle_0_sqr (vy p)). pose proof (Rle_0_sqr (vz p)). unfold Rsqr in *. lra. Qed.
Lemma vcauchy p q : vdot p q <= vnorm p * vnorm q.
Proof.
  unfold vnorm. rewrite <- sqrt_mult by apply vdot_self_nonneg. destruct (Rle_lt_dec (vdot p q) 0) as [H|H]; [apply Rle_trans with 0; [exact H|apply sqrt_pos]|].
  rewrite <- (sqrt_Rsqr (vdot p q)) by lra. apply sqrt_le_1_alt. unfold Rsqr, vdot.
  pose proof (Rle_0_sqr (vx p * vy q - vy p * vx q)). pose proof (Rle_0_sqr (vx p * vz q - vz p * vx q)). pose proof (Rle_0_sqr (vy p * vz q - vz p * vy q)). unfold Rsqr in *. lra.
Qed.
Lemma vtriangle p q : vnorm (vadd p q) <= vnorm p + vnorm q.
Proof.
  pose proof (sqrt_pos (vdot p p)) as A. pose proof (sqrt_pos (vdot q q)) as B. fold (vnorm p) in A. fold (vnorm q) in B.
  unfold vnorm at 1. rewrite <- (sqrt_Rsqr (vnorm p + vnorm q)) by lra. apply sqrt_le_1_alt.
  assert (Ep : vnorm p * vnorm p = vdot p p) by (apply sqrt_sqrt, vdot_self_nonneg). assert (Eq : vnorm q * vnorm q = vdot q q) by (apply sqrt_sqrt, vdot_self_nonneg).
  pose proof (vcauchy p q). unfold Rsqr. replace (vdot (vadd p q) (vadd p q)) with (vdot p p + 2 * vdot p q + vdot q q) by (unfold vdot, vadd, vx, vy, vz; cbn [fst snd]; ring). lra.
Qed.
(** The distance from the half axis is 1-Lipschitz. *)
Lemma tank_lip zc p q : tank_dist zc p <= tank_dist zc q + vnorm (vsub p q).
Proof.
  set (e := vsub (vx p, vy p, Rmax 0 (vz p - zc)) (vx q, vy q, Rmax 0 (vz q - zc))).
  apply Rle_trans with (tank_dist zc q + vnorm e).
  - unfold tank_dist at 1. replace (vx p, vy p, Rmax 0 (vz p - zc)) with (vadd (vx q, vy q, Rmax 0 (vz q - zc)) e); [apply vtriangle|].
    unfold e, vadd, vsub, vx, vy, vz. cbn [fst snd]. veq ring.
  - apply Rplus_le_compat_l. unfold vnorm. apply sqrt_le_1_alt. unfold e, vdot, vsub, vx, vy, vz. cbn [fst snd].
    apply Rplus_le_compat_l. apply Rsqr_le_abs_1. unfold Rmax. repeat destruct (Rle_dec _ _); unfold Rabs; repeat destruct (Rcase_abs _); lra.
Qed.
Lemma layers_mono g k k' : valid g -> (k < k')%nat -> (k' < g_nf g + 3)%nat -> nth k (d_layers g) 0 < nth k' (d_layers g) 0.
Proof.
  intros V H H'. induction H as [|m H IH].
  - pose proof (thickness_pos g k V ltac:(lia)) as T. replace (S k) with (k + 1)%nat by lia. lra.
  - specialize (IH ltac:(lia)). pose proof (thickness_pos g m V ltac:(lia)) as T. replace (S m) with (m + 1)%nat by lia. lra.
Qed.
Lemma in_pairs a b f n : In n (pairs a b f) <-> exists i j, In i a /\ In j b /\ n = f i j.
Proof.
  unfold pairs. rewrite in_flat_map. split.
  - intros (i & Hi & H). apply in_map_iff in H. destruct H as (j & <- & Hj). exists i, j. auto.
  - intros (i & j & Hi & Hj & ->). exists i. split; [exact Hi|]. apply in_map. exact Hj.
Qed.
Lemma layer_top g : valid g -> nth (g_nf g + 2) (d_layers g) 0 - nth (g_nf g + 1) (d_layers g) 0 = g_t g.
Proof.
  intros (_ & _ & _ & _ & _ & _ & _ & _ & Hf & _). pose proof (thickness g (g_nf g + 1) Hf ltac:(lia)) as T. replace (g_nf g + 1 + 1)%nat with (g_nf g + 2)%nat in T by lia. rewrite T.
  unfold zone_at, n_rad_el. destruct (Nat.eqb_spec (g_nf g + 1) 0); [lia|]. destruct (Nat.eqb_spec (g_nf g + 1) (g_nf g + 2 - 1)); [reflexivity|lia].
Qed.
Lemma self_near p tol : 0 < tol -> vnorm (vsub p p) < tol.
Proof. intros H. unfold vnorm. replace (vdot (vsub p p) (vsub p p)) with 0 by (unfold vdot, vsub, vx, vy, vz; cbn [fst snd]; ring). rewrite sqrt_0. exact H. Qed.
(** The surface location functions: of the mesh nodes, the outer one accepts exactly the last layer, the inner one
    exactly the first, for every tolerance up to the shell thickness. So the only element faces they select are the
    outer faces of the outer shell, and the inner faces of the inner shell. *)
Theorem C81_surfaces g tol : valid g -> 0 < tol <= g_t g ->
  (forall i j k, grid_index g i j k -> (near_ids g (outer_ids g) tol (mesh_point g i j k) <-> k = (g_nf g + 2)%nat)) /\
  (forall i j k, grid_index g i j k -> (near_ids g (inner_ids g) tol (mesh_point g i j k) <-> k = 0%nat)).
Proof.
  intros V Ht. pose proof V as (_ & _ & _ & _ & _ & Hc & _ & _ & Hf & _). split; intros i j k G; pose proof (C81_geometry g i j k V G) as (T & _); split.
  - intros (n & Hn & D). apply in_pairs in Hn. destruct Hn as (i' & j' & Hi' & Hj' & ->). apply in_seq in Hi', Hj'. rewrite n_merid_eq in Hi'.
    assert (G' : grid_index g i' j' (g_nf g + 2)) by (repeat split; lia). unfold n_layers in D. replace (g_nf g + 3 - 1)%nat with (g_nf g + 2)%nat in D by lia. fold (mesh_point g i' j' (g_nf g + 2)) in D.
    pose proof (C81_geometry g i' j' _ V G') as (T' & _). pose proof (tank_lip (g_len g) (mesh_point g i' j' (g_nf g + 2)) (mesh_point g i j k)) as L. rewrite T, T' in L.
    destruct (Nat.eq_dec k (g_nf g + 2)) as [E|E]; [exact E|exfalso]. destruct G as (_ & _ & Gk). pose proof (layer_top g V) as Lt.
    assert (nth k (d_layers g) 0 <= nth (g_nf g + 1) (d_layers g) 0) by (destruct (Nat.eq_dec k (g_nf g + 1)) as [->|N]; [lra|left; apply layers_mono; [exact V|lia|lia]]). lra.
  - intros ->. exists (node_id g i j (g_nf g + 2)). split; [|apply self_near; lra]. apply in_pairs. exists i, j. destruct G as (Gi & Gj & _). rewrite n_merid_eq. unfold n_layers. replace (g_nf g + 3 - 1)%nat with (g_nf g + 2)%nat by lia.
    split; [apply in_seq; lia|]. split; [apply in_seq; lia|reflexivity].
  - intros (n & Hn & D). apply in_pairs in Hn. destruct Hn as (i' & j' & Hi' & Hj' & ->). apply in_seq in Hi', Hj'. rewrite n_merid_eq in Hi'.
    assert (G' : grid_index g i' j' 0) by (repeat split; lia). fold (mesh_point g i' j' 0) in D.
    pose proof (C81_geometry g i' j' _ V G') as (T' & _). pose proof (tank_lip (g_len g) (mesh_point g i j k) (mesh_point g i' j' 0)) as L. rewrite T, T' in L.
    assert (Sy : vnorm (vsub (mesh_point g i j k) (mesh_point g i' j' 0)) = vnorm (vsub (mesh_point g i' j' 0) (mesh_point g i j k))) by (unfold vnorm; f_equal; unfold vdot, vsub, vx, vy, vz; cbn [fst snd]; ring).
    rewrite Sy in L. destruct (Nat.eq_dec k 0) as [E|E]; [exact E|exfalso]. destruct G as (_ & _ & Gk). pose proof (thickness g 0 Hf ltac:(lia)) as T0. cbn [Nat.add zone_at zone_thickness Nat.eqb] in T0.
    assert (nth 1 (d_layers g) 0 <= nth k (d_layers g) 0) by (destruct (Nat.eq_dec k 1) as [->|N]; [lra|left; apply layers_mono; [exact V|lia|lia]]). lra.
  - intros ->. exists (node_id g i j 0). split; [|apply self_near; lra]. apply in_pairs. exists i, j. destruct G as (Gi & Gj & _). rewrite n_merid_eq.
    split; [apply in_seq; lia|]. split; [apply in_seq; lia|reflexivity].
Qed.
Print Assumptions C81_surfaces.

(** The boss radius is the radius of the polar opening. *)
Lemma rmin_list_spec l m : l <> [] -> (forall x, In x l -> m <= x) -> In m l -> rmin_list l = m.
Proof.
  intros N B I. assert (H : forall l x, (forall y, In y (x :: l) -> m <= y) -> In m (x :: l) -> fold_left Rmin l x = m).
  { clear. induction l as [|y l IH]; intros x B I; cbn [fold_left].
    - destruct I as [->|[]]. reflexivity.
    - assert (Bx : m <= x) by (apply B; left; reflexivity). assert (By : m <= y) by (apply B; right; left; reflexivity).
      apply IH.
      + intros z [<-|Hz]; [unfold Rmin; destruct (Rle_dec x y); assumption|apply B; right; right; exact Hz].
      + destruct I as [->|[->|I]]; [left; unfold Rmin; destruct (Rle_dec m y); lra|left; unfold Rmin; destruct (Rle_dec x m); lra|right; exact I]. }
  destruct l as [|x l]; [congruence|]. cbn [rmin_list]. apply H; assumption.
Qed.
Theorem C81_rim_radius g : valid g -> rim_radius g = g_rp g.
Proof.
  intros V. pose proof V as (Ha & Ht & _ & _ & Hr & Hc & _ & _ & Hf & _). unfold rim_radius.
  assert (R0 : forall j k, (j < g_nc g)%nat -> (k < g_nf g + 3)%nat -> let p := mesh_point g (g_mc g + g_md g) j k in sqrt (vx p * vx p + vy p * vy p) = g_rp g * (1 + nth k (d_layers g) 0 / g_a g)).
  { intros j k Hj Hk p. destruct (C81_geometry g (g_mc g + g_md g) j k V ltac:(repeat split; lia)) as (_ & _ & _ & (r & _ & Ex & Ey & Er) & _). fold p in Ex, Ey. rewrite Ex, Ey, polar_norm, (Er eq_refl).
    apply Rabs_pos_eq. apply Rmult_le_pos; [lra|]. assert (0 <= nth k (d_layers g) 0 / g_a g) by (apply Rmult_le_pos; [apply layers_nonneg, V|left; apply Rinv_0_lt_compat; lra]). lra. }
  apply rmin_list_spec.
  - unfold rim_ids, pairs. destruct (g_nc g); [lia|]. cbn. discriminate.
  - intros x Hx. apply in_map_iff in Hx. destruct Hx as (n & <- & Hn). apply in_pairs in Hn. destruct Hn as (j & k & Hj & Hk & ->). apply in_seq in Hj. rewrite n_merid_eq. fold (mesh_point g (g_mc g + g_md g) j k).
    cbv zeta. rewrite R0; [|lia|destruct Hk as [<-|[<-|[]]]; lia]. assert (0 <= nth k (d_layers g) 0 / g_a g) by (apply Rmult_le_pos; [apply layers_nonneg, V|left; apply Rinv_0_lt_compat; lra]).
    assert (0 <= g_rp g * (nth k (d_layers g) 0 / g_a g)) by (apply Rmult_le_pos; lra). lra.
  - apply in_map_iff. exists (node_id g (n_merid g) 0 0). split.
    + rewrite n_merid_eq. fold (mesh_point g (g_mc g + g_md g) 0 0). cbv zeta. rewrite R0 by lia. change (nth 0 (d_layers g) 0) with 0. unfold Rdiv. ring.
    + apply in_pairs. exists 0%nat, 0%nat. split; [apply in_seq; lia|]. split; [left; reflexivity|reflexivity].
Qed.
Print Assumptions C81_rim_radius.

(** ** Boundary conditions *)
Definition rigid (c w x : vec) : vec := vadd c (vcross w x).
Definition comp (p : vec) (k : nat) : R := match k with 0%nat => vx p | 1%nat => vy p | _ => vz p end.
(** The constraints remove exactly the rigid motions: one vanishing on all constrained degrees of freedom is zero. *)
Theorem C81_rigid g c w : valid g ->
  (forall d, In d (axial_dofs g ++ pin_dofs g) -> comp (rigid c w (nth (d / 3) (points g) v0)) (d mod 3) = 0) -> c = v0 /\ w = v0.
Proof.
  intros V H. pose proof V as (Ha & Ht & _ & Hl & _ & Hc & Hm & _ & Hf & _).
  assert (D3 : forall n r, (r < 3)%nat -> ((n * 3 + r) / 3 = n /\ (n * 3 + r) mod 3 = r)%nat).
  { intros n r Hr. split; [rewrite Nat.div_add_l by lia; rewrite (Nat.div_small r 3 Hr); lia|rewrite Nat.add_comm, Nat.mod_add by lia; apply Nat.mod_small, Hr]. }
  assert (Z : forall j k, (j < g_nc g)%nat -> (k < g_nf g + 3)%nat -> vz (rigid c w (mesh_point g 0 j k)) = 0).
  { intros j k Hj Hk. specialize (H (node_id g 0 j k * 3 + 2)%nat). destruct (D3 (node_id g 0 j k) 2%nat ltac:(lia)) as [E1 E2]. rewrite E1, E2 in H. apply H, in_or_app. left. unfold axial_dofs. apply in_map_iff.
    exists (node_id g 0 j k). split; [reflexivity|]. apply in_pairs. exists j, k. split; [apply in_seq; lia|]. split; [apply in_seq; unfold n_layers; lia|reflexivity]. }
  assert (P : forall j k, (j < g_nc g)%nat -> (k < g_nf g + 3)%nat -> mesh_point g 0 j k = ((g_a g + nth k (d_layers g) 0) * cos (theta g j), (g_a g + nth k (d_layers g) 0) * sin (theta g j), 0)).
  { intros j k Hj Hk. rewrite mesh_point_eq by (repeat split; lia). rewrite point_cyl by lia. apply (f_equal2 pair); [reflexivity|]. change (INR 0) with 0. unfold Rdiv. rewrite Rmult_0_r. apply Rmult_0_l. }
  assert (Zj : forall j k, (j < g_nc g)%nat -> (k < g_nf g + 3)%nat -> vz c + (g_a g + nth k (d_layers g) 0) * (vx w * sin (theta g j) - vy w * cos (theta g j)) = 0).
  { intros j k Hj Hk. etransitivity; [|exact (Z j k Hj Hk)]. rewrite (P j k Hj Hk). unfold rigid, vadd, vcross, vx, vy, vz. cbn [fst snd]. ring. }
  assert (T0 : theta g 0 = 0) by (unfold theta; cbn [INR]; unfold Rdiv; ring).
  pose proof (Zj 0%nat 0%nat ltac:(lia) ltac:(lia)) as A0. pose proof (Zj 0%nat 1%nat ltac:(lia) ltac:(lia)) as A1. pose proof (Zj 1%nat 0%nat ltac:(lia) ltac:(lia)) as A2.
  rewrite T0, cos_0, sin_0 in A0, A1. change (nth 0 (d_layers g) 0) with 0 in *. change (nth 1 (d_layers g) 0) with (g_t g) in A1.
  assert (Wy : vy w = 0) by (assert (E : g_t g * vy w = 0) by lra; apply Rmult_integral in E; lra). assert (Cz : vz c = 0) by (rewrite Wy in A0; lra).
  assert (Wx : vx w = 0).
  { rewrite Wy, Cz in A2. assert (E : g_a g * (vx w * sin (theta g 1)) = 0) by lra. apply Rmult_integral in E. destruct E as [E|E]; [lra|]. apply Rmult_integral in E. destruct E as [E|E]; [exact E|exfalso].
    pose proof (theta_step g 0 ltac:(lia)) as St. rewrite T0 in St. cbn [Nat.add] in St. destruct (angle_small _ Hc) as [B1 B2]. assert (0 < sin (theta g 1)) by (apply sin_gt_0; lra). lra. }
  assert (Pin : comp (rigid c w (mesh_point g 0 0 0)) 0 = 0 /\ comp (rigid c w (mesh_point g 0 0 0)) 1 = 0 /\ comp (rigid c w (mesh_point g 0 (g_nc g / 2) 0)) 1 = 0).
  { set (na := node_id g 0 0 0) in *. set (nb := node_id g 0 (g_nc g / 2) 0) in *.
    pose proof (H (na * 3 + 0)%nat) as H1. pose proof (H (na * 3 + 1)%nat) as H2. pose proof (H (nb * 3 + 1)%nat) as H3.
    destruct (D3 na 0%nat ltac:(lia)) as [E1 E2]. destruct (D3 na 1%nat ltac:(lia)) as [E3 E4]. destruct (D3 nb 1%nat ltac:(lia)) as [E5 E6]. rewrite E1, E2 in H1. rewrite E3, E4 in H2. rewrite E5, E6 in H3.
    unfold mesh_point. fold na nb. split; [apply H1|split; [apply H2|apply H3]]; apply in_or_app; right; unfold pin_dofs; fold na nb; cbn [In]; tauto. }
  destruct Pin as (P1 & P2 & P3). assert (Hb : (g_nc g / 2 < g_nc g)%nat) by (apply Nat.div_lt; lia).
  rewrite P in P1, P2 by lia. rewrite P in P3 by lia. rewrite T0, cos_0, sin_0 in P1, P2. change (nth 0 (d_layers g) 0) with 0 in *.
  unfold comp, rigid, vadd, vcross in P1, P2, P3. unfold vx in P1 at 1. unfold vy in P2 at 1, P3 at 1. cbn [fst snd] in P1, P2, P3.
  unfold vx, vy, vz in P1, P2, P3. cbn [fst snd] in P1, P2, P3. fold (vx c) (vy c) (vy w) (vz w) (vx w) in P1, P2, P3.
  assert (Q : vx c = 0 /\ vy c + vz w * g_a g = 0 /\ vy c + vz w * (g_a g * cos (theta g (g_nc g / 2))) = 0).
  { unfold vx, vy, vz in *. repeat split; lra. }
  destruct Q as (Cx & Q2 & Q3).
  assert (Cb : cos (theta g (g_nc g / 2)) < 1).
  { assert (B : 0 < theta g (g_nc g / 2) <= PI).
    { unfold theta. pose proof PI_RGT_0 as Pi0. assert (N : 0 < INR (g_nc g)) by (apply lt_0_INR; lia). assert (H0 : (1 <= g_nc g / 2)%nat) by (apply Nat.div_le_lower_bound; lia). apply le_INR in H0. cbn [INR] in H0.
      assert (H1 : (2 * (g_nc g / 2) <= g_nc g)%nat) by (apply Nat.mul_div_le; lia). apply le_INR in H1. rewrite mult_INR in H1. replace (INR 2) with 2 in H1 by (cbn; lra).
      split; [apply Rmult_lt_0_compat; [apply Rmult_lt_0_compat; lra|apply Rinv_0_lt_compat; exact N]|].
      apply (Rmult_le_reg_r (INR (g_nc g))); [exact N|]. unfold Rdiv. rewrite Rmult_assoc, Rinv_l, Rmult_1_r by lra.
      replace (2 * PI * INR (g_nc g / 2)) with (PI * (2 * INR (g_nc g / 2))) by ring. apply Rmult_le_compat_l; lra. }
    rewrite <- cos_0. apply cos_decreasing_1; lra. }
  assert (Wz : vz w = 0).
  { assert (E : vz w * (g_a g * (1 - cos (theta g (g_nc g / 2)))) = 0) by lra. apply Rmult_integral in E. destruct E as [E|E]; [exact E|]. apply Rmult_integral in E. lra. }
  assert (Cy : vy c = 0) by (rewrite Wz in Q2; lra).
  destruct c as [[c1 c2] c3]. destruct w as [[w1 w2] w3]. unfold vx, vy, vz in *. cbn [fst snd] in *. subst. split; reflexivity.
Qed.
Print Assumptions C81_rigid.
(** The free degrees of freedom are the others, in increasing order. *)
Theorem C81_free_dofs g n : (forall d, In d (free_dofs g n) <-> (d < n)%nat /\ ~ In d (axial_dofs g ++ pin_dofs g)) /\
  (forall a b i j, nth_error (free_dofs g n) i = Some a -> nth_error (free_dofs g n) j = Some b -> (i < j)%nat -> (a < b)%nat).
Proof.
  split.
  - intros d. unfold free_dofs. rewrite filter_In, in_seq, negb_true_iff. split.
    + intros [H E]. split; [lia|]. intros I. assert (existsb (Nat.eqb d) (axial_dofs g ++ pin_dofs g) = true) by (apply existsb_exists; exists d; split; [exact I|apply Nat.eqb_refl]). congruence.
    + intros [H N]. split; [lia|]. destruct (existsb _ _) eqn:E; [|reflexivity]. apply existsb_exists in E. destruct E as (y & I & E). apply Nat.eqb_eq in E. subst y. contradiction.
  - unfold free_dofs. generalize (fun d => negb (existsb (Nat.eqb d) (axial_dofs g ++ pin_dofs g))). intros f. generalize 0%nat. induction n as [|n IH]; intros s a b i j Ha Hb L; [destruct i; discriminate|].
    cbn [seq filter] in *. assert (B : forall x m, In x (filter f (seq m n)) -> (m <= x)%nat) by (intros x m Hx; apply filter_In in Hx; destruct Hx as [Hx _]; apply in_seq in Hx; lia).
    destruct (f s); [|apply (IH (S s) a b i j); assumption]. destruct j as [|j]; [lia|]. cbn in Hb. destruct i as [|i]; cbn in Ha.
    + injection Ha as <-. apply nth_error_In in Hb. apply B in Hb. lia.
    + apply (IH (S s) a b i j); [assumption..|lia].
Qed.
Print Assumptions C81_free_dofs.

(** ** What fails *)
Definition small (nc nf : nat) : geom := {| g_a := 10; g_t := 1; g_gap := 2; g_len := 20; g_rp := 5; g_nc := nc; g_mc := 2; g_md := 2; g_nf := nf; g_axis := (0, 0, 1) |}.
(** FINDING: without fill elements the outer shell silently takes the gap: its thickness is not [shell_t]. *)
Theorem C81_no_fill_refuted : exists g ke, g_nf g = 0%nat /\ zone_at g ke = Outer /\ nth (ke + 1) (d_layers g) 0 - nth ke (d_layers g) 0 = g_t g + g_gap g /\ g_t g < g_t g + g_gap g.
Proof. exists (small 4 0), 1%nat. cbn. repeat split; lra. Qed.
Print Assumptions C81_no_fill_refuted.
(** FINDING: for an odd number of columns the two pinned nodes are not diametrically opposite as documented (the
    constraints still remove the rigid motions, [C81_rigid]). *)
Theorem C81_opposite_refuted : exists g, valid g /\ vadd (nth (node_id g 0 0 0) (points g) v0) (nth (node_id g 0 (g_nc g / 2) 0) (points g) v0) <> v0.
Proof.
  assert (V : valid (small 3 1)) by (unfold valid, small; cbn [g_a g_t g_gap g_len g_rp g_nc g_mc g_md g_nf g_axis]; repeat split; try lra; lia).
  exists (small 3 1). split; [exact V|]. intros E. apply (f_equal vy) in E. revert E.
  change (nth (node_id (small 3 1) 0 0 0) (points (small 3 1)) v0) with (mesh_point (small 3 1) 0 0 0). change (nth (node_id (small 3 1) 0 (g_nc (small 3 1) / 2) 0) (points (small 3 1)) v0) with (mesh_point (small 3 1) 0 1 0).
  rewrite !mesh_point_eq by (repeat split; cbn; lia). rewrite !point_cyl by (cbn; lia). unfold vadd, vy, v0. cbn [fst snd]. change (nth 0 (d_layers (small 3 1)) 0) with 0. intros E.
  unfold theta in E. cbn [g_nc g_a small INR] in E. replace (2 * PI * 0 / (1 + 1 + 1)) with 0 in E by (unfold Rdiv; ring). rewrite sin_0 in E.
  assert (0 < sin (2 * PI * 1 / (1 + 1 + 1))); [|lra]. pose proof PI_RGT_0. apply sin_gt_0; lra.
Qed.
Print Assumptions C81_opposite_refuted.
(** The hypotheses hold for the default vessel. *)
Example C81_example : valid {| g_a := 96; g_t := 4; g_gap := 16; g_len := 150; g_rp := 25; g_nc := 42; g_mc := 24; g_md := 4; g_nf := 4; g_axis := (0, 0, 1) |} /\ grid_index (small 4 2) 4 3 4 /\ cell_range (small 4 2) 3 3 3.
Proof. unfold valid, grid_index, cell_range. cbn [g_a g_t g_gap g_len g_rp g_nc g_mc g_md g_nf g_axis small]. repeat split; try lra; lia. Qed.
