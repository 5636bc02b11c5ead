(** C97: cylinder meshes, tetrahedron orientation check, face counting. *)
From Coq Require Import Reals Bool Lia Lra Psatz Nsatz FinFun List.
From Verif Require Import FeFace_Model Cylinder_Model.
Import ListNotations.
Open Scope R_scope.

(** The solid cylinder the user asks for: base centre [c], unit direction [a], height
    [h], radius [r]. *)
Definition right_cylinder (c a : v3) (h r : R) (p : v3) : Prop :=
  0 <= vdot (vsub p c) a <= h /\
  vdot (vsub p c) (vsub p c) - (vdot (vsub p c) a) ^ 2 <= r ^ 2.

Lemma v3_eq : forall a b, vx a = vx b -> vy a = vy b -> vz a = vz b -> a = b.
Proof. intros [? ? ?] [? ? ?]; cbn; intros; subst; reflexivity. Qed.

Lemma upright : forall c h r p, gmsh_cylinder c h r p <-> right_cylinder c (V3 0 0 1) h r p.
Proof.
  intros c h r p. unfold gmsh_cylinder, right_cylinder, vdot, vsub. cbn [vx vy vz].
  replace ((vx p - vx c) * 0 + (vy p - vy c) * 0 + (vz p - vz c) * 1) with (vz p - vz c) by ring.
  replace ((vx p - vx c) * (vx p - vx c) + (vy p - vy c) * (vy p - vy c) + (vz p - vz c) * (vz p - vz c) -
    (vz p - vz c) ^ 2) with ((vx p - vx c) ^ 2 + (vy p - vy c) ^ 2) by ring. tauto.
Qed.

(** Rotation about a horizontal unit axis [k = (kx, ky, 0)] with cosine [c], sine [s]. *)
Definition rotk (kx ky c s : R) (d : v3) : v3 :=
  vadd (vadd (vscale c d) (vscale s (vcross (V3 kx ky 0) d))) (vscale ((1 - c) * vdot (V3 kx ky 0) d) (V3 kx ky 0)).
Lemma rotk_axis : forall kx ky c s d, kx * kx + ky * ky = 1 -> c * c + s * s = 1 ->
  vdot (rotk kx ky c s d) (V3 (s * ky) (- (s * kx)) c) = vz d.
Proof.
  intros kx ky c s [x y z] K C. unfold rotk, vdot, vadd, vscale, vcross. cbn [vx vy vz]. nsatz.
Qed.
Lemma rotk_norm : forall kx ky c s d, kx * kx + ky * ky = 1 -> c * c + s * s = 1 ->
  vdot (rotk kx ky c s d) (rotk kx ky c s d) = vdot d d.
Proof.
  intros kx ky c s [x y z] K C. unfold rotk, vdot, vadd, vscale, vcross. cbn [vx vy vz]. nsatz.
Qed.
Lemma rotk_inv : forall kx ky c s d, kx * kx + ky * ky = 1 -> c * c + s * s = 1 ->
  rotk kx ky c s (rotk kx ky c (- s) d) = d.
Proof.
  intros kx ky c s [x y z] K C. apply v3_eq; unfold rotk, vdot, vadd, vscale, vcross; cbn [vx vy vz]; nsatz.
Qed.

Lemma image_cylinder : forall (ctr : v3) kx ky c s h r p, kx * kx + ky * ky = 1 -> c * c + s * s = 1 ->
  (exists q, gmsh_cylinder ctr h r q /\ p = vadd ctr (rotk kx ky c s (vsub q ctr))) <->
  right_cylinder ctr (V3 (s * ky) (- (s * kx)) c) h r p.
Proof.
  intros ctr kx ky c s h r p K C.
  assert (G : forall q, gmsh_cylinder ctr h r q <->
     0 <= vz (vsub q ctr) <= h /\ vdot (vsub q ctr) (vsub q ctr) - vz (vsub q ctr) ^ 2 <= r ^ 2).
  { intros q. unfold gmsh_cylinder, vdot, vsub. cbn [vx vy vz].
    replace ((vx q - vx ctr) * (vx q - vx ctr) + (vy q - vy ctr) * (vy q - vy ctr) +
      (vz q - vz ctr) * (vz q - vz ctr) - (vz q - vz ctr) ^ 2) with ((vx q - vx ctr) ^ 2 + (vy q - vy ctr) ^ 2) by ring. tauto. }
  assert (Cl : forall d, vsub (vadd ctr d) ctr = d).
  { intros d. apply v3_eq; cbn; ring. }
  unfold right_cylinder. split.
  - intros (q & Hq & ->). apply G in Hq. rewrite Cl, rotk_axis, rotk_norm by assumption. exact Hq.
  - intros Hp. exists (vadd ctr (rotk kx ky c (- s) (vsub p ctr))).
    assert (R : rotk kx ky c s (vsub (vadd ctr (rotk kx ky c (- s) (vsub p ctr))) ctr) = vsub p ctr)
      by (rewrite Cl; apply rotk_inv; assumption).
    split.
    + apply G. rewrite Cl. pose proof R as R'. rewrite Cl in R'.
      rewrite <- (rotk_axis kx ky c s (rotk kx ky c (- s) (vsub p ctr))) by assumption.
      rewrite <- (rotk_norm kx ky c s (rotk kx ky c (- s) (vsub p ctr))) by assumption.
      rewrite !R'. exact Hp.
    + rewrite R. apply v3_eq; cbn; ring.
Qed.

Lemma abs_both : forall x y, Rabs x <= y -> - y <= x <= y.
Proof. intros x y. unfold Rabs. destruct (Rcase_abs x); lra. Qed.
Lemma sq_le : forall x y, 0 <= y -> x * x <= y * y -> Rabs x <= y.
Proof.
  intros x y Hy H. rewrite <- (Rabs_pos_eq y Hy). apply Rsqr_le_abs_0. exact H.
Qed.
Lemma unit_axis : forall a, a <> V3 0 0 0 -> let u := vscale (/ vnorm a) a in
  vdot u u = 1 /\ 0 < vnorm a.
Proof.
  intros a Ha u.
  assert (P : 0 < vdot a a).
  { unfold vdot. destruct a as [x y z]. cbn [vx vy vz].
    destruct (Req_dec x 0) as [Ex|Ex], (Req_dec y 0) as [Ey|Ey], (Req_dec z 0) as [Ez|Ez]; subst; try congruence; nra. }
  assert (N : 0 < vnorm a) by (apply sqrt_lt_R0; exact P). split; [|exact N].
  assert (S : vnorm a * vnorm a = vdot a a) by (apply sqrt_sqrt; lra).
  unfold u. replace (vdot (vscale (/ vnorm a) a) (vscale (/ vnorm a) a)) with (vdot a a / (vnorm a * vnorm a))
    by (unfold vdot, vscale; cbn [vx vy vz]; field; lra).
  rewrite S. field. lra.
Qed.
Definition distance (a b : v3) : R := vnorm (vsub a b).

(** The solid handed to the mesher is a right circular cylinder of the requested base
    point, height and radius along a unit vector [b]; [b] is the requested direction,
    exactly unless that is within 2e-8 of the z axis, for every non-zero axis except
    those pointing (within 1e-10) straight down. *)
Theorem C97_cylinder : forall (center axis : v3) (h r : R), axis <> V3 0 0 0 ->
  let a := vscale (/ vnorm axis) axis in
  let transverse := sqrt (vx a ^ 2 + vy a ^ 2) in
  exists b, vdot b b = 1 /\
    (forall p, cylinder_solid center axis h r p <-> right_cylinder center b h r p) /\
    (0 < vz a \/ / 10 ^ 10 < transverse -> distance a b <= 2 * / 10 ^ 8) /\
    (2 * / 10 ^ 8 < distance a (V3 0 0 1) -> / 10 ^ 10 < transverse -> b = a).
Proof.
  intros center axis h r Ha a tr. destruct (unit_axis axis Ha) as [U _]. fold a in U.
  assert (K : vnorm (vcross (V3 0 0 1) a) = tr).
  { unfold vnorm, tr, vdot, vcross. cbn [vx vy vz]. f_equal. ring. }
  assert (Tn : 0 <= tr) by apply sqrt_pos.
  assert (T2 : tr * tr = vx a ^ 2 + vy a ^ 2).
  { apply sqrt_sqrt. nra. }
  unfold cylinder_solid. fold a. cbn zeta. clearbody a. clear Ha axis.
  assert (U' : tr * tr + vz a * vz a = 1) by (rewrite T2; unfold vdot in U; lra).
  destruct (near_z_dec a) as [N|N].
  - assert (Dz : distance a (V3 0 0 1) <= 2 * / 10 ^ 8).
    { destruct N as (Nx & Ny & Nz). unfold distance, vnorm.
      rewrite <- (sqrt_square (2 * / 10 ^ 8)) by lra. apply sqrt_le_1_alt.
      unfold vdot, vsub. cbn [vx vy vz].
      assert (X2 : vx a * vx a <= / 10 ^ 8 * / 10 ^ 8).
      { apply abs_both in Nx. nra. }
      assert (Y2 : vy a * vy a <= / 10 ^ 8 * / 10 ^ 8).
      { apply abs_both in Ny. nra. }
      apply abs_both in Nz. unfold vdot in U. nra. }
    exists (V3 0 0 1). split; [unfold vdot; cbn; ring|]. split; [intros p; apply upright|]. split.
    + intros _. exact Dz.
    + intros H. lra.
  - rewrite K. destruct (Rlt_dec (/ 10 ^ 10) tr) as [L|L].
    + assert (T0 : 0 < tr) by (assert (0 < / 10 ^ 10) by (apply Rinv_0_lt_compat; lra); lra).
      exists a. split; [exact U|].
      assert (Zr : -1 <= vz a <= 1) by nra.
      split; [|split; [|reflexivity]].
      * intros p.
        set (kx := - vy a / tr). set (ky := vx a / tr).
        assert (Kk : kx * kx + ky * ky = 1).
        { unfold kx, ky. replace (- vy a / tr * (- vy a / tr) + vx a / tr * (vx a / tr)) with ((vx a ^ 2 + vy a ^ 2) / (tr * tr)) by (field; lra).
          rewrite <- T2. field. lra. }
        assert (Ea : V3 (tr * ky) (- (tr * kx)) (vz a) = a).
        { apply v3_eq; cbn; unfold kx, ky; [field; lra|field; lra|reflexivity]. }
        pose proof (image_cylinder center kx ky (vz a) tr h r p Kk ltac:(lra)) as I. rewrite Ea in I.
        rewrite <- I. clear I.
        assert (Rt : forall q, gmsh_rotate center (vscale (/ tr) (vcross (V3 0 0 1) a)) (acos (vdot (V3 0 0 1) a)) q =
                      vadd center (rotk kx ky (vz a) tr (vsub q center))).
        { intros q. unfold gmsh_rotate.
          replace (vdot (V3 0 0 1) a) with (vz a) by (unfold vdot; cbn; ring).
          rewrite cos_acos, sin_acos by exact Zr.
          replace (sqrt (1 - (vz a)²)) with tr
            by (unfold Rsqr; replace (1 - vz a * vz a) with (tr * tr) by lra; rewrite sqrt_square; [reflexivity|exact Tn]).
          replace (vscale (/ tr) (vcross (V3 0 0 1) a)) with (V3 kx ky 0)
            by (apply v3_eq; cbn; unfold kx, ky; field; lra).
          reflexivity. }
        split; intros (q & Hq & Eq); exists q; (split; [exact Hq|]); [rewrite <- Rt; exact Eq | rewrite Rt; exact Eq].
      * intros _. unfold distance, vnorm, vdot, vsub. cbn [vx vy vz].
        replace ((vx a - vx a) * (vx a - vx a) + (vy a - vy a) * (vy a - vy a) + (vz a - vz a) * (vz a - vz a)) with 0 by ring.
        rewrite sqrt_0. lra.
    + exists (V3 0 0 1). split; [unfold vdot; cbn; ring|]. split; [intros p; apply upright|].
      split; [|intros _ Hb; contradiction].
      intros [Hz|Hb]; [|contradiction]. exfalso. apply N. unfold near_z.
      assert (B : tr * tr <= / 10 ^ 10 * / 10 ^ 10) by nra.
      split; [|split].
      * apply sq_le; nra.
      * apply sq_le; nra.
      * apply Rabs_le. assert (vz a <= 1) by nra. assert (1 - vz a <= / 10 ^ 10 * / 10 ^ 10) by nra. lra.
Qed.
Print Assumptions C97_cylinder.

(** Pointing down, the solid points up. *)
Theorem C97_downward_refuted : forall (center : v3) (s h r : R), 0 < s -> 0 < h -> 0 <= r ->
  let axis := V3 0 0 (- s) in
  (forall p, cylinder_solid center axis h r p <-> right_cylinder center (V3 0 0 1) h r p) /\
  (let tip := vadd center (V3 0 0 (- h)) in
   right_cylinder center (vscale (/ vnorm axis) axis) h r tip /\ ~ cylinder_solid center axis h r tip).
Proof.
  intros center s h r Hs Hh Hr axis.
  assert (Nm : vnorm axis = s).
  { unfold vnorm, axis, vdot. cbn [vx vy vz]. replace (0 * 0 + 0 * 0 + - s * - s) with (s * s) by ring. apply sqrt_square. lra. }
  assert (Ax : vscale (/ vnorm axis) axis = V3 0 0 (-1)).
  { rewrite Nm. apply v3_eq; unfold axis; cbn; field; lra. }
  assert (E : forall p, cylinder_solid center axis h r p <-> right_cylinder center (V3 0 0 1) h r p).
  { intros p. unfold cylinder_solid. rewrite Ax. cbn zeta.
    destruct (near_z_dec (V3 0 0 (-1))) as [N|N]; [apply upright|].
    destruct (Rlt_dec (/ 10 ^ 10) (vnorm (vcross (V3 0 0 1) (V3 0 0 (-1))))) as [L|L]; [|apply upright].
    exfalso. unfold vnorm, vcross, vdot in L. cbn [vx vy vz] in L.
    replace ((0 * -1 - 1 * 0) * (0 * -1 - 1 * 0) + (1 * 0 - 0 * -1) * (1 * 0 - 0 * -1) + (0 * 0 - 0 * 0) * (0 * 0 - 0 * 0)) with 0 in L by ring.
    rewrite sqrt_0 in L. assert (0 < / 10 ^ 10) by (apply Rinv_0_lt_compat; lra). lra. }
  split; [exact E|]. cbn zeta. rewrite Ax, E. unfold right_cylinder, vdot, vsub, vadd. cbn [vx vy vz].
  split; [|intros [[H _] _]; lra]. split; [lra|]. nra.
Qed.
Print Assumptions C97_downward_refuted.

(** A tilted axis: the rotated branch is reached and exact. *)
Example C97_tilted_example :
  let axis := V3 3 0 4 in
  axis <> V3 0 0 0 /\ vscale (/ vnorm axis) axis = V3 (3 / 5) 0 (4 / 5) /\
  / 10 ^ 10 < sqrt ((3 / 5) ^ 2 + 0 ^ 2) /\ 2 * / 10 ^ 8 < distance (V3 (3 / 5) 0 (4 / 5)) (V3 0 0 1).
Proof.
  cbn zeta. split; [intros E; inversion E; lra|].
  assert (N : vnorm (V3 3 0 4) = 5).
  { unfold vnorm, vdot. cbn [vx vy vz]. replace (3 * 3 + 0 * 0 + 4 * 4) with (5 * 5) by ring. apply sqrt_square. lra. }
  split; [rewrite N; apply v3_eq; cbn; field|]. split.
  - replace ((3 / 5) ^ 2 + 0 ^ 2) with ((3 / 5) * (3 / 5)) by field. rewrite sqrt_square by lra. lra.
  - unfold distance, vnorm. rewrite <- (sqrt_square (2 * / 10 ^ 8)) by lra. apply sqrt_lt_1_alt.
    unfold vdot, vsub. cbn [vx vy vz]. split; [lra|]. lra.
Qed.

(** ** Orientation check *)
(** A linear map given by the images of the unit vectors. *)
Record lin3 : Type := { l1 : v3; l2 : v3; l3 : v3 }.
Definition lapp (L : lin3) (p : v3) : v3 :=
  vadd (vadd (vscale (vx p) (l1 L)) (vscale (vy p) (l2 L))) (vscale (vz p) (l3 L)).
Definition ldet (L : lin3) : R :=
  let a := l1 L in let b := l2 L in let c := l3 L in
  vx a * (vy b * vz c - vz b * vy c) - vy a * (vx b * vz c - vz b * vx c) + vz a * (vx b * vy c - vy b * vx c).
Definition coplanar (p1 p2 p3 p4 : v3) : Prop :=
  exists n d, n <> V3 0 0 0 /\ vdot n p1 = d /\ vdot n p2 = d /\ vdot n p3 = d /\ vdot n p4 = d.

Lemma perp_exists : forall v, exists n, n <> V3 0 0 0 /\ vdot n v = 0.
Proof.
  intros [x y z]. destruct (Req_dec x 0) as [->|Hx].
  - exists (V3 1 0 0). split; [intros E; inversion E; lra|unfold vdot; cbn; ring].
  - exists (V3 (- y) x 0). split; [intros E; inversion E; lra|unfold vdot; cbn; ring].
Qed.
Lemma v3_dec : forall v, {v = V3 0 0 0} + {v <> V3 0 0 0}.
Proof.
  intros [x y z]. destruct (Req_EM_T x 0) as [->|H]; [|right; congruence].
  destruct (Req_EM_T y 0) as [->|H]; [|right; congruence].
  destruct (Req_EM_T z 0) as [->|H]; [left; reflexivity|right; congruence].
Qed.
Lemma perp_parallel : forall n v w, v <> V3 0 0 0 -> vcross v w = V3 0 0 0 -> vdot n v = 0 -> vdot n w = 0.
Proof.
  intros [a b c] [x y z] [u v w] Hv Hc Hn. unfold vcross, vdot in *. cbn [vx vy vz] in *.
  injection Hc as E1 E2 E3.
  destruct (Req_dec x 0) as [Hx|Hx].
  - destruct (Req_dec y 0) as [Hy|Hy].
    + destruct (Req_dec z 0) as [Hz|Hz]; [subst; congruence|].
      apply (Rmult_eq_reg_l z); [|exact Hz]. nsatz.
    + apply (Rmult_eq_reg_l y); [|exact Hy]. nsatz.
  - apply (Rmult_eq_reg_l x); [|exact Hx]. nsatz.
Qed.

(** [check_mesh_TET4] returns six times the signed volume: 1 on the unit tetrahedron,
    blind to translations, multiplied by the determinant under linear maps (so kept by
    rotations, negated by reflections), negated by exchanging two nodes, additive when
    a point splits the element, and zero exactly on flat elements. *)
Theorem C97_orientation :
  tet_quality (V3 0 0 0) (V3 1 0 0) (V3 0 1 0) (V3 0 0 1) = 1 /\
  (forall t p1 p2 p3 p4, tet_quality (vadd p1 t) (vadd p2 t) (vadd p3 t) (vadd p4 t) = tet_quality p1 p2 p3 p4) /\
  (forall L p1 p2 p3 p4, tet_quality (lapp L p1) (lapp L p2) (lapp L p3) (lapp L p4) = ldet L * tet_quality p1 p2 p3 p4) /\
  (forall p1 p2 p3 p4,
     tet_quality p2 p1 p3 p4 = - tet_quality p1 p2 p3 p4 /\ tet_quality p1 p3 p2 p4 = - tet_quality p1 p2 p3 p4 /\
     tet_quality p1 p2 p4 p3 = - tet_quality p1 p2 p3 p4) /\
  (forall p1 p2 p3 p4 q, tet_quality p1 p2 p3 p4 =
     tet_quality q p2 p3 p4 + tet_quality p1 q p3 p4 + tet_quality p1 p2 q p4 + tet_quality p1 p2 p3 q) /\
  (forall p1 p2 p3 p4, tet_quality p1 p2 p3 p4 = 0 <-> coplanar p1 p2 p3 p4).
Proof.
  split; [unfold tet_quality, vdot, vcross, vsub; cbn; ring|].
  split; [intros; unfold tet_quality, vdot, vcross, vsub, vadd; cbn [vx vy vz]; ring|].
  split; [intros [[? ? ?] [? ? ?] [? ? ?]] [? ? ?] [? ? ?] [? ? ?] [? ? ?];
          unfold tet_quality, ldet, lapp, vdot, vcross, vsub, vadd, vscale; cbn; ring|].
  split; [intros; unfold tet_quality, vdot, vcross, vsub; cbn [vx vy vz]; repeat split; ring|].
  split; [intros; unfold tet_quality, vdot, vcross, vsub; cbn [vx vy vz]; ring|].
  intros p1 p2 p3 p4. set (a := vsub p2 p1). set (b := vsub p3 p1). set (c := vsub p4 p1). split.
  - intros Q.
    assert (G : forall n, n <> V3 0 0 0 -> vdot n a = 0 -> vdot n b = 0 -> vdot n c = 0 -> coplanar p1 p2 p3 p4).
    { intros n Hn A B C. exists n, (vdot n p1). split; [exact Hn|]. split; [reflexivity|].
      unfold a, b, c, vdot, vsub in *. cbn [vx vy vz] in *. repeat split; lra. }
    change (vdot (vcross a b) c = 0) in Q. clearbody a b c.
    destruct (v3_dec (vcross a b)) as [E1|E1].
    + destruct (v3_dec (vcross a c)) as [E2|E2].
      * destruct (v3_dec (vcross b c)) as [E3|E3].
        { destruct (v3_dec a) as [->|Ha].
          - destruct (v3_dec b) as [->|Hb].
            + destruct (perp_exists c) as (n & Hn & N). apply (G n Hn); [| |exact N]; unfold vdot; cbn; ring.
            + destruct (perp_exists b) as (n & Hn & N). apply (G n Hn); [unfold vdot; cbn; ring|exact N|].
              exact (perp_parallel n b c Hb E3 N).
          - destruct (perp_exists a) as (n & Hn & N). apply (G n Hn); [exact N| |].
            + exact (perp_parallel n a b Ha E1 N).
            + exact (perp_parallel n a c Ha E2 N). }
        { apply (G _ E3); unfold vdot, vcross in *; cbn [vx vy vz] in *; lra. }
      * apply (G _ E2); unfold vdot, vcross in *; cbn [vx vy vz] in *; lra.
    + apply (G _ E1); unfold vdot, vcross in *; cbn [vx vy vz] in *; lra.
  - intros (n & d & Hn & H1 & H2 & H3 & H4).
    assert (A : vdot n a = 0) by (unfold a, vdot, vsub in *; cbn [vx vy vz] in *; lra).
    assert (B : vdot n b = 0) by (unfold b, vdot, vsub in *; cbn [vx vy vz] in *; lra).
    assert (C : vdot n c = 0) by (unfold c, vdot, vsub in *; cbn [vx vy vz] in *; lra).
    change (vdot (vcross a b) c = 0). clearbody a b c.
    destruct n as [nx ny nz], a as [ax ay az], b as [bx by_ bz], c as [cx cy cz].
    unfold vdot, vcross in *. cbn [vx vy vz] in *.
    destruct (Req_dec nx 0) as [Hx|Hx].
    + destruct (Req_dec ny 0) as [Hy|Hy].
      * destruct (Req_dec nz 0) as [Hz|Hz]; [subst; congruence|].
        apply (Rmult_eq_reg_l nz); [|exact Hz]. nsatz.
      * apply (Rmult_eq_reg_l ny); [|exact Hy]. nsatz.
    + apply (Rmult_eq_reg_l nx); [|exact Hx]. nsatz.
Qed.
Print Assumptions C97_orientation.

(** ** Face counting *)
Lemma count_prod : forall (A B A' B' : Type) (f : A' -> A) (g : B' -> B) (P : A * B -> bool) l m,
  length (filter P (list_prod (map f l) (map g m))) =
  length (filter (fun x => P (f (fst x), g (snd x))) (list_prod l m)).
Proof.
  intros. induction l as [|a l IH]; [reflexivity|]. cbn [map list_prod].
  rewrite !filter_app, !app_length, IH. f_equal. clear IH.
  induction m as [|b m IHm]; [reflexivity|]. cbn [map filter fst snd].
  destruct (P (f a, g b)); cbn [length]; rewrite IHm; reflexivity.
Qed.
Lemma map_nth_seq : forall (A : Type) (d : A) (l : list A), map (fun i : nat => nth i l d) (seq 0 (length l)) = l.
Proof.
  intros A d l. induction l as [|x l IH]; [reflexivity|]. cbn [length seq map nth]. f_equal.
  rewrite <- seq_shift, map_map. exact IH.
Qed.

(** The count is the number of (cell, face) pairs whose nodes all satisfy the
    function: the number of surface elements a problem creates for the same location
    function (C89). *)
Theorem C97_count : forall (P : Type) (d : P) points cells faces (loc : P -> bool),
  exists sel : list (nat * nat), NoDup sel /\
    (forall c k, In (c, k) sel <->
       (c < length cells)%nat /\ (k < length faces)%nat /\
       forall i, In i (nth k faces []) -> loc (nth (nth i (nth c cells []) 0%nat) points d) = true) /\
    count_selected_faces P d points cells faces loc = length sel /\
    get_boundary_conditions_inds d points cells faces (Some [LF1 loc]) = Some [sel].
Proof.
  intros P d points cells faces loc. exists (boundary_inds d points cells faces (LF1 loc)).
  split; [|split; [|split]].
  - unfold boundary_inds. apply NoDup_filter.
    assert (Np : forall (l m : list nat), NoDup l -> NoDup m -> NoDup (list_prod l m)).
    { induction l as [|a l IH]; intros m Hl Hm; [constructor|]. cbn [list_prod]. inversion Hl as [|? ? Ha Hl']; subst.
      assert (Nm : NoDup (map (fun y => (a, y)) m)).
      { apply FinFun.Injective_map_NoDup; [intros x y E; congruence|exact Hm]. }
      assert (Nd : forall x, In x (map (fun y => (a, y)) m) -> ~ In x (list_prod l m)).
      { intros [u v] Hu Hv. apply in_map_iff in Hu. destruct Hu as (y & Ey & _). injection Ey as <- _.
        apply in_prod_iff in Hv. tauto. }
      revert Nm Nd. generalize (map (fun y : nat => (a, y)) m) as lx. induction lx as [|x lx IH1]; intros Nm Nd; [apply IH; assumption|].
      cbn. inversion Nm as [|? ? Hx Nm']; subst. constructor.
      - rewrite in_app_iff. intros [H|H]; [contradiction|]. exact (Nd x (or_introl eq_refl) H).
      - apply IH1; [exact Nm'|]. intros z Hz. apply Nd. right. exact Hz. }
    apply Np; apply seq_NoDup.
  - intros c k. unfold boundary_inds. rewrite filter_In, in_prod_iff, !in_seq, forallb_forall. cbn [fst snd].
    unfold face_nodes. split.
    + intros [[H1 H2] H3]. split; [lia|]. split; [lia|]. intros i Hi. apply (H3 (nth i (nth c cells []) 0%nat)).
      apply in_map_iff. eauto.
    + intros (H1 & H2 & H3). split; [lia|]. intros n Hn. apply in_map_iff in Hn. destruct Hn as (i & <- & Hi). apply H3, Hi.
  - unfold count_selected_faces, boundary_inds.
    rewrite <- (map_nth_seq (list nat) [] cells) at 1. rewrite <- (map_nth_seq (list nat) [] faces) at 1.
    rewrite count_prod. f_equal. apply filter_ext. intros [c k]. unfold face_nodes. cbn [fst snd].
    induction (nth k faces []) as [|i l IH]; [reflexivity|]. cbn [map forallb]. rewrite IH. reflexivity.
  - reflexivity.
Qed.
Print Assumptions C97_count.

(** Two quadrilaterals sharing an edge; every point selected. The count is 8, one too
    many: the mesh has seven edges and six on its boundary. And the function sees nodes,
    not face centroids: asking for the midpoint of an edge selects nothing. *)
Theorem C97_interior_refuted :
  exists (points : list (nat * nat)) (cells faces : list (list nat)) (mid : nat * nat -> bool),
  let count := count_selected_faces (nat * nat) (0, 0)%nat points cells faces in
  let sides := flat_map (fun c => map (map (fun i => nth i c 0%nat)) faces) cells in
  let same s t := forallb (fun n => existsb (Nat.eqb n) t) s in
  count (fun _ => true) = 8%nat /\
  length (filter (fun s => Nat.eqb (length (filter (same s) sides)) 1) sides) = 6%nat /\
  (exists s, In s sides /\ map (fun n => nth n points (0, 0)%nat) s = [(0, 0); (2, 0)]%nat /\ mid (1, 0)%nat = true) /\
  count mid = 0%nat.
Proof.
  exists [(0, 0); (2, 0); (4, 0); (0, 2); (2, 2); (4, 2)]%nat, [[0; 1; 4; 3]; [1; 2; 5; 4]]%nat,
         [[0; 1]; [1; 2]; [2; 3]; [3; 0]]%nat, (fun p => Nat.eqb (fst p) 1 && Nat.eqb (snd p) 0).
  cbn zeta. split; [reflexivity|]. split; [reflexivity|]. split; [|reflexivity].
  exists [0; 1]%nat. split; [left; reflexivity|]. split; reflexivity.
Qed.
Print Assumptions C97_interior_refuted.
