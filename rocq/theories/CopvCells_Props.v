(** C81 continued: cells, zones, surfaces and boundary conditions of the double-wall pressure vessel. *)
From Coq Require Import Reals List Arith Bool Lia Lra Psatz.
From Verif Require Import Copv_Model Copv_Props.
Import ListNotations.
Open Scope R_scope.

Lemma nth_flat_map' {A B} (f : A -> list B) n dA dB : forall (l : list A) i j, (forall x, In x l -> length (f x) = n) -> (i < length l)%nat -> (j < n)%nat ->
  nth (i * n + j) (flat_map f l) dB = nth j (f (nth i l dA)) dB.
Proof.
  induction l as [|x l IH]; intros i j H Hi Hj; [cbn in Hi; lia|]. cbn [flat_map]. assert (Lx : length (f x) = n) by (apply H; left; reflexivity). destruct i as [|i].
  - cbn [Nat.mul Nat.add nth]. rewrite app_nth1 by lia. reflexivity.
  - rewrite app_nth2 by (cbn; lia). rewrite Lx. replace (S i * n + j - n)%nat with (i * n + j)%nat by (cbn; lia). cbn [nth]. apply IH; [intros y Hy; apply H; right; exact Hy|cbn in Hi; lia|exact Hj].
Qed.
Lemma flat_map_len' {A B} (f : A -> list B) n l : (forall x, length (f x) = n) -> length (flat_map f l) = (length l * n)%nat.
Proof. intros H. induction l as [|x l IH]; [reflexivity|]. cbn. rewrite app_length, H, IH. reflexivity. Qed.
Lemma triples_length a b c : length (triples a b c) = (a * b * c)%nat.
Proof.
  unfold triples. rewrite (flat_map_len' _ (b * c)%nat); [rewrite seq_length; lia|]. intros i. rewrite (flat_map_len' _ c); [rewrite seq_length; reflexivity|]. intros j. rewrite map_length. apply seq_length.
Qed.
Lemma triples_nth a b c i j k d : (i < a)%nat -> (j < b)%nat -> (k < c)%nat -> nth ((i * b + j) * c + k) (triples a b c) d = (i, j, k).
Proof.
  intros Hi Hj Hk. unfold triples. replace ((i * b + j) * c + k)%nat with (i * (b * c) + (j * c + k))%nat by ring.
  rewrite (nth_flat_map' _ (b * c)%nat 0%nat); [|intros; rewrite (flat_map_len' _ c); [rewrite seq_length; reflexivity|intros; rewrite map_length; apply seq_length]|rewrite seq_length; exact Hi|nia].
  rewrite seq_nth by exact Hi. cbn [Nat.add].
  rewrite (nth_flat_map' _ c 0%nat); [|intros; rewrite map_length; apply seq_length|rewrite seq_length; exact Hj|exact Hk]. rewrite seq_nth by exact Hj.
  rewrite (map_nth_in _ _ 0%nat) by (rewrite seq_length; exact Hk). rewrite seq_nth by exact Hk. reflexivity.
Qed.
Definition cell_no (g : geom) (i j ke : nat) : nat := ((i * g_nc g + j) * (g_nf g + 2) + ke)%nat.
Definition cell_range (g : geom) (i j ke : nat) : Prop := (i < g_mc g + g_md g)%nat /\ (j < g_nc g)%nat /\ (ke < g_nf g + 2)%nat.
Definition zone_thickness (g : geom) (z : zone) : R := match z with Inner => g_t g | Fill => g_gap g / INR (g_nf g) | Outer => g_t g end.
Lemma layer_nth g k : nth k (d_layers g) 0 =
  if (k =? 0)%nat then 0 else if (k =? 1)%nat then g_t g else if (k <=? g_nf g + 1)%nat then g_t g + g_gap g * INR (k - 1) / INR (g_nf g)
  else if (k =? g_nf g + 2)%nat then g_t g + g_gap g + g_t g else 0.
Proof.
  unfold d_layers. destruct k as [|[|k]]; [reflexivity|reflexivity|]. cbn [app nth]. destruct (Nat.eqb_spec (S (S k)) 0); [lia|]. destruct (Nat.eqb_spec (S (S k)) 1); [lia|].
  destruct (Nat.leb_spec (S (S k)) (g_nf g + 1)).
  - rewrite app_nth1 by (rewrite map_length, seq_length; lia). rewrite (map_nth_in _ _ 0%nat) by (rewrite seq_length; lia). rewrite seq_nth by lia. replace (1 + k)%nat with (S (S k) - 1)%nat by lia. reflexivity.
  - rewrite app_nth2 by (rewrite map_length, seq_length; lia). rewrite map_length, seq_length. destruct (Nat.eqb_spec (S (S k)) (g_nf g + 2)).
    + replace (k - g_nf g)%nat with 0%nat by lia. reflexivity.
    + destruct (k - g_nf g)%nat as [|[|m]] eqn:E; [lia|reflexivity|reflexivity].
Qed.
Lemma thickness g ke : (1 <= g_nf g)%nat -> (ke < g_nf g + 2)%nat -> nth (ke + 1) (d_layers g) 0 - nth ke (d_layers g) 0 = zone_thickness g (zone_at g ke).
Proof.
  intros Hf H. rewrite !layer_nth. unfold zone_at, n_rad_el, zone_thickness. assert (N : INR (g_nf g) <> 0) by (apply not_0_INR; lia).
  destruct ke as [|ke]; [cbn; lra|]. destruct (Nat.eqb_spec (S ke) 0); [lia|]. destruct (Nat.eqb_spec (S ke + 1) 0); [lia|]. destruct (Nat.eqb_spec (S ke + 1) 1); [lia|].
  destruct (Nat.eqb_spec (S ke) (g_nf g + 2 - 1)).
  - destruct (Nat.leb_spec (S ke + 1) (g_nf g + 1)); [lia|]. destruct (Nat.eqb_spec (S ke + 1) (g_nf g + 2)); [|lia]. destruct (Nat.eqb_spec (S ke) 1); [lia|].
    destruct (Nat.leb_spec (S ke) (g_nf g + 1)); [|lia]. replace (S ke - 1)%nat with (g_nf g) by lia. field. exact N.
  - destruct (Nat.leb_spec (S ke + 1) (g_nf g + 1)); [|lia]. destruct (Nat.eqb_spec (S ke) 1) as [E|E].
    + replace (S ke + 1 - 1)%nat with 1%nat by lia. cbn [INR]. field. exact N.
    + destruct (Nat.leb_spec (S ke) (g_nf g + 1)); [|lia]. replace (S ke + 1 - 1)%nat with (S (S ke - 1)) by lia. rewrite S_INR. field. exact N.
Qed.
Lemma node_id_succ g i j k : (g_nc g <> 0)%nat -> node_id g i (j + 1) k = node_id g i ((j + 1) mod g_nc g) k.
Proof. intros H. unfold node_id. rewrite Nat.mod_mod by exact H. reflexivity. Qed.
(** Cells: as many as stated, in row-major order; each has eight distinct valid nodes; a cell's zone label tells its
    wall thickness; the dome mask is set exactly on the rows above the cylinder. *)
Theorem C81_cells g : (2 <= g_nc g)%nat -> (1 <= g_nf g)%nat ->
  length (cells g) = ((g_mc g + g_md g) * g_nc g * (g_nf g + 2))%nat /\ length (zones g) = length (cells g) /\ length (dome_mask g) = length (cells g) /\
  forall i j ke, cell_range g i j ke -> let c := cell_no g i j ke in
    (c < length (cells g))%nat /\ nth c (cells g) [] = cell_at g i j ke /\ NoDup (cell_at g i j ke) /\ (forall n, In n (cell_at g i j ke) -> (n < length (points g))%nat) /\
    zone_thickness g (nth c (zones g) Fill) = nth (ke + 1) (d_layers g) 0 - nth ke (d_layers g) 0 /\
    (nth c (zones g) Fill = Inner <-> ke = 0%nat) /\ (nth c (zones g) Fill = Outer <-> ke = (g_nf g + 1)%nat) /\
    nth c (dome_mask g) false = (g_mc g <=? i)%nat.
Proof.
  intros Hn Hf. assert (L : length (cells g) = ((g_mc g + g_md g) * g_nc g * (g_nf g + 2))%nat) by (unfold cells, cell_index; rewrite map_length, triples_length, n_merid_eq; reflexivity).
  split; [exact L|]. split; [unfold zones, cells; rewrite !map_length; reflexivity|]. split; [unfold dome_mask; rewrite map_length, seq_length; reflexivity|].
  intros i j ke (Hi & Hj & Hk) c. assert (Ci : nth c (cell_index g) (0, 0, 0)%nat = (i, j, ke)) by (unfold cell_index; apply triples_nth; [rewrite n_merid_eq|..]; assumption).
  assert (Cl : (c < length (cell_index g))%nat).
  { unfold cell_index. rewrite triples_length, n_merid_eq. unfold c, cell_no, n_rad_el. assert (i * g_nc g + j < (g_mc g + g_md g) * g_nc g)%nat by nia. nia. }
  assert (Zc : nth c (zones g) Fill = zone_at g ke) by (unfold zones; rewrite (map_nth_in _ _ (0, 0, 0)%nat) by exact Cl; rewrite Ci; reflexivity).
  split; [unfold cells; rewrite map_length; exact Cl|]. split; [unfold cells; rewrite (map_nth_in _ _ (0, 0, 0)%nat) by exact Cl; rewrite Ci; reflexivity|].
  pose proof (Nat.mod_upper_bound (j + 1) (g_nc g) ltac:(lia)) as Mb.
  assert (Mj : ((j + 1) mod g_nc g)%nat <> j).
  { destruct (Nat.eq_dec (j + 1) (g_nc g)) as [E|E]; [rewrite E, Nat.mod_same by lia; lia|rewrite Nat.mod_small by lia; lia]. }
  split; [|split; [|split; [|split; [|split]]]].
  - unfold cell_at. rewrite !(node_id_succ g _ j) by lia. set (j' := ((j + 1) mod g_nc g)%nat) in *.
    repeat (constructor; [cbn [In]; intros Q; repeat destruct Q as [Q|Q]; [..|exact Q]; apply node_id_inj in Q; unfold n_layers; try lia|]); constructor.
  - intros n Hin. rewrite points_length, n_merid_eq. unfold cell_at in Hin. cbn [In] in Hin. repeat destruct Hin as [<-|Hin]; [..|destruct Hin]; apply node_id_bound; unfold n_layers; lia.
  - rewrite Zc. symmetry. apply thickness; [exact Hf|exact Hk].
  - rewrite Zc. unfold zone_at, n_rad_el. destruct (Nat.eqb_spec ke 0); [tauto|]. destruct (Nat.eqb_spec ke (g_nf g + 2 - 1)); split; intros; try discriminate; lia.
  - rewrite Zc. unfold zone_at, n_rad_el. destruct (Nat.eqb_spec ke 0); [split; [discriminate|lia]|]. destruct (Nat.eqb_spec ke (g_nf g + 2 - 1)); split; intros; try discriminate; try reflexivity; lia.
  - unfold dome_mask. rewrite (map_nth_in _ _ 0%nat) by (rewrite seq_length; unfold cells; rewrite map_length; exact Cl). rewrite seq_nth by (unfold cells; rewrite map_length; exact Cl). cbn [Nat.add].
    f_equal. unfold c, cell_no, n_rad_el. replace ((i * g_nc g + j) * (g_nf g + 2) + ke)%nat with (i * (g_nc g * (g_nf g + 2)) + (j * (g_nf g + 2) + ke))%nat by ring.
    rewrite Nat.div_add_l by nia. rewrite Nat.div_small by nia. lia.
Qed.
Print Assumptions C81_cells.

(** ** Orientation *)
Lemma theta_wrap g j : (0 < g_nc g)%nat -> (j < g_nc g)%nat -> cos (theta g ((j + 1) mod g_nc g)) = cos (theta g (j + 1)) /\ sin (theta g ((j + 1) mod g_nc g)) = sin (theta g (j + 1)).
Proof.
  intros Hn Hj. destruct (Nat.eq_dec (j + 1) (g_nc g)) as [E|E]; [|rewrite Nat.mod_small by lia; split; reflexivity].
  rewrite E, Nat.mod_same by lia. unfold theta. cbn [INR]. replace (2 * PI * 0 / INR (g_nc g)) with 0 by (unfold Rdiv; ring).
  replace (2 * PI * INR (g_nc g) / INR (g_nc g)) with (2 * PI) by (field; apply not_0_INR; lia). rewrite cos_2PI, sin_2PI, cos_0, sin_0. split; reflexivity.
Qed.
Definition rk (g : geom) (i k : nat) : R := let '(r0, _, nr, _) := station g i in r0 + nth k (d_layers g) 0 * nr.
Definition zk (g : geom) (i k : nat) : R := let '(_, z0, _, nz) := station g i in z0 + nth k (d_layers g) 0 * nz.
Lemma mesh_point_rz g i j k : grid_index g i j k -> mesh_point g i j k = (rk g i k * cos (theta g j), rk g i k * sin (theta g j), zk g i k).
Proof. intros G. rewrite mesh_point_eq by exact G. unfold node_point, rk, zk, theta. destruct (station g i) as [[[r z] nr] nz]. reflexivity. Qed.
Lemma mesh_point_next g i j k : grid_index g i j k -> mesh_point g i (j + 1) k = (rk g i k * cos (theta g (j + 1)), rk g i k * sin (theta g (j + 1)), zk g i k).
Proof.
  intros (Hi & Hj & Hk). unfold mesh_point. rewrite node_id_succ by lia. destruct (theta_wrap g j ltac:(lia) Hj) as [<- <-]. apply mesh_point_rz. repeat split; try assumption. apply Nat.mod_upper_bound. lia.
Qed.
Lemma cell_nodes_eq g i j ke : cell_nodes g (cell_at g i j ke) =
  [mesh_point g i j ke; mesh_point g i (j + 1) ke; mesh_point g (i + 1) (j + 1) ke; mesh_point g (i + 1) j ke;
   mesh_point g i j (ke + 1); mesh_point g i (j + 1) (ke + 1); mesh_point g (i + 1) (j + 1) (ke + 1); mesh_point g (i + 1) j (ke + 1)].
Proof. reflexivity. Qed.
Lemma vsum_comp l : fold_right vadd v0 l = (fold_right (fun p r => vx p + r) 0 l, fold_right (fun p r => vy p + r) 0 l, fold_right (fun p r => vz p + r) 0 l).
Proof. induction l as [|p l IH]; [reflexivity|]. cbn [fold_right]. rewrite IH. reflexivity. Qed.
Lemma grads_eq : centre_grads = let q := / 2 * / 2 in [(- q, - q, - q); (q, - q, - q); (q, q, - q); (- q, q, - q); (- q, - q, q); (q, - q, q); (q, q, q); (- q, q, q)].
Proof. unfold centre_grads, corners, vx, vy, vz. cbn [map fst snd]. repeat (apply f_equal2; [veq lra|]). reflexivity. Qed.
Lemma det_factor r00 r10 r01 r11 z00 z10 z01 z11 c0 s0 c1 s1 :
  det_centre [(r00 * c0, r00 * s0, z00); (r00 * c1, r00 * s1, z00); (r10 * c1, r10 * s1, z10); (r10 * c0, r10 * s0, z10);
              (r01 * c0, r01 * s0, z01); (r01 * c1, r01 * s1, z01); (r11 * c1, r11 * s1, z11); (r11 * c0, r11 * s0, z11)] =
  (r00 + r10 + r01 + r11) / 4 * (s1 * c0 - c1 * s0) *
  ((z10 - z00 + (z11 - z01)) / 2 * ((r01 - r00 + (r11 - r10)) / 2) - (r10 - r00 + (r11 - r01)) / 2 * ((z01 - z00 + (z11 - z10)) / 2)).
Proof.
  unfold det_centre. set (nodes := [_; _; _; _; _; _; _; _]). unfold Rdiv. replace (/ 4) with (/ 2 * / 2) by lra. assert (H2 : 2 * / 2 = 1) by lra. unfold jac_col. rewrite grads_eq. cbv zeta. revert H2. generalize (/ 2). intros h H2.
  set (rm := (r00 + r10 + r01 + r11) * (h * h)). set (z2 := (z10 - z00 + (z11 - z01)) * h). set (r3 := (r01 - r00 + (r11 - r10)) * h). set (r2 := (r10 - r00 + (r11 - r01)) * h). set (z3 := (z01 - z00 + (z11 - z10)) * h).
  match goal with |- context [vdot ?x (vcross ?y ?z)] => set (X := x); set (Y := y); set (Z := z) end.
  assert (EX : X = (rm * (c1 - c0), rm * (s1 - s0), 0)) by (unfold X, nodes, rm; rewrite vsum_comp; cbn [map combine fold_right]; unfold vscale, vx, vy, vz; cbn [fst snd]; veq ring).
  assert (EY : Y = (r2 * ((c0 + c1) * h), r2 * ((s0 + s1) * h), z2 * (2 * h))) by (unfold Y, nodes, r2, z2; rewrite vsum_comp; cbn [map combine fold_right]; unfold vscale, vx, vy, vz; cbn [fst snd]; veq ring).
  assert (EZ : Z = (r3 * ((c0 + c1) * h), r3 * ((s0 + s1) * h), z3 * (2 * h))) by (unfold Z, nodes, r3, z3; rewrite vsum_comp; cbn [map combine fold_right]; unfold vscale, vx, vy, vz; cbn [fst snd]; veq ring).
  rewrite EX, EY, EZ, H2. clear X Y Z EX EY EZ. clearbody rm r2 r3 z2 z3. unfold vdot, vcross, vx, vy, vz. cbn [fst snd].
  transitivity ((2 * h) * (rm * (s1 * c0 - c1 * s0) * (z2 * r3 - r2 * z3))); [ring|rewrite H2; ring].
Qed.
Lemma theta_step g j : (0 < g_nc g)%nat -> theta g (j + 1) - theta g j = 2 * PI / INR (g_nc g).
Proof. intros H. unfold theta. rewrite plus_INR. cbn [INR]. field. apply not_0_INR. lia. Qed.
Lemma angle_small n : (3 <= n)%nat -> 0 < 2 * PI / INR n < PI.
Proof.
  intros H. pose proof PI_RGT_0. assert (3 <= INR n) by (replace 3 with (INR 3) by (cbn; lra); apply le_INR; exact H). split; [apply Rmult_lt_0_compat; [lra|apply Rinv_0_lt_compat; lra]|].
  apply (Rmult_lt_reg_r (INR n)); [lra|]. unfold Rdiv. rewrite Rmult_assoc, Rinv_l by lra. assert (PI * 3 <= PI * INR n) by (apply Rmult_le_compat_l; lra). lra.
Qed.
Lemma thickness_pos g ke : valid g -> (ke < g_nf g + 2)%nat -> 0 < nth (ke + 1) (d_layers g) 0 - nth ke (d_layers g) 0.
Proof.
  intros (_ & Ht & Hg & _ & _ & _ & _ & _ & Hf & _) Hk. rewrite thickness by assumption. destruct (zone_at g ke); cbn; [exact Ht| |exact Ht]. apply Rmult_lt_0_compat; [exact Hg|apply Rinv_0_lt_compat, lt_0_INR; lia].
Qed.
Lemma det_pos g i j ke : valid g -> cell_range g i j ke -> 0 < det_centre (cell_nodes g (cell_at g i j ke)).
Proof.
  intros V (Hi & Hj & Hk). pose proof V as (Ha & Ht & Hg & Hl & Hr & Hc & Hm & Hd & Hf & _).
  rewrite cell_nodes_eq. rewrite !mesh_point_next, !mesh_point_rz by (repeat split; lia). rewrite det_factor.
  pose proof (thickness_pos g ke V Hk) as T. pose proof (layers_nonneg g ke V) as D0. pose proof (layers_nonneg g (ke + 1) V) as D1.
  set (d0 := nth ke (d_layers g) 0) in *. set (d1 := nth (ke + 1) (d_layers g) 0) in *.
  assert (S0 : 0 < sin (theta g (j + 1)) * cos (theta g j) - cos (theta g (j + 1)) * sin (theta g j)).
  { rewrite <- sin_minus, theta_step by lia. destruct (angle_small _ Hc). apply sin_gt_0; assumption. }
  assert (G : 0 < rk g i ke + rk g (i + 1) ke + rk g i (ke + 1) + rk g (i + 1) (ke + 1) /\
    0 < (zk g (i + 1) ke - zk g i ke + (zk g (i + 1) (ke + 1) - zk g i (ke + 1))) / 2 * ((rk g i (ke + 1) - rk g i ke + (rk g (i + 1) (ke + 1) - rk g (i + 1) ke)) / 2) -
        (rk g (i + 1) ke - rk g i ke + (rk g (i + 1) (ke + 1) - rk g i (ke + 1))) / 2 * ((zk g i (ke + 1) - zk g i ke + (zk g (i + 1) (ke + 1) - zk g (i + 1) ke)) / 2)).
  { destruct (le_lt_dec (g_mc g) i) as [B|B].
    - assert (E : exists l, i = (g_mc g + l)%nat /\ (l + 1 <= g_md g)%nat) by (exists (i - g_mc g)%nat; lia). destruct E as (l & -> & Hl1). replace (g_mc g + l + 1)%nat with (g_mc g + (l + 1))%nat by lia.
      unfold rk, zk. rewrite !station_dome by lia. fold d0 d1.
      pose proof (lat_bounds g l V ltac:(lia)) as L0. pose proof (lat_bounds g (l + 1) V ltac:(lia)) as L1. pose proof (lam_max_bounds g V) as Lm. pose proof PI_RGT_0.
      assert (Lt : lat g (l + 1) - lat g l = acos (g_rp g / g_a g) / INR (g_md g)) by (unfold lat; rewrite plus_INR; cbn [INR]; field; apply not_0_INR; lia).
      assert (Lp : 0 < lat g (l + 1) - lat g l) by (rewrite Lt; apply Rmult_lt_0_compat; [lra|apply Rinv_0_lt_compat, lt_0_INR; lia]).
      assert (Sp : 0 < sin (lat g (l + 1) - lat g l)) by (apply sin_gt_0; lra). rewrite sin_minus in Sp.
      assert (C0 : 0 < cos (lat g l)) by (apply cos_gt_0; lra). assert (C1 : 0 <= cos (lat g (l + 1))) by (apply cos_ge_0; lra).
      set (c0 := cos (lat g l)) in *. set (s0 := sin (lat g l)) in *. set (c1 := cos (lat g (l + 1))) in *. set (s1 := sin (lat g (l + 1))) in *. split.
      + assert (0 < (g_a g + d0) * c0) by (apply Rmult_lt_0_compat; lra). assert (0 <= (g_a g + d0) * c1) by (apply Rmult_le_pos; lra). assert (0 < (g_a g + d1) * c0) by (apply Rmult_lt_0_compat; lra). assert (0 <= (g_a g + d1) * c1) by (apply Rmult_le_pos; lra). lra.
      + match goal with |- 0 < ?e => replace e with ((g_a g + (d0 + d1) / 2) * (d1 - d0) * (s1 * c0 - c1 * s0)) by field end. apply Rmult_lt_0_compat; [apply Rmult_lt_0_compat; lra|exact Sp].
    - unfold rk, zk. rewrite !station_cyl by lia. fold d0 d1. split; [lra|].
      match goal with |- 0 < ?e => replace e with (g_len g / INR (g_mc g) * (d1 - d0)) by (rewrite plus_INR; cbn [INR]; field; apply not_0_INR; lia) end.
      apply Rmult_lt_0_compat; [apply Rmult_lt_0_compat; [lra|apply Rinv_0_lt_compat, lt_0_INR; lia]|exact T]. }
  destruct G as [G1 G2]. apply Rmult_lt_0_compat; [apply Rmult_lt_0_compat; [lra|exact S0]|exact G2].
Qed.
(** The generator succeeds for every sensible vessel: no cell is inverted. *)
Theorem C81_created g check : valid g -> created g check (points g, cells g, zones g).
Proof.
  intros V. pose proof V as (_ & _ & _ & _ & _ & _ & Hm & _ & _ & Ax). constructor; [lia| |].
  - unfold axis_ok. rewrite Ax. unfold close_to, vx, vy, vz. cbn [fst snd]. rewrite !Rminus_diag_eq by reflexivity. rewrite Rabs_R0. pose proof (Rabs_pos 1). split; [lra|]. split; lra.
  - intros _ c Hc. unfold cells in Hc. apply in_map_iff in Hc. destruct Hc as ([[i j] ke] & <- & Hin). unfold cell_index in Hin. apply in_triples in Hin. rewrite n_merid_eq in Hin. apply det_pos; [exact V|]. exact Hin.
Qed.
Print Assumptions C81_created.
