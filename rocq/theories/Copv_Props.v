(** C81: the mesh of the double-wall pressure vessel (feax/mechanics/copv.py). *)
From Coq Require Import Reals List Arith Bool Lia Lra Psatz.
From Verif Require Import Copv_Model.
Import ListNotations.
Open Scope R_scope.

(** ** Specification *)
(** A sensible vessel. *)
Definition valid (g : geom) : Prop :=
  0 < g_a g /\ 0 < g_t g /\ 0 < g_gap g /\ 0 < g_len g /\ 0 <= g_rp g < g_a g /\
  (3 <= g_nc g)%nat /\ (1 <= g_mc g)%nat /\ (1 <= g_md g)%nat /\ (1 <= g_nf g)%nat /\ g_axis g = (0, 0, 1).
(** Distance of a point from the half axis below the dome centre: constant on every offset of the mould line. *)
Definition tank_dist (zc : R) (p : vec) : R := vnorm (vx p, vy p, Rmax 0 (vz p - zc)).
(** The point of the mesh at meridian row i, column j, layer k. *)
Definition mesh_point (g : geom) (i j k : nat) : vec := nth (node_id g i j k) (points g) v0.
Definition grid_index (g : geom) (i j k : nat) : Prop := (i <= g_mc g + g_md g)%nat /\ (j < g_nc g)%nat /\ (k < g_nf g + 3)%nat.

Tactic Notation "veq" tactic(t) := apply (f_equal2 pair); [apply (f_equal2 pair); [t|t]|t].
(** ** Index arithmetic *)
Lemma d_layers_length g : length (d_layers g) = n_layers g.
Proof. unfold d_layers, n_layers. rewrite !app_length, map_length, seq_length. cbn. lia. Qed.
Lemma n_merid_eq g : n_merid g = (g_mc g + g_md g)%nat.
Proof. unfold n_merid, meridian. rewrite app_length, !map_length, !seq_length. lia. Qed.
Lemma in_triples a b c i j k : In (i, j, k) (triples a b c) <-> (i < a)%nat /\ (j < b)%nat /\ (k < c)%nat.
Proof.
  unfold triples. rewrite in_flat_map. split.
  - intros (i' & Hi & H). apply in_flat_map in H. destruct H as (j' & Hj & H). apply in_map_iff in H. destruct H as (k' & E & Hk).
    apply in_seq in Hi, Hj, Hk. injection E as <- <- <-. lia.
  - intros (Hi & Hj & Hk). exists i. split; [apply in_seq; lia|]. apply in_flat_map. exists j. split; [apply in_seq; lia|]. apply in_map_iff. exists k. split; [reflexivity|apply in_seq; lia].
Qed.
Lemma radix n a b k l : (a * n + k = b * n + l)%nat -> (k < n)%nat -> (l < n)%nat -> a = b /\ k = l.
Proof. intros E Hk Hl. assert (a = b) as -> by (destruct (lt_eq_lt_dec a b) as [[H|H]|H]; [exfalso; nia|exact H|exfalso; nia]). lia. Qed.
Lemma node_id_inj g i j k i' j' k' : (j < g_nc g)%nat -> (j' < g_nc g)%nat -> (k < n_layers g)%nat -> (k' < n_layers g)%nat ->
  node_id g i j k = node_id g i' j' k' -> i = i' /\ j = j' /\ k = k'.
Proof.
  intros Hj Hj' Hk Hk' E. unfold node_id in E. rewrite !Nat.mod_small in E by assumption.
  apply radix in E; [|assumption..]. destruct E as [E ->]. apply radix in E; [|assumption..]. tauto.
Qed.
Lemma node_id_bound g m i j k : (g_nc g <> 0)%nat -> (i < m)%nat -> (k < n_layers g)%nat -> (node_id g i j k < m * g_nc g * n_layers g)%nat.
Proof.
  intros Hn Hi Hk. unfold node_id. pose proof (Nat.mod_upper_bound j (g_nc g) Hn) as M. set (r := (j mod g_nc g)%nat) in *. 
  assert (A : (i * g_nc g + r < m * g_nc g)%nat) by nia. nia.
Qed.
Lemma set_nth_length n v l : length (set_nth n v l) = length l.
Proof. revert n. induction l as [|x l IH]; intros [|n]; cbn; [reflexivity..|]. now rewrite IH. Qed.
Lemma set_nth_same n v l d : (n < length l)%nat -> nth n (set_nth n v l) d = v.
Proof. revert n. induction l as [|x l IH]; intros [|n] H; cbn in *; try lia; [reflexivity|]. apply IH. lia. Qed.
Lemma set_nth_other n m v l d : n <> m -> nth m (set_nth n v l) d = nth m l d.
Proof. revert n m. induction l as [|x l IH]; intros [|n] [|m] H; cbn; try reflexivity; try lia. apply IH. lia. Qed.
Lemma fill_spec {A} (f : A -> nat) (v : A -> vec) l : forall acc x d,
  (forall y z, In y l -> In z l -> f y = f z -> v y = v z) -> (forall y, In y l -> (f y < length acc)%nat) -> In x l ->
  nth (f x) (fold_left (fun a y => set_nth (f y) (v y) a) l acc) d = v x.
Proof.
  induction l as [|y l IH] using rev_ind; intros acc x d Inj B Hx; [destruct Hx|].
  rewrite fold_left_app. cbn [fold_left]. set (acc' := fold_left _ l acc).
  assert (L : length acc' = length acc).
  { unfold acc'. clear. revert acc. induction l as [|y l IH]; intros acc; [reflexivity|]. cbn. rewrite IH. apply set_nth_length. }
  destruct (Nat.eq_dec (f x) (f y)) as [E|E].
  - rewrite E, set_nth_same; [|rewrite L; apply B, in_or_app; right; left; reflexivity]. symmetry. apply Inj; auto; apply in_or_app; right; left; reflexivity.
  - rewrite set_nth_other by congruence. apply in_app_or in Hx. destruct Hx as [Hx|[->|[]]]; [|congruence].
    apply IH; auto; intros; [apply Inj; auto; apply in_or_app; auto|apply B, in_or_app; auto].
Qed.
Lemma points_length g : length (points g) = (S (n_merid g) * g_nc g * n_layers g)%nat.
Proof.
  unfold points. generalize (triples (S (n_merid g)) (g_nc g) (length (d_layers g))). intros l.
  assert (H : forall acc, length (fold_left (fun acc ijk => let '(i, j, kk) := ijk in set_nth (node_id g i j kk) (node_point g i j (nth kk (d_layers g) 0)) acc) l acc) = length acc).
  { induction l as [|[[i j] k] l IH]; intros acc; [reflexivity|]. cbn [fold_left]. rewrite IH. apply set_nth_length. }
  rewrite H. apply repeat_length.
Qed.
Lemma mesh_point_eq g i j k : grid_index g i j k -> mesh_point g i j k = node_point g i j (nth k (d_layers g) 0).
Proof.
  intros (Hi & Hj & Hk). unfold mesh_point, points.
  pose proof (fill_spec (fun x : nat * nat * nat => node_id g (fst (fst x)) (snd (fst x)) (snd x)) (fun x => node_point g (fst (fst x)) (snd (fst x)) (nth (snd x) (d_layers g) 0))
     (triples (S (n_merid g)) (g_nc g) (length (d_layers g))) (repeat v0 (S (n_merid g) * g_nc g * n_layers g)) (i, j, k) v0) as H.
  cbn [fst snd] in H. rewrite <- H.
  - f_equal. generalize (repeat v0 (S (n_merid g) * g_nc g * n_layers g)). generalize (triples (S (n_merid g)) (g_nc g) (length (d_layers g))).
    intros l. induction l as [|[[a b] c] l IH]; intros acc; [reflexivity|]. cbn [fold_left fst snd]. apply IH.
  - intros [[a b] c] [[a' b'] c'] Hy Hz E. cbn [fst snd] in *. apply in_triples in Hy, Hz. rewrite d_layers_length in Hy, Hz.
    destruct (node_id_inj g a b c a' b' c') as (-> & -> & ->); try tauto.
  - intros [[a b] c] Hy. cbn [fst snd]. apply in_triples in Hy. rewrite d_layers_length in Hy. rewrite repeat_length. apply node_id_bound; try tauto; lia.
  - apply in_triples. rewrite n_merid_eq, d_layers_length. unfold n_layers. lia.
Qed.
Lemma node_id_wrap g i j k : (g_nc g <> 0)%nat -> node_id g i (g_nc g + j) k = node_id g i j k.
Proof. intros H. unfold node_id. replace (g_nc g + j)%nat with (j + 1 * g_nc g)%nat by lia. rewrite Nat.mod_add by exact H. reflexivity. Qed.
(** The node ids of the grid are exactly the rows of the point array, each once. *)
Theorem C81_numbering g : (0 < g_nc g)%nat ->
  (forall i j k, grid_index g i j k -> (node_id g i j k < length (points g))%nat) /\
  (forall n, (n < length (points g))%nat -> exists i j k, grid_index g i j k /\ n = node_id g i j k) /\
  (forall i j k i' j' k', grid_index g i j k -> grid_index g i' j' k' -> node_id g i j k = node_id g i' j' k' -> i = i' /\ j = j' /\ k = k') /\
  (forall i j k, node_id g i (g_nc g + j) k = node_id g i j k).
Proof.
  intros Hn. rewrite points_length, n_merid_eq. split; [|split; [|split]].
  - intros i j k (Hi & Hj & Hk). apply node_id_bound; [lia|lia|exact Hk].
  - intros n H. assert (L : (n_layers g <> 0)%nat) by (unfold n_layers; lia). pose proof (Nat.div_mod n (n_layers g) L) as E1. pose proof (Nat.mod_upper_bound n (n_layers g) L) as B1.
    set (q := (n / n_layers g)%nat) in *. pose proof (Nat.div_mod q (g_nc g) ltac:(lia)) as E2. pose proof (Nat.mod_upper_bound q (g_nc g) ltac:(lia)) as B2.
    exists (q / g_nc g)%nat, (q mod g_nc g)%nat, (n mod n_layers g)%nat. split.
    + split; [|split; [exact B2|exact B1]]. assert (q < S (g_mc g + g_md g) * g_nc g)%nat by nia. assert (q / g_nc g < S (g_mc g + g_md g))%nat by nia. lia.
    + unfold node_id. rewrite Nat.mod_mod by lia. nia.
  - intros i j k i' j' k' (_ & Hj & Hk) (_ & Hj' & Hk'). apply node_id_inj; assumption.
  - intros i j k. apply node_id_wrap. lia.
Qed.
Print Assumptions C81_numbering.

(** ** Geometry *)
(** The meridian station i: on the cylinder, or at latitude lam on the dome; the last cylinder station is latitude 0. *)
Lemma map_nth_in {A B} (f : A -> B) l d e n : (n < length l)%nat -> nth n (map f l) e = f (nth n l d).
Proof. intros H. rewrite (nth_indep _ e (f d)) by (rewrite map_length; exact H). apply map_nth. Qed.
Lemma station_cyl g i : (i <= g_mc g)%nat -> station g i = (g_a g, g_len g * INR i / INR (g_mc g), 1, 0).
Proof.
  intros H. unfold station, meridian. rewrite app_nth1 by (rewrite map_length, seq_length; lia).
  rewrite (map_nth_in _ _ 0%nat) by (rewrite seq_length; lia). rewrite seq_nth by lia. reflexivity.
Qed.
Definition lat (g : geom) (i : nat) : R := acos (g_rp g / g_a g) * INR i / INR (g_md g).
Lemma station_dome g i : (1 <= g_mc g)%nat -> (i <= g_md g)%nat ->
  station g (g_mc g + i) = (g_a g * cos (lat g i), g_len g + g_a g * sin (lat g i), cos (lat g i), sin (lat g i)).
Proof.
  intros Hc H. destruct i as [|i].
  - rewrite Nat.add_0_r, station_cyl by lia. unfold lat. cbn [INR]. replace (acos (g_rp g / g_a g) * 0 / INR (g_md g)) with 0 by (unfold Rdiv; ring). rewrite cos_0, sin_0.
    assert (INR (g_mc g) <> 0) by (apply not_0_INR; lia). repeat apply f_equal2; try reflexivity; try ring. field. assumption.
  - unfold station, meridian. rewrite app_nth2 by (rewrite map_length, seq_length; lia). rewrite map_length, seq_length.
    replace (g_mc g + S i - S (g_mc g))%nat with i by lia. rewrite (map_nth_in _ _ 0%nat) by (rewrite seq_length; lia). rewrite seq_nth by lia. reflexivity.
Qed.
Lemma lam_max_bounds g : valid g -> 0 < acos (g_rp g / g_a g) <= PI / 2.
Proof.
  intros (Ha & _ & _ & _ & Hr & _). assert (B : 0 <= g_rp g / g_a g < 1).
  { split; [apply Rmult_le_pos; [lra|left; apply Rinv_0_lt_compat; lra]|]. apply (Rmult_lt_reg_r (g_a g)); [lra|]. unfold Rdiv. rewrite Rmult_assoc, Rinv_l by lra. lra. }
  pose proof PI_RGT_0. rewrite acos_asin by lra. pose proof (asin_bound (g_rp g / g_a g)) as A. split.
  - pose proof (asin_bound_lt (g_rp g / g_a g) ltac:(lra)). lra.
  - assert (0 <= asin (g_rp g / g_a g)); [|lra]. destruct (Req_dec (g_rp g / g_a g) 0) as [->|N]; [rewrite asin_0; lra|].
    destruct (Rle_lt_dec 0 (asin (g_rp g / g_a g))) as [H0|H0]; [exact H0|]. pose proof (sin_lt_0_var (asin (g_rp g / g_a g)) ltac:(lra) H0) as H1. rewrite sin_asin in H1; lra.
Qed.
Lemma lat_bounds g i : valid g -> (i <= g_md g)%nat -> 0 <= lat g i <= acos (g_rp g / g_a g).
Proof.
  intros V Hi. pose proof (lam_max_bounds g V) as L. destruct V as (_ & _ & _ & _ & _ & _ & _ & Hm & _). unfold lat.
  assert (P : 0 < INR (g_md g)) by (apply lt_0_INR; lia). assert (Q : INR i <= INR (g_md g)) by (apply le_INR; exact Hi). assert (Q0 : 0 <= INR i) by apply pos_INR.
  split; [apply Rmult_le_pos; [apply Rmult_le_pos; lra|left; apply Rinv_0_lt_compat; exact P]|].
  apply (Rmult_le_reg_r (INR (g_md g))); [exact P|]. unfold Rdiv. rewrite Rmult_assoc, Rinv_l by lra. rewrite Rmult_1_r. apply Rmult_le_compat_l; lra.
Qed.
Lemma row_cases g i : (i <= g_mc g + g_md g)%nat -> (i <= g_mc g)%nat \/ exists l, (i = g_mc g + l)%nat /\ (1 <= l <= g_md g)%nat.
Proof. intros H. destruct (le_lt_dec i (g_mc g)); [left; assumption|right; exists (i - g_mc g)%nat; lia]. Qed.
Definition theta (g : geom) (j : nat) : R := 2 * PI * INR j / INR (g_nc g).
Lemma point_cyl g i j d : (i <= g_mc g)%nat -> node_point g i j d = ((g_a g + d) * cos (theta g j), (g_a g + d) * sin (theta g j), g_len g * INR i / INR (g_mc g)).
Proof. intros H. unfold node_point. rewrite station_cyl by exact H. unfold theta. veq ring. Qed.
Lemma point_dome g i j d : (1 <= g_mc g)%nat -> (i <= g_md g)%nat -> node_point g (g_mc g + i) j d =
  ((g_a g + d) * cos (lat g i) * cos (theta g j), (g_a g + d) * cos (lat g i) * sin (theta g j), g_len g + (g_a g + d) * sin (lat g i)).
Proof. intros H Hi. unfold node_point. rewrite station_dome by assumption. unfold theta. veq ring. Qed.
Lemma sc1 x : sin x * sin x + cos x * cos x = 1.
Proof. pose proof (sin2_cos2 x) as H. unfold Rsqr in H. exact H. Qed.
Lemma polar_norm x t : sqrt (x * cos t * (x * cos t) + x * sin t * (x * sin t)) = Rabs x.
Proof. replace (x * cos t * (x * cos t) + x * sin t * (x * sin t)) with (Rsqr x * (sin t * sin t + cos t * cos t)) by (unfold Rsqr; ring). rewrite sc1, Rmult_1_r. apply sqrt_Rsqr_abs. Qed.
Lemma layers_nonneg g k : valid g -> 0 <= nth k (d_layers g) 0.
Proof.
  intros (_ & Ht & Hg & _ & _ & _ & _ & _ & Hf & _). destruct (le_lt_dec (length (d_layers g)) k) as [H|H]; [rewrite nth_overflow by exact H; lra|].
  assert (A : Forall (Rle 0) (d_layers g)).
  { unfold d_layers. apply Forall_app. split; [repeat constructor; lra|]. apply Forall_app. split; [|repeat constructor; lra]. apply Forall_forall. intros x Hx. apply in_map_iff in Hx. destruct Hx as (i & <- & Hi).
    assert (0 < INR (g_nf g)) by (apply lt_0_INR; lia). assert (0 <= g_gap g * INR i / INR (g_nf g)) by (apply Rmult_le_pos; [apply Rmult_le_pos; [lra|apply pos_INR]|left; apply Rinv_0_lt_compat; assumption]). lra. }
  rewrite Forall_forall in A. apply A, nth_In, H.
Qed.
(** Layer k of the mesh is the mould line offset by d_k: on the cylinder rows that is the cylinder of radius a + d_k
    between the equator and the dome, on the dome rows the sphere of that radius about the dome centre; in both cases
    the distance from the half axis. Columns are equally spaced; no node is inside the polar opening, and the
    innermost top ring is its rim. *)
Theorem C81_geometry g i j k : valid g -> grid_index g i j k -> let p := mesh_point g i j k in let d := nth k (d_layers g) 0 in
  tank_dist (g_len g) p = g_a g + d /\
  ((i <= g_mc g)%nat -> 0 <= vz p <= g_len g /\ sqrt (vx p * vx p + vy p * vy p) = g_a g + d) /\
  ((g_mc g <= i)%nat -> g_len g <= vz p /\ vnorm (vsub p (0, 0, g_len g)) = g_a g + d) /\
  (exists r, g_rp g <= r /\ vx p = r * cos (2 * PI * INR j / INR (g_nc g)) /\ vy p = r * sin (2 * PI * INR j / INR (g_nc g)) /\
    (i = (g_mc g + g_md g)%nat -> r = g_rp g * (1 + d / g_a g))) /\
  (i = 0%nat -> vz p = 0).
Proof.
  intros V G p d. assert (Ep : p = node_point g i j d) by (apply mesh_point_eq, G). pose proof (layers_nonneg g k V) as D0. fold d in D0. clearbody d.
  pose proof V as (Ha & Ht & Hg & Hl & Hr & Hc & Hm & Hd & Hf & _). destruct G as (Gi & Gj & Gk).
  assert (Mp : 0 < INR (g_mc g)) by (apply lt_0_INR; lia).
  destruct (row_cases g i Gi) as [Hi|(l & -> & Hl1)].
  - rewrite point_cyl in Ep by exact Hi. set (z := g_len g * INR i / INR (g_mc g)) in *.
    assert (Z : 0 <= z <= g_len g).
    { unfold z. assert (0 <= INR i) by apply pos_INR. assert (INR i <= INR (g_mc g)) by (apply le_INR; exact Hi). split; [apply Rmult_le_pos; [apply Rmult_le_pos; lra|left; apply Rinv_0_lt_compat; exact Mp]|].
      apply (Rmult_le_reg_r (INR (g_mc g))); [exact Mp|]. unfold Rdiv. rewrite Rmult_assoc, Rinv_l, Rmult_1_r by lra. apply Rmult_le_compat_l; lra. }
    assert (S0 : sqrt (vx p * vx p + vy p * vy p) = g_a g + d) by (rewrite Ep; unfold vx, vy; cbn [fst snd]; rewrite polar_norm; apply Rabs_pos_eq; lra).
    split; [|split; [|split; [|split]]].
    + unfold tank_dist, vnorm, vdot. rewrite <- S0. f_equal. rewrite Ep. unfold vx, vy, vz. cbn [fst snd]. rewrite Rmax_left by lra. ring.
    + intros _. split; [rewrite Ep; exact Z|exact S0].
    + intros Hi'. assert (i = g_mc g) by lia. subst i. assert (Ez : z = g_len g) by (unfold z; field; lra). split; [rewrite Ep; cbn; lra|].
      unfold vnorm, vdot. rewrite <- S0. f_equal. rewrite Ep. unfold vsub, vx, vy, vz. cbn [fst snd]. rewrite Ez. ring.
    + exists (g_a g + d). split; [lra|]. rewrite Ep. unfold theta, vx, vy. cbn [fst snd]. repeat split. intros Hi'. lia.
    + intros ->. rewrite Ep. unfold z, vz. cbn. field. lra.
  - rewrite point_dome in Ep by lia. pose proof (lat_bounds g l V ltac:(lia)) as Lb. pose proof (lam_max_bounds g V) as Lm. pose proof PI_RGT_0.
    assert (S1 : 0 <= sin (lat g l)) by (apply sin_ge_0; lra). assert (C1 : 0 <= cos (lat g l)) by (apply cos_ge_0; lra).
    assert (Zn : 0 <= (g_a g + d) * sin (lat g l)) by (apply Rmult_le_pos; lra).
    assert (S0 : vnorm (vsub p (0, 0, g_len g)) = g_a g + d).
    { unfold vnorm, vdot. rewrite Ep. unfold vsub, vx, vy, vz. cbn [fst snd].
      match goal with |- sqrt ?e = _ => replace e with (Rsqr (g_a g + d)) end; [rewrite sqrt_Rsqr by lra; reflexivity|]. pose proof (sc1 (theta g j)) as E1. pose proof (sc1 (lat g l)) as E2.
      transitivity (Rsqr (g_a g + d) * (cos (lat g l) * cos (lat g l) * (sin (theta g j) * sin (theta g j) + cos (theta g j) * cos (theta g j)) + sin (lat g l) * sin (lat g l))); [rewrite E1, Rmult_1_r, (Rplus_comm (cos _ * _)), E2; ring|unfold Rsqr; ring]. }
    assert (Cr : g_rp g <= g_a g * cos (lat g l)).
    { assert (cos (acos (g_rp g / g_a g)) <= cos (lat g l)) by (apply cos_decr_1; lra). rewrite cos_acos in H0.
      - apply (Rmult_le_compat_l (g_a g)) in H0; [|lra]. replace (g_a g * (g_rp g / g_a g)) with (g_rp g) in H0 by (field; lra). exact H0.
      - assert (0 <= g_rp g / g_a g) by (apply Rmult_le_pos; [lra|left; apply Rinv_0_lt_compat; lra]). assert (g_rp g / g_a g <= 1); [|lra].
        apply (Rmult_le_reg_r (g_a g)); [lra|]. unfold Rdiv. rewrite Rmult_assoc, Rinv_l by lra. lra. }
    split; [|split; [|split; [|split]]].
    + rewrite <- S0. unfold tank_dist, vnorm, vdot. f_equal. rewrite Ep. unfold vsub, vx, vy, vz. cbn [fst snd]. rewrite Rmax_right by lra. ring.
    + intros Hi. lia.
    + intros _. split; [rewrite Ep; cbn; lra|exact S0].
    + exists ((g_a g + d) * cos (lat g l)). split; [assert (0 <= d * cos (lat g l)) by (apply Rmult_le_pos; lra); lra|]. rewrite Ep. unfold theta, vx, vy. cbn [fst snd]. repeat split.
      intros Hi. assert (l = g_md g) by lia. subst l. unfold lat. replace (acos (g_rp g / g_a g) * INR (g_md g) / INR (g_md g)) with (acos (g_rp g / g_a g)) by (field; apply not_0_INR; lia).
      rewrite cos_acos; [field; lra|]. assert (0 <= g_rp g / g_a g) by (apply Rmult_le_pos; [lra|left; apply Rinv_0_lt_compat; lra]). assert (g_rp g / g_a g <= 1); [|lra].
      apply (Rmult_le_reg_r (g_a g)); [lra|]. unfold Rdiv. rewrite Rmult_assoc, Rinv_l by lra. lra.
    + intros Hi. lia.
Qed.
Print Assumptions C81_geometry.
