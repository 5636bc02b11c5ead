(** C28, C53, C54: mesh generation and import. *)
From Coq Require Import String ZArith QArith Qround Qminmax Bool Arith List Lia Lqa.
From Verif Require Import Base Assembly_Proofs Pbc_Proofs Band_Proofs Mesh_Model Mesh_Proofs.
Import ListNotations.
Local Open Scope nat_scope.

(** ** Specification *)
(** Reference positions of an element's nodes in the unit square, counter-clockwise corners
    first, then midsides (bottom, right, top, left), then the centre. *)
Definition corner_locs : list pt2 := [(0, 0); (1, 0); (1, 1); (0, 1)]%Q.
Definition mid_locs : list pt2 := [(1 # 2, 0); (1, 1 # 2); (1 # 2, 1); (0, 1 # 2)]%Q.
Definition ref_nodes (ele : string) : option (list pt2) :=
  (if String.eqb ele "QUAD4" then Some corner_locs
   else if String.eqb ele "QUAD8" then Some (corner_locs ++ mid_locs)
   else if String.eqb ele "QUAD9" then Some (corner_locs ++ mid_locs ++ [(1 # 2, 1 # 2)%Q]) else None).
Definition node_count (ele : string) (Nx Ny : nat) : nat :=
  (if String.eqb ele "QUAD4" then (Nx + 1) * (Ny + 1)
   else if String.eqb ele "QUAD8" then (2 * Nx + 1) * (2 * Ny + 1) - Nx * Ny
   else (2 * Nx + 1) * (2 * Ny + 1)).
Definition mesh2 := (list pt2 * list (list (option nat)))%type.
Definition at_xy (p : pt2) (x y : Q) : Prop := (fst p == x /\ snd p == y)%Q.
(** Node id in slot k of cell c. *)
Definition node_of (m : mesh2) (c k : nat) : option nat := nth k (nth c (snd m) []) None.
(** Position of the local point (a, b) of grid square (i, j). *)
Definition gx (x0 dx : Q) (Nx i : nat) (a : Q) : Q := (x0 + (nq i + a) * dx / nq Nx)%Q.

(** ** Local lemmas *)
Lemma qdiv_cancel a b (d : Q) n : 0 < n -> ~ (d == 0)%Q -> (a * d / nq n == b * d / nq n -> a == b)%Q.
Proof.
  intros Hn Hd E. apply nq_pos in Hn.
  assert (X : (a * d == b * d)%Q).
  { assert (Y : (a * d / nq n * nq n == b * d / nq n * nq n)%Q) by (rewrite E; reflexivity).
    assert (F : forall u, (u / nq n * nq n == u)%Q) by (intros u; field; intros Z; rewrite Z in Hn; lra).
    rewrite !F in Y. exact Y. }
  apply (Qmult_inj_r a b d Hd). exact X.
Qed.
Lemma half_coord a dx x0 N i : 0 < N ->
  (x0 + nq (2 * i + a) * dx / nq (2 * N) == x0 + (nq i + nq a * (1 # 2)) * dx / nq N)%Q.
Proof.
  intros H. rewrite nq_add, !nq_mul. assert (E : (nq 2 == 2)%Q) by reflexivity. rewrite E. apply nq_pos in H. field.
  intros Z; rewrite Z in H; lra.
Qed.
Lemma even_odd n : exists k, n = 2 * k \/ n = 2 * k + 1.
Proof. exists (n / 2). assert (H := Nat.div_mod n 2 ltac:(lia)). assert (H2 := Nat.mod_upper_bound n 2 ltac:(lia)). lia. Qed.

(** Which fine nodes are used. *)
Lemma offs8_bound o : In o quad8_offsets -> fst o <= 2 /\ snd o <= 2.
Proof. cbn. intros H. decompose [or] H; subst; cbn; try lia; contradiction. Qed.
Lemma offs9_bound o : In o quad9_offsets -> fst o <= 2 /\ snd o <= 2.
Proof. cbn. intros H. decompose [or] H; subst; cbn; try lia; contradiction. Qed.
Definition both_odd (i j : nat) : bool := Nat.odd i && Nat.odd j.
Lemma odd_2 k : Nat.odd (2 * k) = false.
Proof. rewrite Nat.odd_mul. reflexivity. Qed.
Lemma odd_21 k : Nat.odd (2 * k + 1) = true.
Proof. rewrite Nat.odd_add, odd_2. reflexivity. Qed.
Lemma used8 Nx Ny i j : 0 < Nx -> 0 < Ny -> i <= 2 * Nx -> j <= 2 * Ny ->
  used quad8_offsets Nx Ny (gid Ny i j) = negb (both_odd i j).
Proof.
  intros HX HY Hi Hj. apply eq_true_iff_eq. rewrite used_iff. split.
  - intros (a & b & o & Ha & Hb & Ho & E). assert (B := offs8_bound o Ho). unfold gid in E.
    apply pair_inj in E; [|unfold ny_fine; lia|unfold ny_fine; lia]. destruct E as [-> ->].
    cbn in Ho. unfold both_odd. decompose [or] Ho; subst; cbn [fst snd]; try contradiction;
      rewrite ?Nat.odd_add, ?odd_2; reflexivity.
  - intros E. destruct (even_odd i) as (a & [->| ->]); destruct (even_odd j) as (b & [->| ->]).
    + destruct (Nat.eq_dec a Nx) as [->|Na]; destruct (Nat.eq_dec b Ny) as [->|Nb].
      * exists (Nx - 1), (Ny - 1), (2, 2). repeat split; try lia; [cbn; tauto|]. cbn [fst snd]. f_equal; lia.
      * exists (Nx - 1), b, (2, 0). repeat split; try lia; [cbn; tauto|]. cbn [fst snd]. f_equal; lia.
      * exists a, (Ny - 1), (0, 2). repeat split; try lia; [cbn; tauto|]. cbn [fst snd]. f_equal; lia.
      * exists a, b, (0, 0). repeat split; try lia; [cbn; tauto|]. cbn [fst snd]. f_equal; lia.
    + destruct (Nat.eq_dec a Nx) as [->|Na].
      * exists (Nx - 1), b, (2, 1). repeat split; try lia; [cbn; tauto|]. cbn [fst snd]. f_equal; lia.
      * exists a, b, (0, 1). repeat split; try lia; [cbn; tauto|]. cbn [fst snd]. f_equal; lia.
    + destruct (Nat.eq_dec b Ny) as [->|Nb].
      * exists a, (Ny - 1), (1, 2). repeat split; try lia; [cbn; tauto|]. cbn [fst snd]. f_equal; lia.
      * exists a, b, (1, 0). repeat split; try lia; [cbn; tauto|]. cbn [fst snd]. f_equal; lia.
    + unfold both_odd in E. rewrite !odd_21 in E. discriminate.
Qed.
Lemma used9 Nx Ny i j : 0 < Nx -> 0 < Ny -> i <= 2 * Nx -> j <= 2 * Ny -> used quad9_offsets Nx Ny (gid Ny i j) = true.
Proof.
  intros HX HY Hi Hj. destruct (both_odd i j) eqn:E.
  - unfold both_odd in E. apply andb_true_iff in E. destruct E as [E1 E2].
    destruct (even_odd i) as (a & [->| ->]); [rewrite odd_2 in E1; discriminate|].
    destruct (even_odd j) as (b & [->| ->]); [rewrite odd_2 in E2; discriminate|].
    apply used_iff. exists a, b, (1, 1). repeat split; try lia. cbn. tauto.
  - assert (H := used8 Nx Ny i j HX HY Hi Hj). rewrite E in H. cbn in H. apply used_iff in H. apply used_iff.
    destruct H as (a & b & o & Ha & Hb & Ho & En). exists a, b, o. repeat split; auto. cbn in *. tauto.
Qed.

(** Counting. *)
Lemma filter_flat2 (f : nat -> bool) A B :
  length (filter f (seq 0 (A * B))) = list_sum (map (fun i => length (filter (fun j => f (i * B + j)) (seq 0 B))) (seq 0 A)).
Proof.
  induction A as [|A IH]; [reflexivity|]. replace (S A * B) with (A * B + B) by lia.
  rewrite seq_app, filter_app, app_length, IH, seq_S, map_app, list_sum_app. cbn [map list_sum fold_right Nat.add]. f_equal.
  rewrite Nat.add_0_r. generalize (A * B). intros s.
  assert (X : forall B s k, length (filter f (seq (s + k) B)) = length (filter (fun j => f (s + j)) (seq k B))).
  { clear. induction B as [|B IH]; intros s k; [reflexivity|]. cbn [seq filter].
    assert (Y := IH s (S k)). replace (s + S k) with (S (s + k)) in Y by lia. destruct (f (s + k)); cbn; rewrite Y; reflexivity. }
  specialize (X B s 0). rewrite Nat.add_0_r in X. exact X.
Qed.
Lemma sum_evenodd (f : nat -> nat) e o N : (forall k, k <= N -> f (2 * k) = e) -> (forall k, k < N -> f (2 * k + 1) = o) ->
  list_sum (map f (seq 0 (2 * N + 1))) = (N + 1) * e + N * o.
Proof.
  intros He Ho. induction N as [|N IH].
  - cbn. rewrite (He 0 ltac:(lia)) || idtac. specialize (He 0 ltac:(lia)). cbn in He. rewrite He. lia.
  - replace (2 * S N + 1) with (S (S (2 * N + 1))) by lia. rewrite !seq_S, !map_app, !list_sum_app.
    rewrite IH by (intros k Hk; first [apply He|apply Ho]; lia). cbn [map list_sum fold_right Nat.add].
    rewrite (Ho N) by lia. replace (S (2 * N + 1)) with (2 * S N) by lia. rewrite (He (S N)) by lia. lia.
Qed.
Lemma filter_len_sum (g : nat -> bool) l : length (filter g l) = list_sum (map (fun j => if g j then 1 else 0) l).
Proof. induction l as [|x t IH]; [reflexivity|]. cbn. destruct (g x); cbn; rewrite IH; reflexivity. Qed.
Lemma count8 Nx Ny : 0 < Nx -> 0 < Ny ->
  length (filter (used quad8_offsets Nx Ny) (seq 0 (nx_fine Nx * ny_fine Ny))) = (2 * Nx + 1) * (2 * Ny + 1) - Nx * Ny.
Proof.
  intros HX HY. rewrite filter_flat2. unfold nx_fine.
  rewrite (sum_evenodd _ (2 * Ny + 1) (Ny + 1) Nx); [nia| |].
  - intros k Hk. rewrite filter_len_sum. unfold ny_fine at 2. rewrite (sum_evenodd _ 1 1 Ny); [lia| |].
    + intros j Hj. change (2 * k * ny_fine Ny + 2 * j) with (gid Ny (2 * k) (2 * j)). rewrite used8 by lia.
      unfold both_odd. rewrite odd_2. reflexivity.
    + intros j Hj. change (2 * k * ny_fine Ny + (2 * j + 1)) with (gid Ny (2 * k) (2 * j + 1)). rewrite used8 by lia.
      unfold both_odd. rewrite odd_2. reflexivity.
  - intros k Hk. rewrite filter_len_sum. unfold ny_fine at 2. rewrite (sum_evenodd _ 1 0 Ny); [lia| |].
    + intros j Hj. change ((2 * k + 1) * ny_fine Ny + 2 * j) with (gid Ny (2 * k + 1) (2 * j)). rewrite used8 by lia.
      unfold both_odd. rewrite odd_2, andb_false_r. reflexivity.
    + intros j Hj. change ((2 * k + 1) * ny_fine Ny + (2 * j + 1)) with (gid Ny (2 * k + 1) (2 * j + 1)). rewrite used8 by lia.
      unfold both_odd. rewrite !odd_21. reflexivity.
Qed.
Lemma count9 Nx Ny : 0 < Nx -> 0 < Ny ->
  length (filter (used quad9_offsets Nx Ny) (seq 0 (nx_fine Nx * ny_fine Ny))) = (2 * Nx + 1) * (2 * Ny + 1).
Proof.
  intros HX HY. rewrite filter_flat2. unfold nx_fine.
  assert (R : forall i, i <= 2 * Nx -> length (filter (fun j => used quad9_offsets Nx Ny (i * ny_fine Ny + j)) (seq 0 (ny_fine Ny))) = 2 * Ny + 1).
  { intros i Hi. rewrite filter_len_sum. unfold ny_fine at 2. rewrite (sum_evenodd _ 1 1 Ny); [lia| |];
      intros j Hj; [change (i * ny_fine Ny + 2 * j) with (gid Ny i (2 * j))|change (i * ny_fine Ny + (2 * j + 1)) with (gid Ny i (2 * j + 1))];
      rewrite used9 by lia; reflexivity. }
  rewrite (sum_evenodd _ (2 * Ny + 1) (2 * Ny + 1) Nx); [lia| |]; intros k Hk; apply R; lia.
Qed.

(** The common description of the three meshes: node ids are given by integer positions on a
    grid with [s] subdivisions per cell. *)
Definition described (m : mesh2) (s Nx Ny : nat) (dx dy x0 y0 : Q) (offs : list (nat * nat)) (id : nat -> nat -> nat) : Prop :=
  length (snd m) = Nx * Ny /\
  (forall i j, i < Nx -> j < Ny -> nth (i * Ny + j) (snd m) [] = map (fun o => Some (id (s * i + fst o) (s * j + snd o))) offs) /\
  (forall i j o, i < Nx -> j < Ny -> In o offs ->
     let n := id (s * i + fst o) (s * j + snd o) in
     n < length (fst m) /\
     at_xy (nth n (fst m) (0, 0)%Q) (x0 + nq (s * i + fst o) * dx / nq (s * Nx)) (y0 + nq (s * j + snd o) * dy / nq (s * Ny))) /\
  (forall n, n < length (fst m) -> exists i j o, i < Nx /\ j < Ny /\ In o offs /\ n = id (s * i + fst o) (s * j + snd o)).

Definition quad4_offsets : list (nat * nat) := [(0, 0); (1, 0); (1, 1); (0, 1)].
Lemma described4 Nx Ny dx dy x0 y0 : 0 < Nx -> 0 < Ny ->
  described (quad4_points Nx Ny dx dy x0 y0, map (map (@Some nat)) (quad4_cells Nx Ny)) 1 Nx Ny dx dy x0 y0 quad4_offsets
            (fun I J => I * (Ny + 1) + J).
Proof.
  intros HX HY. assert (LP : length (quad4_points Nx Ny dx dy x0 y0) = (Nx + 1) * (Ny + 1))
    by (unfold quad4_points; rewrite grid_points_length, !linspaceQ_length; reflexivity).
  split; [|split; [|split]]; cbn [fst snd].
  - rewrite map_length. apply flat2_length.
  - intros i j Hi Hj.
    rewrite nth_map_in with (d := []) by (unfold quad4_cells; rewrite flat2_length; nia).
    unfold quad4_cells. rewrite (flat2_nth (quad4_cell Ny)) by assumption. cbn. repeat f_equal; lia.
  - intros i j o Hi Hj Ho. assert (B : fst o <= 1 /\ snd o <= 1) by (cbn in Ho; decompose [or] Ho; subst; cbn; try lia; contradiction).
    rewrite !Nat.mul_1_l. split; [rewrite LP; nia|].
    unfold quad4_points, at_xy.
    assert (EP := grid_points_nth (linspaceQ x0 (x0 + dx) (Nx + 1)) (linspaceQ y0 (y0 + dy) (Ny + 1)) (i + fst o) (j + snd o) (0, 0)%Q).
    rewrite !linspaceQ_length in EP. rewrite EP by lia. cbn [fst snd]. split; apply linspaceQ_nth; lia.
  - intros n Hn. rewrite LP in Hn. destruct (split2 (Ny + 1) n ltac:(lia)) as (I & J & -> & HJ).
    assert (HI : I <= Nx) by nia.
    assert (X : exists i a, i < Nx /\ (a = 0 \/ a = 1) /\ I = i + a) by (destruct (Nat.eq_dec I Nx); [exists (Nx - 1), 1|exists I, 0]; lia).
    assert (Y : exists j b, j < Ny /\ (b = 0 \/ b = 1) /\ J = j + b) by (destruct (Nat.eq_dec J Ny); [exists (Ny - 1), 1|exists J, 0]; lia).
    destruct X as (i & a & Hi & Ha & ->), Y as (j & b & Hj & Hb & ->). exists i, j, (a, b). split; [exact Hi|]. split; [exact Hj|].
    split; [|cbn [fst snd]; rewrite !Nat.mul_1_l; reflexivity]. destruct Ha, Hb; subst; cbn; tauto.
Qed.
Lemma described_fine offs Nx Ny dx dy x0 y0 : 0 < Nx -> 0 < Ny -> (forall o, In o offs -> fst o <= 2 /\ snd o <= 2) ->
  described (fine_points offs Nx Ny dx dy x0 y0, compact_cells offs Nx Ny) 2 Nx Ny dx dy x0 y0 offs
            (fun I J => rank (used offs Nx Ny) (gid Ny I J)).
Proof.
  intros HX HY Ho.
  assert (LP : length (fine_points offs Nx Ny dx dy x0 y0) = length (filter (used offs Nx Ny) (seq 0 (nx_fine Nx * ny_fine Ny))))
    by apply map_length.
  assert (Us : forall i j o, i < Nx -> j < Ny -> In o offs -> used offs Nx Ny (gid Ny (2 * i + fst o) (2 * j + snd o)) = true)
    by (intros i j o Hi Hj Hin; apply used_iff; exists i, j, o; auto).
  split; [|split; [|split]]; cbn [fst snd].
  - unfold compact_cells. rewrite map_length. apply flat2_length.
  - intros i j Hi Hj. unfold compact_cells.
    rewrite nth_map_in with (d := []) by (unfold fine_cells; rewrite flat2_length; nia).
    unfold fine_cells. rewrite (flat2_nth (fine_cell offs Ny)) by assumption. unfold fine_cell. rewrite map_map.
    apply map_ext_in. intros o Hin. apply keep_in; auto.
  - intros i j o Hi Hj Hin. destruct (keep_in offs Nx Ny Ho _ (Us i j o Hi Hj Hin)) as (_ & L & _).
    split; [rewrite LP; exact L|]. assert (B := Ho o Hin). unfold at_xy.
    apply (fine_point offs Nx Ny Ho); auto; lia.
  - intros n Hn. rewrite LP in Hn. destruct (@rank_surj (used offs Nx Ny) _ _ Hn) as (x & Hx & Ux & <-).
    apply used_iff in Ux. destruct Ux as (i & j & o & Hi & Hj & Hin & ->). exists i, j, o. auto.
Qed.

Lemma frac_coord s N i a x0 dx : 0 < s -> 0 < N ->
  (x0 + nq (s * i + a) * dx / nq (s * N) == x0 + (nq i + nq a / nq s) * dx / nq N)%Q.
Proof.
  intros Hs HN. rewrite nq_add, !nq_mul. apply nq_pos in Hs, HN. field. split; lra.
Qed.
Lemma described_locs m s Nx Ny dx dy x0 y0 offs id : described m s Nx Ny dx dy x0 y0 offs id -> 0 < s -> 0 < Nx -> 0 < Ny ->
  forall i j k o, i < Nx -> j < Ny -> nth_error offs k = Some o ->
    node_of m (i * Ny + j) k = Some (id (s * i + fst o) (s * j + snd o)) /\ id (s * i + fst o) (s * j + snd o) < length (fst m) /\
    at_xy (nth (id (s * i + fst o) (s * j + snd o)) (fst m) (0, 0)%Q) (gx x0 dx Nx i (nq (fst o) / nq s)) (gx y0 dy Ny j (nq (snd o) / nq s)).
Proof.
  intros (_ & HC & HP & _) Hs HX HY i j k o Hi Hj Ho. split.
  - unfold node_of. rewrite (HC i j Hi Hj). apply nth_error_nth. rewrite nth_error_map, Ho. reflexivity.
  - apply nth_error_In in Ho. destruct (HP i j o Hi Hj Ho) as (B & X & Y). split; [exact B|].
    unfold gx, at_xy. rewrite X, Y. split; apply frac_coord; assumption.
Qed.
Lemma described_inj m s Nx Ny dx dy x0 y0 offs id : described m s Nx Ny dx dy x0 y0 offs id -> 0 < s -> 0 < Nx -> 0 < Ny ->
  ~ (dx == 0)%Q -> ~ (dy == 0)%Q ->
  forall n n', n < length (fst m) -> n' < length (fst m) ->
    at_xy (nth n (fst m) (0, 0)%Q) (fst (nth n' (fst m) (0, 0)%Q)) (snd (nth n' (fst m) (0, 0)%Q)) -> n = n'.
Proof.
  intros (_ & _ & HP & HS) Hs HX HY Hdx Hdy n n' Hn Hn' [E1 E2].
  destruct (HS n Hn) as (i & j & o & Hi & Hj & Ho & ->). destruct (HS n' Hn') as (i' & j' & o' & Hi' & Hj' & Ho' & ->).
  destruct (HP i j o Hi Hj Ho) as (_ & X & Y). destruct (HP i' j' o' Hi' Hj' Ho') as (_ & X' & Y').
  rewrite X, X' in E1. rewrite Y, Y' in E2.
  assert (F1 : (nq (s * i + fst o) == nq (s * i' + fst o'))%Q) by (apply (qdiv_cancel _ _ dx (s * Nx)); [nia|exact Hdx|lra]).
  assert (F2 : (nq (s * j + snd o) == nq (s * j' + snd o'))%Q) by (apply (qdiv_cancel _ _ dy (s * Ny)); [nia|exact Hdy|lra]).
  apply nq_inj in F1, F2. rewrite F1, F2. reflexivity.
Qed.
Definition locs_match (s : nat) (offs : list (nat * nat)) (locs : list pt2) : Prop :=
  length locs = length offs /\
  forall k o, nth_error offs k = Some o -> exists a b, nth_error locs k = Some (a, b) /\ (nq (fst o) / nq s == a /\ nq (snd o) / nq s == b)%Q.
Lemma rect_described Nx Ny dx dy x0 y0 ele locs : 0 < Nx -> 0 < Ny -> ref_nodes ele = Some locs ->
  exists m s offs id, rectangle_mesh Nx Ny dx dy x0 y0 ele = Some m /\ described m s Nx Ny dx dy x0 y0 offs id /\ 0 < s /\
    locs_match s offs locs /\ length (fst m) = node_count ele Nx Ny.
Proof.
  intros HX HY HR. unfold ref_nodes in HR. unfold rectangle_mesh, node_count.
  destruct (String.eqb_spec ele "QUAD4") as [->|N4]; [|destruct (String.eqb_spec ele "QUAD8") as [->|N8];
     [|destruct (String.eqb_spec ele "QUAD9") as [->|N9]; [|discriminate]]]; injection HR as <-; cbn.
  - eexists. exists 1, quad4_offsets. eexists. split; [reflexivity|]. split; [apply described4; assumption|]. split; [lia|].
    split; [split; [reflexivity|]|].
    + intros k o Hk. do 4 (destruct k as [|k]; [cbn in Hk; injection Hk as <-; eexists; eexists; split; [reflexivity|split; reflexivity]|]).
      destruct k; discriminate.
    + unfold quad4_points. cbn [fst]. rewrite grid_points_length, !linspaceQ_length. reflexivity.
  - eexists. exists 2, quad8_offsets. eexists. split; [reflexivity|]. split; [apply described_fine; try assumption; apply offs8_bound|]. split; [lia|].
    split; [split; [reflexivity|]|].
    + intros k o Hk. do 8 (destruct k as [|k]; [cbn in Hk; injection Hk as <-; eexists; eexists; split; [reflexivity|split; reflexivity]|]).
      destruct k; discriminate.
    + unfold fine_points. cbn [fst]. rewrite map_length. apply count8; assumption.
  - eexists. exists 2, quad9_offsets. eexists. split; [reflexivity|]. split; [apply described_fine; try assumption; apply offs9_bound|]. split; [lia|].
    split; [split; [reflexivity|]|].
    + intros k o Hk. do 9 (destruct k as [|k]; [cbn in Hk; injection Hk as <-; eexists; eexists; split; [reflexivity|split; reflexivity]|]).
      destruct k; discriminate.
    + unfold fine_points. cbn [fst]. rewrite map_length. apply count9; assumption.
Qed.

(** ** C28 *)
(** Sizes, and the exact position of every node of every cell, for the three element types;
    other types are rejected. Cell (i, j) is cell number i*Ny + j. *)
Theorem C28_rectangle :
  forall Nx Ny dx dy x0 y0 ele, 0 < Nx -> 0 < Ny ->
    match ref_nodes ele with
    | None => rectangle_mesh Nx Ny dx dy x0 y0 ele = None
    | Some locs => exists m, rectangle_mesh Nx Ny dx dy x0 y0 ele = Some m /\
        length (fst m) = node_count ele Nx Ny /\ length (snd m) = Nx * Ny /\
        forall i j, i < Nx -> j < Ny ->
          length (nth (i * Ny + j) (snd m) []) = length locs /\
          forall k a b, nth_error locs k = Some (a, b) ->
            exists n, node_of m (i * Ny + j) k = Some n /\ n < length (fst m) /\
                      at_xy (nth n (fst m) (0, 0)%Q) (gx x0 dx Nx i a) (gx y0 dy Ny j b)
    end.
Proof.
  intros Nx Ny dx dy x0 y0 ele HX HY. destruct (ref_nodes ele) as [locs|] eqn:HR.
  - destruct (rect_described Nx Ny dx dy x0 y0 ele locs HX HY HR) as (m & s & offs & id & E & D & Hs & (LL & LM) & LC).
    exists m. split; [exact E|]. split; [exact LC|]. split; [apply D|]. intros i j Hi Hj. split.
    + rewrite (proj1 (proj2 D) i j Hi Hj), map_length. symmetry. exact LL.
    + intros k a b Hk. destruct (nth_error offs k) as [o|] eqn:Ho.
      2:{ apply nth_error_None in Ho. assert (k < length locs) by (apply nth_error_Some; congruence). lia. }
      destruct (LM k o Ho) as (a' & b' & Hk' & Ea & Eb). assert (EQ : (a', b') = (a, b)) by congruence. injection EQ as -> ->.
      destruct (described_locs _ _ _ _ _ _ _ _ _ _ D Hs HX HY i j k o Hi Hj Ho) as (X & Y & P1 & P2).
      eexists. split; [exact X|]. split; [exact Y|]. split; [rewrite P1|rewrite P2]; unfold gx; [rewrite Ea|rewrite Eb]; reflexivity.
  - unfold ref_nodes in HR. unfold rectangle_mesh.
    destruct (String.eqb ele "QUAD4"); [discriminate|]. destruct (String.eqb ele "QUAD8"); [discriminate|].
    destruct (String.eqb ele "QUAD9"); [discriminate|]. reflexivity.
Qed.
Print Assumptions C28_rectangle.
(** Different node ids are different points, so cells share an id exactly where they share a
    position; and every node belongs to some cell. *)
Theorem C28_nodes :
  forall Nx Ny dx dy x0 y0 ele m, 0 < Nx -> 0 < Ny -> ~ (dx == 0)%Q -> ~ (dy == 0)%Q ->
    rectangle_mesh Nx Ny dx dy x0 y0 ele = Some m ->
    (forall n n', n < length (fst m) -> n' < length (fst m) ->
       at_xy (nth n (fst m) (0, 0)%Q) (fst (nth n' (fst m) (0, 0)%Q)) (snd (nth n' (fst m) (0, 0)%Q)) -> n = n') /\
    (forall n, n < length (fst m) -> exists c k, c < length (snd m) /\ node_of m c k = Some n).
Proof.
  intros Nx Ny dx dy x0 y0 ele m HX HY Hdx Hdy E. destruct (ref_nodes ele) as [locs|] eqn:HR.
  2:{ assert (X := C28_rectangle Nx Ny dx dy x0 y0 ele HX HY). rewrite HR in X. congruence. }
  destruct (rect_described Nx Ny dx dy x0 y0 ele locs HX HY HR) as (m' & s & offs & id & E' & D & Hs & _ & _).
  assert (m' = m) by congruence. subst m'. split.
  - eapply described_inj; eassumption.
  - intros n Hn. destruct D as (LC & HC & _ & HS). destruct (HS n Hn) as (i & j & o & Hi & Hj & Ho & ->).
    apply In_nth_error in Ho. destruct Ho as (k & Ho). exists (i * Ny + j), k. split; [rewrite LC; nia|].
    unfold node_of. rewrite (HC i j Hi Hj). apply nth_error_nth. rewrite nth_error_map, Ho. reflexivity.
Qed.
Print Assumptions C28_nodes.

(** Directed boundary edges of a cell: consecutive corners. *)
Definition edge_of (m : mesh2) (c a b : nat) : Prop :=
  exists k, k < 4 /\ node_of m c k = Some a /\ node_of m c ((k + 1) mod 4) = Some b.
(** Both points lie on the same side of the rectangle. *)
Definition on_boundary (x0 y0 dx dy : Q) (p q : pt2) : Prop :=
  ((fst p == x0 /\ fst q == x0) \/ (fst p == x0 + dx /\ fst q == x0 + dx) \/
   (snd p == y0 /\ snd q == y0) \/ (snd p == y0 + dy /\ snd q == y0 + dy))%Q.
Lemma gx_eq x0 dx N i i' (a a' : nat) : 0 < N -> ~ (dx == 0)%Q -> (gx x0 dx N i (nq a) == gx x0 dx N i' (nq a'))%Q <-> i + a = i' + a'.
Proof.
  intros HN Hd. unfold gx. split.
  - intros E. assert (F : (nq i + nq a == nq i' + nq a')%Q) by (apply (qdiv_cancel _ _ dx N HN Hd); lra).
    rewrite <- !nq_add in F. apply nq_inj in F. exact F.
  - intros E. assert (F : (nq i + nq a == nq i' + nq a')%Q) by (rewrite <- !nq_add, E; reflexivity). rewrite F. reflexivity.
Qed.
Lemma gx_lo x0 dx N i (a : nat) : 0 < N -> ~ (dx == 0)%Q -> (gx x0 dx N i (nq a) == x0)%Q <-> i + a = 0.
Proof.
  intros HN Hd. rewrite <- (gx_eq x0 dx N i 0 a 0 HN Hd). unfold gx. change (nq 0) with 0%Q.
  assert (X : (x0 + (0 + 0) * dx / nq N == x0)%Q) by (apply nq_pos in HN; field; intros Z; rewrite Z in HN; lra). rewrite X. reflexivity.
Qed.
Lemma gx_hi x0 dx N i (a : nat) : 0 < N -> ~ (dx == 0)%Q -> (gx x0 dx N i (nq a) == x0 + dx)%Q <-> i + a = N.
Proof.
  intros HN Hd. replace N with (N + 0) at 2 by lia. rewrite <- (gx_eq x0 dx N i N a 0 HN Hd).
  assert (X : (gx x0 dx N N (nq 0) == x0 + dx)%Q).
  { unfold gx. change (nq 0) with 0%Q. apply nq_pos in HN. field. intros Z; rewrite Z in HN; lra. } rewrite X. reflexivity.
Qed.
(** Grid offsets of the four corners. *)
Definition ca (k : nat) : nat := nth k [0; 1; 1; 0] 0.
Definition cb (k : nat) : nat := nth k [0; 0; 1; 1] 0.
Lemma corner_of ele locs k : ref_nodes ele = Some locs -> k < 4 -> nth_error locs k = Some (nq (ca k), nq (cb k)).
Proof.
  unfold ref_nodes. intros HR Hk.
  destruct (String.eqb ele "QUAD4"); [|destruct (String.eqb ele "QUAD8"); [|destruct (String.eqb ele "QUAD9"); [|discriminate]]];
    injection HR as <-; do 4 (destruct k as [|k]; [reflexivity|]); lia.
Qed.
Section Corners.
  Variables (Nx Ny : nat) (dx dy x0 y0 : Q) (ele : string) (m : mesh2).
  Hypotheses (HX : 0 < Nx) (HY : 0 < Ny) (Hdx : ~ (dx == 0)%Q) (Hdy : ~ (dy == 0)%Q).
  Hypothesis E : rectangle_mesh Nx Ny dx dy x0 y0 ele = Some m.
  Lemma corner_point i j k : i < Nx -> j < Ny -> k < 4 -> exists n, node_of m (i * Ny + j) k = Some n /\ n < length (fst m) /\
    at_xy (nth n (fst m) (0, 0)%Q) (gx x0 dx Nx i (nq (ca k))) (gx y0 dy Ny j (nq (cb k))).
  Proof.
    intros Hi Hj Hk. assert (R := C28_rectangle Nx Ny dx dy x0 y0 ele HX HY).
    destruct (ref_nodes ele) as [locs|] eqn:HR; [|congruence].
    destruct R as (m' & E' & _ & _ & R). assert (m' = m) by congruence. subst m'.
    apply (proj2 (R i j Hi Hj)). apply (corner_of ele); assumption.
  Qed.
  Lemma corner_eq i j k i' j' k' n n' : i < Nx -> j < Ny -> k < 4 -> i' < Nx -> j' < Ny -> k' < 4 ->
    node_of m (i * Ny + j) k = Some n -> node_of m (i' * Ny + j') k' = Some n' ->
    (n = n' <-> i + ca k = i' + ca k' /\ j + cb k = j' + cb k').
  Proof.
    intros Hi Hj Hk Hi' Hj' Hk' N1 N2.
    destruct (corner_point i j k Hi Hj Hk) as (a & A & La & Pa). destruct (corner_point i' j' k' Hi' Hj' Hk') as (b & B & Lb & Pb).
    assert (a = n) by congruence. assert (b = n') by congruence. subst a b. destruct Pa as [Xa Ya], Pb as [Xb Yb]. split.
    - intros <-. split.
      + apply (gx_eq x0 dx Nx i i' _ _ HX Hdx). rewrite <- Xa, <- Xb. reflexivity.
      + apply (gx_eq y0 dy Ny j j' _ _ HY Hdy). rewrite <- Ya, <- Yb. reflexivity.
    - intros [E1 E2]. apply (proj1 (C28_nodes Nx Ny dx dy x0 y0 ele m HX HY Hdx Hdy E)); [assumption|assumption|].
      apply (gx_eq x0 dx Nx i i' _ _ HX Hdx) in E1. apply (gx_eq y0 dy Ny j j' _ _ HY Hdy) in E2.
      split; [rewrite Xa, Xb; exact E1|rewrite Ya, Yb; exact E2].
  Qed.
End Corners.
Ltac m4 := change ((0 + 1) mod 4) with 1 in *; change ((1 + 1) mod 4) with 2 in *;
  change ((2 + 1) mod 4) with 3 in *; change ((3 + 1) mod 4) with 0 in *; unfold ca, cb in *; cbn [nth] in *.
(** Every directed edge belongs to one cell only; its reverse belongs to exactly one other cell
    if the edge is interior, and to none if it lies on the boundary of the rectangle. *)
Theorem C28_edges :
  forall Nx Ny dx dy x0 y0 ele m c a b, 0 < Nx -> 0 < Ny -> ~ (dx == 0)%Q -> ~ (dy == 0)%Q ->
    rectangle_mesh Nx Ny dx dy x0 y0 ele = Some m -> c < length (snd m) -> edge_of m c a b ->
    (forall c', c' < length (snd m) -> edge_of m c' a b -> c' = c) /\
    (on_boundary x0 y0 dx dy (nth a (fst m) (0, 0)%Q) (nth b (fst m) (0, 0)%Q) ->
       forall c', c' < length (snd m) -> ~ edge_of m c' b a) /\
    (~ on_boundary x0 y0 dx dy (nth a (fst m) (0, 0)%Q) (nth b (fst m) (0, 0)%Q) ->
       exists c', c' < length (snd m) /\ c' <> c /\ edge_of m c' b a).
Proof.
  intros Nx Ny dx dy x0 y0 ele m c a b HX HY Hdx Hdy E Hc (k & Hk & Na & Nb).
  assert (LC : length (snd m) = Nx * Ny).
  { assert (R := C28_rectangle Nx Ny dx dy x0 y0 ele HX HY). destruct (ref_nodes ele); [|congruence].
    destruct R as (m' & E' & _ & L & _). congruence. }
  assert (Dec : forall c, c < length (snd m) -> exists i j, c = i * Ny + j /\ i < Nx /\ j < Ny).
  { intros d Hd. rewrite LC in Hd. destruct (split2 Ny d HY) as (i & j & -> & Hj). exists i, j. repeat split; try assumption. nia. }
  assert (CE := corner_eq Nx Ny dx dy x0 y0 ele m HX HY Hdx Hdy E).
  assert (CP := corner_point Nx Ny dx dy x0 y0 ele m HX HY E).
  destruct (Dec c Hc) as (i & j & -> & Hi & Hj).
  assert (Hk1 : (k + 1) mod 4 < 4) by (apply Nat.mod_upper_bound; lia).
  assert (K4 : k = 0 \/ k = 1 \/ k = 2 \/ k = 3) by lia.
  assert (BD : on_boundary x0 y0 dx dy (nth a (fst m) (0, 0)%Q) (nth b (fst m) (0, 0)%Q) <->
    (i + ca k = 0 /\ i + ca ((k + 1) mod 4) = 0) \/ (i + ca k = Nx /\ i + ca ((k + 1) mod 4) = Nx) \/
    (j + cb k = 0 /\ j + cb ((k + 1) mod 4) = 0) \/ (j + cb k = Ny /\ j + cb ((k + 1) mod 4) = Ny)).
  { destruct (CP i j k Hi Hj Hk) as (a' & A & _ & Xa & Ya). destruct (CP i j _ Hi Hj Hk1) as (b' & B & _ & Xb & Yb).
    assert (a' = a) by congruence. assert (b' = b) by congruence. subst a' b'. unfold on_boundary.
    rewrite Xa, Ya, Xb, Yb. rewrite !gx_lo, !gx_hi by assumption. reflexivity. }
  split; [|split].
  - intros c' Hc' (k' & Hk' & Na' & Nb'). destruct (Dec c' Hc') as (i' & j' & -> & Hi' & Hj').
    assert (Hk1' : (k' + 1) mod 4 < 4) by (apply Nat.mod_upper_bound; lia).
    assert (P1 := proj1 (CE i j k i' j' k' a a Hi Hj Hk Hi' Hj' Hk' Na Na') eq_refl).
    assert (P2 := proj1 (CE i j _ i' j' _ b b Hi Hj Hk1 Hi' Hj' Hk1' Nb Nb') eq_refl).
    assert (K4' : k' = 0 \/ k' = 1 \/ k' = 2 \/ k' = 3) by lia. clear - P1 P2 K4 K4'.
    assert (i = i' /\ j = j') as [-> ->]; [|reflexivity].
    decompose [or] K4; decompose [or] K4'; subst k k'; m4; lia.
  - intros HB c' Hc' (k' & Hk' & Nb' & Na'). apply BD in HB. destruct (Dec c' Hc') as (i' & j' & -> & Hi' & Hj').
    assert (Hk1' : (k' + 1) mod 4 < 4) by (apply Nat.mod_upper_bound; lia).
    assert (P1 := proj1 (CE i j k i' j' _ a a Hi Hj Hk Hi' Hj' Hk1' Na Na') eq_refl).
    assert (P2 := proj1 (CE i j _ i' j' k' b b Hi Hj Hk1 Hi' Hj' Hk' Nb Nb') eq_refl).
    assert (K4' : k' = 0 \/ k' = 1 \/ k' = 2 \/ k' = 3) by lia. clear - P1 P2 K4 K4' HB Hi Hj Hi' Hj'.
    decompose [or] K4; decompose [or] K4'; subst k k'; m4; lia.
  - intros HB. rewrite BD in HB.
    assert (Nbr : exists i' j' k', i' < Nx /\ j' < Ny /\ k' < 4 /\ (i' <> i \/ j' <> j) /\
       i + ca k = i' + ca ((k' + 1) mod 4) /\ j + cb k = j' + cb ((k' + 1) mod 4) /\
       i + ca ((k + 1) mod 4) = i' + ca k' /\ j + cb ((k + 1) mod 4) = j' + cb k').
    { clear - HB Hi Hj K4. decompose [or] K4; subst k; m4.
      - exists i, (j - 1), 2. m4. lia.
      - exists (i + 1), j, 3. m4. lia.
      - exists i, (j + 1), 0. m4. lia.
      - exists (i - 1), j, 1. m4. lia. }
    destruct Nbr as (i' & j' & k' & Hi' & Hj' & Hk' & Hne & P1 & P2 & P3 & P4).
    assert (Hk1' : (k' + 1) mod 4 < 4) by (apply Nat.mod_upper_bound; lia).
    destruct (CP i' j' k' Hi' Hj' Hk') as (b' & B & _). destruct (CP i' j' _ Hi' Hj' Hk1') as (a' & A & _).
    assert (a = a') by (apply (CE i j k i' j' ((k' + 1) mod 4)); auto). assert (b = b') by (apply (CE i j ((k + 1) mod 4) i' j' k'); auto). subst a' b'.
    exists (i' * Ny + j'). split; [rewrite LC; clear - Hi' Hj'; nia|]. split; [intros X; apply pair_inj in X; [lia|exact Hj'|exact Hj]|].
    exists k'. auto.
Qed.
Print Assumptions C28_edges.
(** The cells tile the rectangle: every point of it lies in the half-open square of exactly one
    cell (spanned by the cell's corners 0 and 2), and corners 0, 1, 2, 3 turn counter-clockwise
    around a square of area dx/Nx * dy/Ny. *)
Definition corner_pt (m : mesh2) (c k : nat) : pt2 := match node_of m c k with Some n => nth n (fst m) (0, 0)%Q | None => (0, 0)%Q end.
Definition in_cell (m : mesh2) (c : nat) (x y : Q) : Prop :=
  (fst (corner_pt m c 0) <= x < fst (corner_pt m c 2) /\ snd (corner_pt m c 0) <= y < snd (corner_pt m c 2))%Q.
Definition cross (p q r : pt2) : Q := ((fst q - fst p) * (snd r - snd p) - (snd q - snd p) * (fst r - fst p))%Q.
Lemma floor_cell x0 dx N x : 0 < N -> (0 < dx)%Q -> (x0 <= x < x0 + dx)%Q ->
  exists i, i < N /\ forall i', i' < N -> ((gx x0 dx N i' 0 <= x < gx x0 dx N i' 1)%Q <-> i' = i).
Proof.
  intros HN Hd Hx. assert (PN := nq_pos N HN). set (t := ((x - x0) * nq N / dx)%Q).
  assert (Ht : (t * dx == (x - x0) * nq N)%Q) by (unfold t; field; lra).
  assert (T0 : (0 <= t)%Q) by (apply (Qmult_le_r 0 t dx Hd); rewrite Ht; nra).
  assert (T1 : (t < nq N)%Q) by (apply (Qmult_lt_r t (nq N) dx Hd); rewrite Ht; nra).
  assert (F0 := Qfloor_le t). assert (F1 := Qlt_floor t).
  assert (G0 : (0 <= Qfloor t)%Z) by (change 0%Z with (Qfloor 0); apply Qfloor_resp_le; exact T0).
  exists (Z.to_nat (Qfloor t)).
  assert (En : nq (Z.to_nat (Qfloor t)) = inject_Z (Qfloor t)) by (unfold nq; rewrite Z2Nat.id by exact G0; reflexivity).
  split.
  - assert (H : (inject_Z (Qfloor t) < inject_Z (Z.of_nat N))%Q) by (unfold nq in T1; lra). rewrite <- Zlt_Qlt in H. lia.
  - intros i' Hi'.
    assert (EQ : (gx x0 dx N i' 0 <= x < gx x0 dx N i' 1)%Q <-> (nq i' <= t < nq i' + 1)%Q).
    { assert (G : forall a, (gx x0 dx N i' a * nq N == x0 * nq N + (nq i' + a) * dx)%Q) by (intros a; unfold gx; field; lra).
      assert (S1 : (gx x0 dx N i' 0 <= x)%Q <-> (nq i' <= t)%Q).
      { rewrite <- (Qmult_le_r _ _ (nq N) PN), <- (Qmult_le_r (nq i') t dx Hd), Ht, G. split; intros; lra. }
      assert (S2 : (x < gx x0 dx N i' 1)%Q <-> (t < nq i' + 1)%Q).
      { rewrite <- (Qmult_lt_r _ _ (nq N) PN), <- (Qmult_lt_r t (nq i' + 1) dx Hd), Ht, G. split; intros; lra. }
      rewrite S1, S2. reflexivity. }
    rewrite EQ. split.
    + intros [A B]. clear - A B F0 F1. unfold nq in A, B.
      assert (I1 : forall z, (inject_Z (z + 1) == inject_Z z + 1)%Q) by (intros z; rewrite inject_Z_plus; reflexivity).
      rewrite I1 in F1. assert (X : (inject_Z (Z.of_nat i') < inject_Z (Qfloor t + 1))%Q) by (rewrite I1; lra).
      assert (Y : (inject_Z (Qfloor t) < inject_Z (Z.of_nat i' + 1))%Q) by (rewrite I1; lra).
      rewrite <- Zlt_Qlt in X, Y. lia.
    + intros ->. rewrite En. clear - F0 F1.
      assert (I1 : forall z, (inject_Z (z + 1) == inject_Z z + 1)%Q) by (intros z; rewrite inject_Z_plus; reflexivity).
      rewrite I1 in F1. lra.
Qed.
Theorem C28_tiling :
  forall Nx Ny dx dy x0 y0 ele m, 0 < Nx -> 0 < Ny -> (0 < dx)%Q -> (0 < dy)%Q ->
    rectangle_mesh Nx Ny dx dy x0 y0 ele = Some m ->
    (forall x y, (x0 <= x < x0 + dx)%Q -> (y0 <= y < y0 + dy)%Q ->
       exists c, c < length (snd m) /\ forall c', c' < length (snd m) -> (in_cell m c' x y <-> c' = c)) /\
    (forall c, c < length (snd m) ->
       (cross (corner_pt m c 0) (corner_pt m c 1) (corner_pt m c 2) == dx / nq Nx * (dy / nq Ny) /\
        cross (corner_pt m c 2) (corner_pt m c 3) (corner_pt m c 0) == dx / nq Nx * (dy / nq Ny))%Q).
Proof.
  intros Nx Ny dx dy x0 y0 ele m HX HY Hdx Hdy E.
  assert (LC : length (snd m) = Nx * Ny).
  { assert (R := C28_rectangle Nx Ny dx dy x0 y0 ele HX HY). destruct (ref_nodes ele); [|congruence].
    destruct R as (m' & E' & _ & L & _). congruence. }
  assert (CP : forall i j k, i < Nx -> j < Ny -> k < 4 ->
    at_xy (corner_pt m (i * Ny + j) k) (gx x0 dx Nx i (nq (ca k))) (gx y0 dy Ny j (nq (cb k)))).
  { intros i j k Hi Hj Hk. destruct (corner_point Nx Ny dx dy x0 y0 ele m HX HY E i j k Hi Hj Hk) as (n & A & _ & P).
    unfold corner_pt. rewrite A. exact P. }
  assert (Dec : forall c, c < length (snd m) -> exists i j, c = i * Ny + j /\ i < Nx /\ j < Ny).
  { intros d Hd. rewrite LC in Hd. destruct (split2 Ny d HY) as (i & j & -> & Hj). exists i, j. repeat split; try assumption. nia. }
  split.
  - intros x y Hx Hy. destruct (floor_cell x0 dx Nx x HX Hdx Hx) as (i & Hi & Ui). destruct (floor_cell y0 dy Ny y HY Hdy Hy) as (j & Hj & Uj).
    exists (i * Ny + j). split; [rewrite LC; nia|]. intros c' Hc'. destruct (Dec c' Hc') as (i' & j' & -> & Hi' & Hj').
    unfold in_cell. destruct (CP i' j' 0 Hi' Hj' ltac:(lia)) as [X0 Y0]. destruct (CP i' j' 2 Hi' Hj' ltac:(lia)) as [X2 Y2].
    rewrite X0, Y0, X2, Y2. change (nq (ca 0)) with 0%Q. change (nq (cb 0)) with 0%Q. change (nq (ca 2)) with 1%Q. change (nq (cb 2)) with 1%Q.
    rewrite (Ui i' Hi'), (Uj j' Hj'). split; [intros [-> ->]; reflexivity|]. intros X. apply pair_inj in X; assumption.
  - intros c Hc. destruct (Dec c Hc) as (i & j & -> & Hi & Hj).
    destruct (CP i j 0 Hi Hj ltac:(lia)) as [X0 Y0]. destruct (CP i j 1 Hi Hj ltac:(lia)) as [X1 Y1].
    destruct (CP i j 2 Hi Hj ltac:(lia)) as [X2 Y2]. destruct (CP i j 3 Hi Hj ltac:(lia)) as [X3 Y3].
    unfold cross. rewrite X0, Y0, X1, Y1, X2, Y2, X3, Y3. unfold gx.
    change (nq (ca 0)) with 0%Q. change (nq (cb 0)) with 0%Q. change (nq (ca 1)) with 1%Q. change (nq (cb 1)) with 0%Q.
    change (nq (ca 2)) with 1%Q. change (nq (cb 2)) with 1%Q. change (nq (ca 3)) with 0%Q. change (nq (cb 3)) with 1%Q.
    assert (PX := nq_pos Nx HX). assert (PY := nq_pos Ny HY). split; field; lra.
Qed.
Print Assumptions C28_tiling.
Example C28_example :
  exists m, rectangle_mesh 2 3 2 3 0 0 "QUAD8" = Some m /\ length (fst m) = 29 /\
    nth 0 (snd m) [] = [Some 0; Some 11; Some 13; Some 2; Some 7; Some 12; Some 8; Some 1].
Proof. eexists. split; [reflexivity|]. split; vm_compute; reflexivity. Qed.

(** ** C53 *)
(** The last block of a given element type. *)
Definition last_block {A} (ty : string) (blocks : list (string * A)) : option A :=
  option_map snd (find (fun b => match meshio_to_feax (fst b) with Some k => String.eqb k ty | None => false end) (rev blocks)).
Lemma dict_get_set {A} k k' (v : A) d : dict_get k (dict_set k' v d) = if String.eqb k k' then Some v else dict_get k d.
Proof.
  induction d as [|[k0 v0] t IH]; cbn.
  - reflexivity.
  - destruct (String.eqb_spec k' k0) as [->|N]; cbn.
    + destruct (String.eqb k k0); reflexivity.
    + rewrite IH. destruct (String.eqb_spec k k0) as [->|N2]; [|reflexivity].
      destruct (String.eqb_spec k0 k') as [->|N3]; [congruence|reflexivity].
Qed.
Lemma available_get {A} ty (blocks : list (string * A)) : dict_get ty (available blocks) = last_block ty blocks.
Proof.
  unfold available, last_block. induction blocks as [|b t IH] using rev_ind; [reflexivity|].
  rewrite fold_left_app, rev_app_distr. cbn [fold_left rev app find]. destruct (meshio_to_feax (fst b)) as [k|] eqn:E.
  - rewrite dict_get_set, String.eqb_sym. destruct (String.eqb k ty); [reflexivity|exact IH].
  - exact IH.
Qed.
Lemma dict_set_key {A} k k' (v : A) d : (exists x, In (k, x) (dict_set k' v d)) -> k = k' \/ exists x, In (k, x) d.
Proof.
  induction d as [|[k0 v0] t IH]; cbn.
  - intros (x & [H|[]]). left. congruence.
  - destruct (String.eqb k' k0); cbn.
    + intros (x & [H|H]); right; [exists v0; left; congruence|exists x; auto].
    + intros (x & [H|H]); [right; exists x; left; exact H|]. destruct IH as [IH|(y & IH)]; [exists x; exact H|auto|right; exists y; auto].
Qed.
Lemma dict_get_in {A} k (d : list (string * A)) : (exists x, In (k, x) d) -> dict_get k d <> None.
Proof.
  intros (x & H). induction d as [|[k0 v0] t IH]; [destruct H|]. cbn. destruct (String.eqb_spec k k0) as [->|N]; [discriminate|].
  destruct H as [H|H]; [congruence|auto].
Qed.
(** With an explicit element type: the cells of the last block of that type, or an error. *)
Theorem C53_explicit :
  forall (A : Type) (blocks : list (string * A)) ty,
    from_gmsh blocks (Some ty) = option_map (fun d => (ty, d)) (last_block ty blocks).
Proof.
  intros A blocks ty. unfold from_gmsh. rewrite <- available_get. destruct (available blocks) as [|[k0 v0] t]; [reflexivity|].
  destruct (dict_get ty ((k0, v0) :: t)); reflexivity.
Qed.
Print Assumptions C53_explicit.
(** If the type occurs in one block, that block's cells are returned. *)
Theorem C53_unique_block :
  forall (A : Type) (l r : list (string * A)) mt ty cells,
    meshio_to_feax mt = Some ty ->
    (forall b, In b (l ++ r) -> meshio_to_feax (fst b) <> Some ty) ->
    from_gmsh (l ++ (mt, cells) :: r) (Some ty) = Some (ty, cells).
Proof.
  intros A l r mt ty cells Hm Hu. rewrite C53_explicit. unfold last_block. rewrite rev_app_distr. cbn [rev]. rewrite <- app_assoc. cbn [app].
  assert (F : forall l' t, (forall b, In b l' -> meshio_to_feax (fst b) <> Some ty) ->
    find (fun b : string * A => match meshio_to_feax (fst b) with Some k => String.eqb k ty | None => false end) (l' ++ t) =
    find (fun b => match meshio_to_feax (fst b) with Some k => String.eqb k ty | None => false end) t).
  { clear. induction l' as [|b l' IH]; intros t H; [reflexivity|]. cbn [app find]. assert (Hb := H b (or_introl eq_refl)).
    destruct (meshio_to_feax (fst b)) as [k|]; [destruct (String.eqb_spec k ty); [congruence|]|]; apply IH; intros x Hx; apply H; right; exact Hx. }
  rewrite F by (intros b Hb; apply Hu, in_or_app; right; apply in_rev; exact Hb).
  cbn [find fst]. rewrite Hm, String.eqb_refl. reflexivity.
Qed.
Print Assumptions C53_unique_block.
(** Automatic selection returns the cells of a supported block, fails only if there is none, and
    chooses a volume element whenever the file has one. *)
Definition is_3d (ty : string) : bool := existsb (String.eqb ty) ["HEX8"; "HEX20"; "HEX27"; "TET4"; "TET10"]%string.
Theorem C53_auto :
  forall (A : Type) (blocks : list (string * A)),
    match from_gmsh blocks None with
    | None => forall b, In b blocks -> meshio_to_feax (fst b) = None
    | Some (ty, cells) => last_block ty blocks = Some cells /\
        ((exists b t, In b blocks /\ meshio_to_feax (fst b) = Some t /\ is_3d t = true) -> is_3d ty = true)
    end.
Proof.
  intros A blocks.
  assert (Has : forall b t, In b blocks -> meshio_to_feax (fst b) = Some t -> dict_get t (available blocks) <> None).
  { intros b t Hb Ht. rewrite available_get. unfold last_block.
    destruct (find _ (rev blocks)) eqn:F; [discriminate|]. apply in_rev in Hb.
    assert (X := find_none _ _ F b Hb). cbn in X. rewrite Ht, String.eqb_refl in X. discriminate. }
  unfold from_gmsh. destruct (available blocks) as [|[k0 v0] d] eqn:E.
  - intros b Hb. destruct (meshio_to_feax (fst b)) as [t|] eqn:Ht; [|reflexivity]. exfalso. apply (Has b t Hb Ht). reflexivity.
  - rewrite <- E in *. set (p := fun t => match dict_get t (available blocks) with Some _ => true | None => false end).
    set (ty := match find p gmsh_priority with Some t => t | None => k0 end).
    assert (Hty : dict_get ty (available blocks) <> None).
    { unfold ty. destruct (find p gmsh_priority) as [t|] eqn:F.
      - apply find_some in F. destruct F as [_ F]. unfold p in F. destruct (dict_get t (available blocks)); congruence.
      - apply dict_get_in. exists v0. rewrite E. left. reflexivity. }
    destruct (dict_get ty (available blocks)) as [cells|] eqn:G; [|congruence].
    split; [rewrite <- available_get; exact G|]. intros (b & t & Hb & Ht & H3).
    assert (Pt : p t = true) by (unfold p; specialize (Has b t Hb Ht); destruct (dict_get t (available blocks)); congruence).
    assert (X : forall tt, ty = tt -> is_3d tt = true \/ (p "HEX8" = false /\ p "HEX20" = false /\ p "HEX27" = false /\ p "TET4" = false /\ p "TET10" = false)%string).
    { intros tt <-. unfold ty, gmsh_priority. cbn [find].
      destruct (p "HEX8"%string); [left; reflexivity|]. destruct (p "HEX20"%string); [left; reflexivity|]. destruct (p "HEX27"%string); [left; reflexivity|].
      destruct (p "TET4"%string); [left; reflexivity|]. destruct (p "TET10"%string); [left; reflexivity|]. right. auto. }
    destruct (X ty eq_refl) as [Y|(Y1 & Y2 & Y3 & Y4 & Y5)]; [exact Y|]. exfalso.
    unfold is_3d in H3. apply existsb_exists in H3. destruct H3 as (u & Hu & Eu). apply String.eqb_eq in Eu. subst u.
    cbn in Hu. decompose [or] Hu; subst; congruence.
Qed.
Print Assumptions C53_auto.
(** Several blocks of one type, as written for several physical groups: all but the last are
    silently dropped. *)
Theorem C53_blocks_refuted :
  exists (blocks : list (string * list nat)) ty,
    from_gmsh blocks None = Some (ty, [3; 4]) /\ blocks = [("hexahedron", [0; 1; 2]); ("hexahedron", [3; 4])]%string.
Proof. eexists. exists "HEX8"%string. split; [|reflexivity]. reflexivity. Qed.
Print Assumptions C53_blocks_refuted.
(** The two name tables are mutually inverse. *)
Theorem C53_type_names :
  (forall t mt, get_meshio_cell_type t = Some mt -> meshio_to_feax mt = Some t) /\
  (forall mt t, meshio_to_feax mt = Some t -> get_meshio_cell_type t = Some mt).
Proof.
  split; intros a b H; [unfold get_meshio_cell_type in H|unfold meshio_to_feax in H];
    repeat (match type of H with (if String.eqb ?x ?y then _ else _) = _ => destruct (String.eqb_spec x y) as [->|?]; [injection H as <-; reflexivity|] end);
    discriminate.
Qed.
Print Assumptions C53_type_names.
Example C53_example :
  from_gmsh [("line", 1); ("triangle", 2); ("tetra", 3)]%string None = Some ("TET4"%string, 3) /\
  (forall b, In b (app [("line", 1)] [("tetra", 3)])%string -> meshio_to_feax (fst b) <> Some "TRI3"%string) /\
  from_gmsh [("line", 1); ("triangle", 2); ("tetra", 3)]%string (Some "TRI3"%string) = Some ("TRI3"%string, 2).
Proof. split; [reflexivity|]. split; [|reflexivity]. intros b [<-|[<-|[]]]; cbn; congruence. Qed.

(** ** C54 *)
(** Coordinates Gmsh reports for a tag. *)
Definition tag_coord {P} (tags : list nat) (coords : list P) (t : nat) : option P :=
  option_map snd (find (fun p => fst p =? t) (combine tags coords)).
Lemma last_index_spec {P} (tags : list nat) : forall (coords : list P) t pos, NoDup tags -> length tags = length coords -> In t tags ->
  exists n, last_index t tags pos = Some (pos + n) /\ n < length coords /\ nth_error coords n = tag_coord tags coords t.
Proof.
  induction tags as [|x r IH]; intros coords t pos ND L Hin; [destruct Hin|]. destruct coords as [|p ps]; [discriminate|].
  apply NoDup_cons_iff in ND. destruct ND as [Nx NDr]. cbn [last_index]. unfold tag_coord. cbn [combine find fst].
  destruct (Nat.eqb_spec x t) as [->|N].
  - assert (NI : forall r pos, ~ In t r -> last_index t r pos = None).
    { clear. induction r as [|y r IH]; intros pos H; [reflexivity|]. cbn. rewrite IH by (intros X; apply H; right; exact X).
      destruct (Nat.eqb_spec y t); [exfalso; apply H; left; assumption|reflexivity]. }
    rewrite NI by exact Nx. exists 0. rewrite Nat.add_0_r. split; [reflexivity|]. split; [cbn; lia|reflexivity].
  - destruct Hin as [H|Hin]; [congruence|]. destruct (IH ps t (S pos) NDr) as (n & E & B & C); [cbn in L; lia|exact Hin|].
    rewrite E. exists (S n). split; [f_equal; lia|]. split; [cbn; lia|exact C].
Qed.
(** [refine_mesh]: whatever order and numbering Gmsh uses, each element keeps its corner points. *)
Theorem C54_refine_readback :
  forall (P : Type) tags (coords : list P) elems, NoDup tags -> length tags = length coords ->
    (forall e t, In e elems -> In t e -> In t tags) ->
    let m := readback_remap tags coords elems in
    fst m = coords /\ length (snd m) = length elems /\
    forall c k t, c < length elems -> nth_error (nth c elems []) k = Some t ->
      exists n, nth_error (nth c (snd m) []) k = Some (Some n) /\ n < length (fst m) /\ nth_error (fst m) n = tag_coord tags coords t.
Proof.
  intros P tags coords elems ND L HT m. split; [reflexivity|]. split; [apply map_length|]. intros c k t Hc Hk.
  assert (Hin : In t tags) by (apply (HT (nth c elems [])); [apply nth_In; exact Hc|eapply nth_error_In; exact Hk]).
  destruct (last_index_spec tags coords t 0 ND L Hin) as (n & E & B & C). exists n. split; [|auto].
  cbn [snd m readback_remap]. rewrite nth_map_in with (d := []) by exact Hc. rewrite nth_error_map, Hk. cbn. rewrite E. reflexivity.
Qed.
Print Assumptions C54_refine_readback.
(** [box_mesh]: the same when the tags are 1..n in order; unused points are dropped. *)
Theorem C54_box_readback :
  forall (P : Type) (dp : P) (coords : list P) elems,
    (forall e t, In e elems -> In t e -> 1 <= t <= length coords) ->
    let m := readback_shift dp coords elems in
    length (snd m) = length elems /\
    (forall c k t, c < length elems -> nth_error (nth c elems []) k = Some t ->
      exists n, nth_error (nth c (snd m) []) k = Some n /\ nth_error (fst m) n = tag_coord (seq 1 (length coords)) coords t) /\
    (forall n, n < length (fst m) -> exists c, In c (snd m) /\ In n c).
Proof.
  intros P dp coords elems HT m. set (cells := map (map (fun t => t - 1)) elems).
  set (U := fun n => existsb (Nat.eqb n) (concat cells)).
  assert (Em : m = (map (fun n => nth n coords dp) (filter U (seq 0 (length coords))), map (map (rank U)) cells)) by reflexivity.
  assert (TC : forall s (l : list P) t, s <= t < s + length l -> tag_coord (seq s (length l)) l t = nth_error l (t - s)).
  { clear. intros s l. revert s. induction l as [|x l IH]; intros s t H; [cbn in H; lia|]. cbn [length seq]. unfold tag_coord. cbn [combine find fst].
    destruct (Nat.eqb_spec s t) as [->|N]; [rewrite Nat.sub_diag; reflexivity|]. cbn [length] in H.
    fold (tag_coord (seq (S s) (length l)) l t). rewrite IH by lia. replace (t - s) with (S (t - S s)) by lia. reflexivity. }
  rewrite Em. cbn [fst snd]. split; [unfold cells; rewrite !map_length; reflexivity|]. split.
  - intros c k t Hc Hk. assert (He : In (nth c elems []) elems) by (apply nth_In; exact Hc).
    assert (Ht := HT _ t He (nth_error_In _ _ Hk)).
    assert (Hu : U (t - 1) = true).
    { unfold U. apply existsb_exists. exists (t - 1). split; [|apply Nat.eqb_refl]. apply in_concat.
      exists (map (fun t => t - 1) (nth c elems [])). split; [unfold cells; apply in_map; exact He|]. apply in_map_iff. exists t.
      split; [reflexivity|eapply nth_error_In; exact Hk]. }
    exists (rank U (t - 1)). split.
    + unfold cells. rewrite nth_map_in with (d := []) by (rewrite map_length; exact Hc). rewrite nth_map_in with (d := []) by exact Hc.
      rewrite !nth_error_map, Hk. reflexivity.
    + rewrite TC by lia. rewrite nth_error_map.
      assert (KN : forall N n, n < N -> U n = true -> nth_error (filter U (seq 0 N)) (rank U n) = Some n).
      { clear. induction N as [|N IH]; intros n Hn Hu; [lia|]. rewrite seq_S, filter_app. cbn [Nat.add].
        destruct (Nat.eq_dec n N) as [->|Hne].
        - rewrite nth_error_app2 by (unfold rank; lia). unfold rank. rewrite Nat.sub_diag. cbn. rewrite Hu. reflexivity.
        - rewrite nth_error_app1; [apply IH; [lia|exact Hu]|]. change (rank U n < rank U N). apply rank_lt; [lia|exact Hu]. }
      rewrite KN by (try lia; exact Hu). cbn. symmetry. apply nth_error_nth'. lia.
  - intros n Hn. rewrite map_length in Hn. destruct (@rank_surj U _ _ Hn) as (x & Hx & Ux & <-).
    unfold U in Ux. apply existsb_exists in Ux. destruct Ux as (y & Hy & Exy). apply Nat.eqb_eq in Exy. subst y.
    apply in_concat in Hy. destruct Hy as (c & Hc & Hxc). exists (map (rank U) c). split; [apply in_map; exact Hc|apply in_map; exact Hxc].
Qed.
Print Assumptions C54_box_readback.
(** With tags in another order [box_mesh] attaches the wrong coordinates. *)
Theorem C54_box_order_refuted :
  exists tags (coords : list nat) elems, NoDup tags /\ length tags = length coords /\ (forall e t, In e elems -> In t e -> In t tags) /\
    exists t, nth_error (nth 0 elems []) 0 = Some t /\
    nth_error (fst (readback_shift 0 coords elems)) (nth 0 (nth 0 (snd (readback_shift 0 coords elems)) []) 0) <> tag_coord tags coords t.
Proof.
  exists [2; 1], [20; 10], [[1; 2]]. split; [repeat constructor; cbn; lia|]. split; [reflexivity|].
  split; [intros e t [<-|[]] [<-|[<-|[]]]; cbn; tauto|]. exists 1. split; [reflexivity|]. cbn. discriminate.
Qed.
Print Assumptions C54_box_order_refuted.
Example C54_example :
  readback_remap [7; 3; 9] ["a"; "b"; "c"]%string [[9; 7]; [3; 9]] = (["a"; "b"; "c"]%string, [[Some 2; Some 0]; [Some 1; Some 2]]) /\
  readback_shift 0 [10; 20; 30; 40] [[4; 2]] = ([20; 40], [[1; 0]]).
Proof. split; reflexivity. Qed.
