(** C103: the number of elements of a structured box. *)
From Coq Require Import Reals ZArith List SpecFloat Lra Lia.
From Verif Require Import BoxDiv_Model.
Import ListNotations.
Open Scope R_scope.

(** ** Specification *)
(** Elements along an edge with [n] points, and their length. *)
Definition elements_along (n : Z) : Z := (n - 1)%Z.
Definition element_length (l : R) (n : Z) : R := l / IZR (elements_along n).

(** Length of a side: one number for a cube, the entries of a tuple. *)
Definition side (s : box_size) (d : nat) : R :=
  match s with Cube a => a | Sides a b c => match d with 0%nat => a | 1%nat => b | _ => c end end.
Lemma side_axis s d : side s d = axis d (sides s).
Proof. destruct s; destruct d as [|[|d]]; reflexivity. Qed.

(** ** Lemmas *)
Lemma Int_part_bounds x : IZR (Int_part x) <= x < IZR (Int_part x) + 1.
Proof. destruct (base_Int_part x). lra. Qed.
Lemma trunc_pos x : 0 <= x -> (0 <= trunc x)%Z /\ IZR (trunc x) <= x < IZR (trunc x) + 1.
Proof.
  intro H. unfold trunc. destruct (Rle_dec 0 x); [|lra]. pose proof (Int_part_bounds x) as B.
  split; [|exact B]. assert (-1 < IZR (Int_part x)) by lra. change (-1) with (IZR (-1)) in H0.
  apply lt_IZR in H0. lia.
Qed.

(** ** C103 *)

(** The elements have at least the requested size and less than twice that size; a side
    shorter than the requested size is one element. The number of elements is the largest
    for which no element is smaller than requested. *)
Theorem C103_size : forall l h, 0 < h -> 0 < l ->
  let n := num_points l h in
  let e := elements_along n in
  (1 <= e)%Z /\
  (l < h -> e = 1%Z) /\
  (h <= l -> h <= element_length l n /\ element_length l n < h * (1 + / IZR e) /\ element_length l n < 2 * h) /\
  (h <= l -> forall k, (1 <= k)%Z -> h <= l / IZR k -> (k <= e)%Z).
Proof.
  intros l h Hh Hl n e.
  assert (Q : 0 < l / h) by (apply Rdiv_lt_0_compat; assumption).
  destruct (trunc_pos (l / h) ltac:(lra)) as (T0 & T1 & T2).
  assert (D : l / h * h = l) by (field; lra).
  assert (E1 : (1 <= e)%Z) by (unfold e, n, num_points, points_of, elements_along; lia).
  split; [exact E1|].
  assert (Ee : h <= l -> e = trunc (l / h)).
  { intro H. assert (1 <= l / h) by (apply (Rmult_le_reg_r h); [exact Hh|]; rewrite D; lra).
    assert (0 < IZR (trunc (l / h))) by lra. apply lt_IZR in H1.
    unfold e, n, num_points, points_of, elements_along. lia. }
  split; [|split].
  - intro H. assert (l / h < 1) by (apply (Rmult_lt_reg_r h); [exact Hh|]; rewrite D; lra).
    assert (IZR (trunc (l / h)) < 1) by lra. apply lt_IZR in H1.
    unfold e, n, num_points, points_of, elements_along. lia.
  - intro H. specialize (Ee H). unfold element_length. fold e.
    assert (Pe : 1 <= IZR e) by (apply (IZR_le 1); exact E1).
    rewrite <- Ee in T1, T2.
    assert (A1 : h <= l / IZR e).
    { apply (Rmult_le_reg_r (IZR e)); [lra|]. replace (l / IZR e * IZR e) with l by (field; lra).
      rewrite <- D. rewrite (Rmult_comm (l / h)). apply Rmult_le_compat_l; lra. }
    assert (A2 : l / IZR e < h * (1 + / IZR e)).
    { apply (Rmult_lt_reg_r (IZR e)); [lra|]. replace (l / IZR e * IZR e) with l by (field; lra).
      replace (h * (1 + / IZR e) * IZR e) with (h * (IZR e + 1)) by (field; lra).
      rewrite <- D at 1. rewrite (Rmult_comm (l / h)). apply Rmult_lt_compat_l; lra. }
    split; [exact A1|]. split; [exact A2|]. eapply Rlt_le_trans; [exact A2|].
    assert (/ IZR e <= 1) by (rewrite <- Rinv_1; apply Rinv_le_contravar; lra).
    replace (2 * h) with (h * 2) by ring. apply Rmult_le_compat_l; lra.
  - intros H k K1 HK. specialize (Ee H). rewrite Ee.
    assert (PK : 1 <= IZR k) by (apply (IZR_le 1); exact K1).
    assert (A : IZR k <= l / h).
    { apply (Rmult_le_reg_r h); [exact Hh|]. rewrite D.
      replace l with (l / IZR k * IZR k) by (field; lra). rewrite Rmult_comm. apply Rmult_le_compat_r; lra. }
    assert (IZR k < IZR (trunc (l / h)) + 1) by lra.
    rewrite <- plus_IZR in H0. apply lt_IZR in H0. lia.
Qed.
Print Assumptions C103_size.

(** A side that is an exact multiple of the size gets exactly that many elements. *)
Theorem C103_multiple : forall k h, (1 <= k)%Z -> 0 < h ->
  elements_along (num_points (IZR k * h) h) = k /\ element_length (IZR k * h) (num_points (IZR k * h) h) = h.
Proof.
  intros k h K Hh. unfold element_length, num_points.
  assert (PK : 1 <= IZR k) by (apply (IZR_le 1); exact K).
  replace (IZR k * h / h) with (IZR k) by (field; lra).
  assert (T : trunc (IZR k) = k).
  { destruct (trunc_pos (IZR k) ltac:(lra)) as (_ & T1 & T2). apply le_IZR in T1.
    rewrite <- plus_IZR in T2. apply lt_IZR in T2. lia. }
  rewrite T. unfold elements_along, points_of.
  replace (Z.max 2 (k + 1) - 1)%Z with k by lia. split; [reflexivity|]. field. lra.
Qed.
Print Assumptions C103_multiple.

(** Every one of the twelve edges gets the count of its own direction, for every box, origin
    and padding of the bounding boxes: parallel edges always agree, which the structured
    mesher requires. *)
Theorem C103_edges : forall s o h pad d far1 far2,
  0 <= pad -> (forall a, (a < 3)%nat -> 0 < side s a) -> (d < 3)%nat ->
  edge_points s o h pad d far1 far2 = num_points (side s d) h.
Proof.
  intros s o h pad d far1 far2 Hp Hs Hd.
  assert (Hs' : forall a, (a < 3)%nat -> 0 < axis a (sides s)) by (intros a Ha; rewrite <- side_axis; apply (Hs a Ha)). clear Hs. rename Hs' into Hs. rewrite side_axis.
  assert (S0 := Hs 0%nat ltac:(lia)). assert (S1 := Hs 1%nat ltac:(lia)). assert (S2 := Hs 2%nat ltac:(lia)).
  unfold edge_points. destruct (sides s) as [[lx ly] lz]. simpl in S0, S1, S2.
  destruct o as [[ox oy] oz].
  assert (G : forall x e, 0 <= e -> Rabs (x + e + pad - (x - pad)) = e + 2 * pad).
  { intros x e He. rewrite Rabs_right; lra. }
  destruct d as [|[|[|d]]]; [..|lia]; simpl; rewrite !G by lra; unfold curve_points;
    repeat match goal with |- context [Rlt_dec ?a ?b] => destruct (Rlt_dec a b); [try lra|try lra] end;
    reflexivity.
Qed.
Print Assumptions C103_edges.

(** In binary64 a multiple can lose an element: 0.3 / 0.1 rounds to 2.9999999999999996, so
    box_mesh(0.3, mesh_size=0.1) gets two elements of length 0.15 along each side. *)
Definition f64_03 : spec_float := S754_finite false 5404319552844595 (-54).
Definition f64_01 : spec_float := S754_finite false 7205759403792794 (-56).
Theorem C103_float_refuted :
  valid_binary 53 1024 f64_03 = true /\ valid_binary 53 1024 f64_01 = true /\
  (* the literals are the binary64 numbers nearest to 0.3 and 0.1 *)
  (2 * Z.abs (10 * 5404319552844595 - 3 * 2 ^ 54) <= 10)%Z /\
  (2 * Z.abs (10 * 7205759403792794 - 2 ^ 56) <= 10)%Z /\
  elements_along (num_points_f64 f64_03 f64_01) = 2%Z /\
  elements_along (num_points (3 / 10) (1 / 10)) = 3%Z.
Proof.
  split; [reflexivity|]. split; [reflexivity|]. split; [vm_compute; discriminate|].
  split; [vm_compute; discriminate|]. split; [vm_compute; reflexivity|].
  replace (3 / 10) with (IZR 3 * (1 / 10)) by lra. apply (C103_multiple 3 (1 / 10)); [lia|lra].
Qed.
Print Assumptions C103_float_refuted.

(** The requested size is not an upper bound: elements can be almost twice as long. *)
Theorem C103_target_refuted : forall eps, 0 < eps -> exists l h, 0 < h /\ h <= l /\
  element_length l (num_points l h) > (2 - eps) * h.
Proof.
  intros eps He. pose (t := Rmin (eps / 2) (1 / 2)).
  assert (T0 : 0 < t) by (apply Rmin_glb_lt; lra).
  assert (T1 : t <= eps / 2) by apply Rmin_l. assert (T2 : t <= 1 / 2) by apply Rmin_r.
  exists (2 - t), 1. split; [lra|]. split; [lra|]. unfold element_length, num_points.
  replace ((2 - t) / 1) with (2 - t) by field.
  assert (T : trunc (2 - t) = 1%Z).
  { destruct (trunc_pos (2 - t) ltac:(lra)) as (_ & A & B).
    assert (IZR (trunc (2 - t)) < 2) by lra. assert (0 < IZR (trunc (2 - t))) by lra.
    apply lt_IZR in H. apply lt_IZR in H0. lia. }
  rewrite T. unfold elements_along, points_of. simpl. lra.
Qed.
Print Assumptions C103_target_refuted.

Example C103_example : elements_along (num_points 10 3) = 3%Z /\
  (forall a, (a < 3)%nat -> 0 < side (Sides 10 3 2) a) /\
  edge_points (Sides 10 3 2) (0, 0, 0) 3 (1 / 1000) 0 true false = num_points 10 3.
Proof.
  split; [|split].
  - assert (T : trunc (10 / 3) = 3%Z).
    { destruct (trunc_pos (10 / 3) ltac:(lra)) as (_ & A & B).
      assert (IZR (trunc (10 / 3)) < 4) by lra. assert (2 < IZR (trunc (10 / 3))) by lra.
      apply lt_IZR in H. apply lt_IZR in H0. lia. }
    unfold num_points. rewrite T. reflexivity.
  - intros a L. destruct a as [|[|[|a]]]; unfold side; simpl; [lra..|lia].
  - apply (C103_edges (Sides 10 3 2) (0, 0, 0) 3 (1 / 1000) 0 true false); [lra| |lia].
    intros a L. destruct a as [|[|[|a]]]; unfold side; simpl; [lra..|lia].
Qed.
