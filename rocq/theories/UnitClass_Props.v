(** C129: corner, edge and face nodes of a unit cell, and the corners of its box. *)
From Coq Require Import ZArith List Bool Arith Lia.
From Verif Require Import Base Pbc_Model UnitCell_Model UnitClass_Model.
Import ListNotations.
Local Open Scope Z_scope.

(** Coordinate [k] of [p] is on the bounding box: within atol + 1e-5 |bound| of the smallest or largest coordinate. *)
Definition on_box (points : list (list Z)) (atol : Z) (p : list Z) (k : nat) : Prop :=
  exists b, (b = lb points k \/ b = ub points k) /\ 100000 * Z.abs (nth k p 0 - b) <= 100000 * atol + Z.abs b.

Definition nearb (points : list (list Z)) (atol : Z) (p : list Z) (k : nat) : bool :=
  isclose atol (coord p k) (lb points k) || isclose atol (coord p k) (ub points k).
Lemma nearb_spec points atol p k : nearb points atol p k = true <-> on_box points atol p k.
Proof.
  unfold nearb, on_box, isclose, coord. rewrite orb_true_iff, !Z.leb_le. split.
  - intros [H|H]; eexists; split; [left; reflexivity|exact H|right; reflexivity|exact H].
  - intros (b & [->| ->] & H); auto.
Qed.
Definition offs points atol p : list nat := filter (fun k => negb (nearb points atol p k)) (seq 0 (length p)).
Lemma hits_offs points atol p : (hits points atol p + length (offs points atol p) = length p)%nat.
Proof.
  unfold hits, offs. fold (nearb points atol p). generalize (seq_length (length p) 0). generalize (seq 0 (length p)) as l. intros l L.
  rewrite <- L. clear L. induction l as [|k l IH]; [reflexivity|]. cbn [filter length]. change (isclose atol (coord p k) (lb points k) || isclose atol (coord p k) (ub points k)) with (nearb points atol p k).
  destruct (nearb points atol p k); cbn [negb length]; lia.
Qed.
Lemma in_offs points atol p k : In k (offs points atol p) <-> (k < length p)%nat /\ ~ on_box points atol p k.
Proof. unfold offs. rewrite filter_In, in_seq, negb_true_iff, <- nearb_spec, not_true_iff_false. cbn. intuition lia. Qed.
Lemma offs_nodup points atol p : NoDup (offs points atol p).
Proof. apply NoDup_filter, seq_NoDup. Qed.

(** A corner has every coordinate on the box, an edge point all but one, a face point all but two. *)
Theorem C129_classes :
  forall (points : list (list Z)) (atol : Z) (p : list Z), p <> [] ->
  (is_corner points atol p = true <-> forall k, (k < length p)%nat -> on_box points atol p k) /\
  (is_edge points atol p = true <-> exists k, (k < length p)%nat /\ ~ on_box points atol p k /\ forall j, (j < length p)%nat -> j <> k -> on_box points atol p j) /\
  (is_face points atol p = true <-> exists k l, (k < l)%nat /\ (l < length p)%nat /\ ~ on_box points atol p k /\ ~ on_box points atol p l /\
     forall j, (j < length p)%nat -> j <> k -> j <> l -> on_box points atol p j).
Proof.
  intros points atol p NE. assert (LP : (0 < length p)%nat) by (destruct p; [contradiction NE; reflexivity|cbn; lia]). pose proof (hits_offs points atol p) as HO.
  pose proof (offs_nodup points atol p) as ND. pose proof (in_offs points atol p) as IO.
  assert (DEC : forall k, (k < length p)%nat -> ~ In k (offs points atol p) -> on_box points atol p k).
  { intros k Hk H. destruct (nearb points atol p k) eqn:E; [apply nearb_spec; exact E|]. exfalso. apply H, IO. split; [exact Hk|]. intros C. apply nearb_spec in C. congruence. }
  assert (C0 : is_corner points atol p = true <-> offs points atol p = []).
  { unfold is_corner. rewrite Nat.eqb_eq. split; [intros E; apply length_zero_iff_nil; lia|intros E; rewrite E in HO; cbn in HO; lia]. }
  assert (C1 : is_edge points atol p = true <-> length (offs points atol p) = 1%nat).
  { unfold is_edge. rewrite andb_true_iff, negb_true_iff, <- not_true_iff_false, C0, Nat.eqb_eq, <- length_zero_iff_nil. lia. }
  assert (C2 : is_face points atol p = true <-> length (offs points atol p) = 2%nat).
  { unfold is_face. rewrite !andb_true_iff, !negb_true_iff, <- !not_true_iff_false, C0, C1, Nat.eqb_eq, <- length_zero_iff_nil. lia. }
  rewrite C0, C1, C2. split; [|split].
  - split.
    + intros E k Hk. apply DEC; [exact Hk|]. rewrite E. intros [].
    + intros H. destruct (offs points atol p) as [|k t]; [reflexivity|]. exfalso. destruct (proj1 (IO k) (or_introl eq_refl)) as [Hk N]. apply N, H, Hk.
  - split.
    + intros E. destruct (offs points atol p) as [|k [|l t]]; try discriminate E. destruct (proj1 (IO k) (or_introl eq_refl)) as [Hk N]. exists k. split; [exact Hk|]. split; [exact N|].
      intros j Hj NJ. apply DEC; [exact Hj|]. intros [<-|[]]. apply NJ. reflexivity.
    + intros (k & Hk & N & A). destruct (offs points atol p) as [|a [|b t]]; [|reflexivity|]; exfalso.
      * apply (proj2 (IO k)). split; assumption.
      * inversion ND as [|? ? NI _]; subst. assert (Ea : a = k). { destruct (Nat.eq_dec a k) as [E|E]; [exact E|]. exfalso. destruct (proj1 (IO a) (or_introl eq_refl)) as [Ha Na]. apply Na, A; assumption. }
        assert (Eb : b = k). { destruct (Nat.eq_dec b k) as [E|E]; [exact E|]. exfalso. destruct (proj1 (IO b) (or_intror (or_introl eq_refl))) as [Hb Nb]. apply Nb, A; assumption. }
        apply NI. left. congruence.
  - split.
    + intros E. destruct (offs points atol p) as [|k [|l [|m t]]]; try discriminate E.
      destruct (proj1 (IO k) (or_introl eq_refl)) as [Hk N]. destruct (proj1 (IO l) (or_intror (or_introl eq_refl))) as [Hl M].
      assert (KL : k <> l) by (intros ->; inversion ND as [|? ? NI _]; subst; apply NI; left; reflexivity).
      destruct (Nat.lt_total k l) as [Q|[Q|Q]]; [exists k, l|contradiction|exists l, k]; (split; [exact Q|]; split; [assumption|]; split; [assumption|]; split; [assumption|]);
        intros j Hj J1 J2; apply DEC; try exact Hj; intros [<-|[<-|[]]]; auto.
    + intros (k & l & KL & Hl & N & M & A). assert (Ik : In k (offs points atol p)) by (apply IO; split; [lia|exact N]). assert (Il : In l (offs points atol p)) by (apply IO; split; assumption).
      assert (S1 : incl (offs points atol p) [k; l]).
      { intros j Hj. apply IO in Hj. destruct Hj as [Lj Nj]. destruct (Nat.eq_dec j k) as [->|E1]; [left; reflexivity|]. destruct (Nat.eq_dec j l) as [->|E2]; [right; left; reflexivity|]. exfalso. apply Nj, A; assumption. }
      assert (S2 : incl [k; l] (offs points atol p)) by (intros j [<-|[<-|[]]]; assumption).
      apply NoDup_incl_length in S1; [|exact ND]. apply NoDup_incl_length in S2; [|constructor; [intros [E|[]]; lia|constructor; [intros []|constructor]]]. cbn in S1, S2. lia.
Qed.
Print Assumptions C129_classes.

Lemma class_count points atol p : p <> [] ->
  is_corner points atol p = Nat.eqb (length (offs points atol p)) 0 /\ is_edge points atol p = Nat.eqb (length (offs points atol p)) 1 /\ is_face points atol p = Nat.eqb (length (offs points atol p)) 2.
Proof.
  intros NE. assert (LP : (0 < length p)%nat) by (destruct p; [contradiction NE; reflexivity|cbn; lia]). pose proof (hits_offs points atol p) as HO.
  unfold is_face, is_edge, is_corner. set (h := hits points atol p) in *. set (o := length (offs points atol p)) in *.
  destruct (Nat.eqb_spec h (length p)), (Nat.eqb_spec h (length p - 1)), (Nat.eqb_spec h (length p - 2)), (Nat.eqb_spec o 0), (Nat.eqb_spec o 1), (Nat.eqb_spec o 2); cbn; repeat split; try reflexivity; lia.
Qed.

(** The masks have one entry per node; a node is in at most one of the three classes; in three dimensions the classes together are the nodes on the box,
    in two dimensions corners and edges are. *)
Theorem C129_masks :
  forall (points : list (list Z)) (d : nat) (atol : Z), (forall p, In p points -> length p = d) -> (0 < d)%nat ->
  length (corner_mask points atol) = length points /\ length (edge_mask points atol) = length points /\ length (face_mask points atol) = length points /\
  forall n p, nth_error points n = Some p ->
    let c := nth n (corner_mask points atol) false in let e := nth n (edge_mask points atol) false in let f := nth n (face_mask points atol) false in
    c = is_corner points atol p /\ e = is_edge points atol p /\ f = is_face points atol p /\
    (c && e = false)%bool /\ (c && f = false)%bool /\ (e && f = false)%bool /\
    (d = 3%nat -> ((c || e || f)%bool = true <-> exists k, (k < 3)%nat /\ on_box points atol p k)) /\
    (d = 2%nat -> ((c || e)%bool = true <-> exists k, (k < 2)%nat /\ on_box points atol p k)).
Proof.
  intros points d atol HD Hd. unfold corner_mask, edge_mask, face_mask. rewrite !map_length. repeat (split; [reflexivity|]). intros n p E. cbv zeta.
  rewrite !(nth_error_nth _ n false (map_nth_error _ n _ E)). repeat (split; [reflexivity|]).
  assert (LP : length p = d) by (apply HD, (nth_error_In _ _ E)). assert (NE : p <> []) by (intros ->; cbn in LP; lia).
  destruct (class_count points atol p NE) as (-> & -> & ->). pose proof (hits_offs points atol p) as HO. set (o := length (offs points atol p)) in *.
  assert (B : (exists k, (k < d)%nat /\ on_box points atol p k) <-> (o < d)%nat).
  { split.
    - intros (k & Hk & On). destruct (Nat.lt_ge_cases o d) as [L|L]; [exact L|]. exfalso.
      assert (I : incl (seq 0 d) (offs points atol p)).
      { apply (NoDup_length_incl (offs_nodup points atol p)); [rewrite seq_length; fold o; lia|]. intros j Hj. apply in_offs in Hj. apply in_seq. lia. }
      assert (X : In k (offs points atol p)) by (apply I, in_seq; lia). apply in_offs in X. destruct X as [_ X]. apply X, On.
    - intros L. destruct (existsb (nearb points atol p) (seq 0 d)) eqn:X.
      + apply existsb_exists in X. destruct X as (k & Hk & N). apply in_seq in Hk. exists k. split; [lia|]. apply nearb_spec, N.
      + exfalso. assert (I : incl (seq 0 d) (offs points atol p)).
        { intros k Hk. pose proof Hk as Hk'. apply in_seq in Hk. apply in_offs. split; [lia|]. intros C. apply nearb_spec in C. assert (T : existsb (nearb points atol p) (seq 0 d) = true) by (apply existsb_exists; exists k; auto). congruence. }
        apply NoDup_incl_length in I; [|apply seq_NoDup]. rewrite seq_length in I. fold o in I. lia. }
  repeat split; try (destruct o as [|[|[|o]]]; reflexivity).
  - subst d. rewrite H in *. intros X. apply B. destruct o as [|[|[|o]]]; try lia; discriminate X.
  - subst d. rewrite H in *. intros X. apply B in X. destruct o as [|[|[|o]]]; try reflexivity; lia.
  - subst d. rewrite H in *. intros X. apply B. destruct o as [|[|o]]; try lia; discriminate X.
  - subst d. rewrite H in *. intros X. apply B in X. destruct o as [|[|o]]; try reflexivity; lia.
Qed.
Print Assumptions C129_masks.

(** In two dimensions the face mask does not mark nodes on a side: it marks a node exactly if it is on no side. *)
Theorem C129_plane_faces_refuted :
  (forall points atol p, length p = 2%nat -> (is_face points atol p = true <-> forall k, (k < 2)%nat -> ~ on_box points atol p k)) /\
  exists points p, length p = 2%nat /\ In p points /\ nth 4 (face_mask points 0) false = true /\ nth 4 points [] = p /\ ~ on_box points 0 p 0 /\ ~ on_box points 0 p 1.
Proof.
  split.
  - intros points atol p L. destruct (C129_classes points atol p) as (_ & _ & ->); [intros ->; discriminate L|]. rewrite L. split.
    + intros (k & l & KL & Hl & N & M & _) j Hj. assert (k = 0%nat) by lia. assert (l = 1%nat) by lia. subst. destruct j as [|[|j]]; [exact N|exact M|lia].
    + intros H. exists 0%nat, 1%nat. split; [lia|]. split; [lia|]. split; [apply H; lia|]. split; [apply H; lia|]. intros j Hj A B. lia.
  - exists [[0; 0]; [2; 0]; [0; 2]; [2; 2]; [1; 1]], [1; 1]. split; [reflexivity|]. split; [cbn; auto 10|]. split; [reflexivity|]. split; [reflexivity|].
    split; rewrite <- nearb_spec; discriminate.
Qed.
Print Assumptions C129_plane_faces_refuted.

(** The corners of the box: all 2^d choices of the smaller or larger bound per axis, in the order of counting with the last axis fastest; different if the box has extent. *)
Lemma bits_length n : length (bits n) = (2 ^ n)%nat.
Proof. induction n as [|n IH]; [reflexivity|]. cbn [bits]. rewrite app_length, !map_length, IH. cbn. lia. Qed.
Lemma bits_in n b : In b (bits n) <-> length b = n.
Proof.
  revert b. induction n as [|n IH]; intros b; cbn [bits].
  - split; [intros [<-|[]]; reflexivity|]. intros L. destruct b; [left; reflexivity|discriminate L].
  - rewrite in_app_iff, !in_map_iff. split.
    + intros [(t & <- & H)|(t & <- & H)]; apply IH in H; cbn; lia.
    + destruct b as [|[|] t]; intros L; [discriminate L| |]; [right|left]; exists t; (split; [reflexivity|]); apply IH; cbn in L; lia.
Qed.
Lemma bits_nodup n : NoDup (bits n).
Proof.
  induction n as [|n IH]; cbn [bits]; [constructor; [intros []|constructor]|].
  assert (MN : forall x, NoDup (map (cons x) (bits n))) by (intros x; apply FinFun.Injective_map_NoDup; [intros a b E; injection E; auto|exact IH]).
  assert (NA : forall (l1 l2 : list (list bool)), NoDup l1 -> NoDup l2 -> (forall x, In x l1 -> ~ In x l2) -> NoDup (l1 ++ l2)).
  { clear. intros l1 l2 N1 N2 D. induction N1 as [|x l NI N1 IH]; [exact N2|]. cbn. constructor.
    - rewrite in_app_iff. intros [H|H]; [contradiction|]. apply (D x); [left; reflexivity|exact H].
    - apply IH. intros y Hy. apply D. right. exact Hy. }
  apply NA; try apply MN. intros x H1 H2. apply in_map_iff in H1. apply in_map_iff in H2. destruct H1 as (a & <- & _). destruct H2 as (c & E & _). discriminate E.
Qed.
Lemma pick_length points b : length (pick points b) = length b.
Proof. unfold pick. rewrite map_length, combine_length, seq_length. lia. Qed.
Lemma pick_nth points b k : (k < length b)%nat -> nth k (pick points b) 0 = if nth k b false then ub points k else lb points k.
Proof.
  intros H. unfold pick. set (g := fun kb : nat * bool => if snd kb then ub points (fst kb) else lb points (fst kb)).
  rewrite (nth_indep _ 0 (g (0%nat, false))) by (rewrite map_length, combine_length, seq_length; lia). rewrite map_nth, combine_nth by apply seq_length. rewrite seq_nth by exact H. reflexivity.
Qed.

Theorem C129_corners :
  forall (points : list (list Z)) (d : nat) (atol : Z),
  length (corners points d) = (2 ^ d)%nat /\
  (forall x, In x (corners points d) <-> length x = d /\ forall k, (k < d)%nat -> nth k x 0 = lb points k \/ nth k x 0 = ub points k) /\
  (0 <= atol -> (0 < d)%nat -> forall x, In x (corners points d) -> is_corner points atol x = true) /\
  ((forall k, (k < d)%nat -> lb points k <> ub points k) -> NoDup (corners points d)).
Proof.
  intros points d atol. unfold corners.
  assert (I : forall x, In x (map (pick points) (bits d)) <-> length x = d /\ forall k, (k < d)%nat -> nth k x 0 = lb points k \/ nth k x 0 = ub points k).
  { intros x. rewrite in_map_iff. split.
    - intros (b & <- & Hb). apply bits_in in Hb. rewrite pick_length. split; [exact Hb|]. intros k Hk. rewrite pick_nth by lia. destruct (nth k b false); auto.
    - intros [L H]. exists (map (fun k => Z.eqb (nth k x 0) (ub points k)) (seq 0 d)). split; [|apply bits_in; rewrite map_length, seq_length; reflexivity].
      apply (nth_ext _ _ 0 0); [rewrite pick_length, map_length, seq_length; lia|]. intros k Hk. rewrite pick_length, map_length, seq_length in Hk.
      rewrite pick_nth by (rewrite map_length, seq_length; exact Hk). rewrite (nth_map_in _ _ 0%nat false) by (rewrite seq_length; exact Hk). rewrite seq_nth by exact Hk. cbn [Nat.add].
      destruct (Z.eqb_spec (nth k x 0) (ub points k)) as [E|E]; [symmetry; exact E|]. destruct (H k Hk) as [Q|Q]; [symmetry; exact Q|contradiction]. }
  split; [rewrite map_length; apply bits_length|]. split; [exact I|]. split.
  - intros A D x Hx. apply I in Hx. destruct Hx as [L H]. apply C129_classes; [intros ->; cbn in L; lia|]. intros k Hk. rewrite L in Hk. pose proof (Z.abs_nonneg (lb points k)). pose proof (Z.abs_nonneg (ub points k)). destruct (H k Hk) as [Q|Q]; [exists (lb points k)|exists (ub points k)]; (split; [auto|]); rewrite Q, Z.sub_diag; change (Z.abs 0) with 0; lia.
  - intros N. assert (G : forall l, NoDup l -> (forall b, In b l -> length b = d) -> NoDup (map (pick points) l)); [|apply G; [apply bits_nodup|intros b; apply bits_in]].
    intros l0 ND. induction ND as [|b l NI ND IH]; intros AL; [constructor|]. cbn [map]. constructor.
    + intros H. apply in_map_iff in H. destruct H as (b' & E & H). apply NI. assert (b' = b); [|congruence].
      assert (Lb : length b = d) by (apply AL; left; reflexivity). assert (Lb' : length b' = d) by (apply AL; right; exact H).
      apply (nth_ext _ _ false false); [congruence|]. intros k Hk. rewrite Lb' in Hk. assert (Q : nth k (pick points b') 0 = nth k (pick points b) 0) by (rewrite E; reflexivity).
      rewrite !pick_nth in Q by lia. specialize (N k Hk). destruct (nth k b' false), (nth k b false); try reflexivity; congruence.
    + apply IH. intros c Hc. apply AL. right. exact Hc.
Qed.
Print Assumptions C129_corners.

(** The centre of a cell: numerators and denominator of the mean of its nodes. *)
Theorem C129_centers :
  forall (points : list (list Z)) (d : nat) (cells : list (list nat)) (e : nat) (c : list nat), nth_error cells e = Some c ->
  length (cell_centers points d cells) = length cells /\
  exists x, nth_error (cell_centers points d cells) e = Some (x, Z.of_nat (length c)) /\ length x = d /\
    forall k, (k < d)%nat -> nth k x 0 = fold_right Z.add 0 (map (fun n => nth k (nth n points []) 0) c).
Proof.
  intros points d cells e c E. unfold cell_centers. split; [apply map_length|]. eexists. split; [rewrite (map_nth_error _ e _ E); reflexivity|].
  split; [rewrite map_length, seq_length; reflexivity|]. intros k Hk. rewrite (nth_map_in _ _ 0%nat 0) by (rewrite seq_length; exact Hk). rewrite seq_nth by exact Hk. cbn [Nat.add].
  unfold csum, coord. induction c as [|n c IH]; [reflexivity|]. cbn [map fold_right]. f_equal. clear -c. induction c as [|n c IH]; [reflexivity|]. cbn [map fold_right]. rewrite IH. reflexivity.
Qed.
Print Assumptions C129_centers.

Example C129_example :
  let pts := [[0; 0; 0]; [4; 0; 0]; [0; 4; 0]; [4; 4; 4]; [2; 0; 4]; [2; 2; 4]; [2; 2; 2]] in
  corner_mask pts 0 = [true; true; true; true; false; false; false] /\ edge_mask pts 0 = [false; false; false; false; true; false; false] /\
  face_mask pts 0 = [false; false; false; false; false; true; false] /\ length (corners pts 3) = 8%nat /\ nth 1 (corners pts 3) [] = [0; 0; 4] /\
  cell_centers pts 3 [[0; 1; 4]%nat] = [([6; 0; 4], 3)].
Proof. repeat split. Qed.

(** The bounds: no coordinate of a node is outside, and both are attained by a node. *)
Theorem C129_bounds :
  forall (points : list (list Z)) (k : nat),
  (forall p, In p points -> lb points k <= nth k p 0 <= ub points k) /\
  (points <> [] -> (exists p, In p points /\ nth k p 0 = lb points k) /\ exists p, In p points /\ nth k p 0 = ub points k) /\
  (points = [] -> lb points k = 0 /\ ub points k = 1).
Proof.
  assert (MN : forall k ps m, let r := fold_left (fun m q => Z.min m (coord q k)) ps m in r <= m /\ (forall p, In p ps -> r <= coord p k) /\ (r = m \/ exists p, In p ps /\ coord p k = r)).
  { intros k ps. induction ps as [|q ps IH]; intros m; cbv zeta; cbn [fold_left]; [split; [lia|split; [intros p []|left; reflexivity]]|].
    destruct (IH (Z.min m (coord q k))) as (A & B & C). split; [lia|]. split.
    - intros p [<-|H]; [lia|apply B, H].
    - destruct C as [C|(p & H & C)]; [|right; exists p; split; [right; exact H|exact C]]. destruct (Z.min_spec m (coord q k)) as [[_ E]|[_ E]]; [left; lia|right; exists q; split; [left; reflexivity|lia]]. }
  assert (MX : forall k ps m, let r := fold_left (fun m q => Z.max m (coord q k)) ps m in m <= r /\ (forall p, In p ps -> coord p k <= r) /\ (r = m \/ exists p, In p ps /\ coord p k = r)).
  { intros k ps. induction ps as [|q ps IH]; intros m; cbv zeta; cbn [fold_left]; [split; [lia|split; [intros p []|left; reflexivity]]|].
    destruct (IH (Z.max m (coord q k))) as (A & B & C). split; [lia|]. split.
    - intros p [<-|H]; [lia|apply B, H].
    - destruct C as [C|(p & H & C)]; [|right; exists p; split; [right; exact H|exact C]]. destruct (Z.max_spec m (coord q k)) as [[_ E]|[_ E]]; [right; exists q; split; [left; reflexivity|lia]|left; lia]. }
  intros [|q ps] k; unfold lb, ub.
  - split; [intros p []|]. split; [intros H; contradiction H; reflexivity|]. intros _. split; reflexivity.
  - destruct (MN k ps (coord q k)) as (A & B & C). destruct (MX k ps (coord q k)) as (A' & B' & C'). split; [|split; [|discriminate]].
    + intros p [<-|H]; [split; [exact A|exact A']|]. split; [apply B, H|apply B', H].
    + intros _. split.
      * destruct C as [C|(p & H & C)]; [exists q|exists p]; (split; [cbn; auto|]); [symmetry; exact C|exact C].
      * destruct C' as [C'|(p & H & C')]; [exists q|exists p]; (split; [cbn; auto|]); [symmetry; exact C'|exact C'].
Qed.
Print Assumptions C129_bounds.
