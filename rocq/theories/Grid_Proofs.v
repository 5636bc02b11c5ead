(** Lemmas about the structured grid. *)
From Coq Require Import ZArith QArith Qround Qminmax Bool List Sorting.Sorted Lia Lqa.
From Verif Require Import ZArr Grid_Model.
Import ListNotations.
Local Open Scope Z_scope.

Lemma decode_encode (b c x y z : Z) : 0 <= y < b -> 0 <= z < c ->
  let e := (x * b + y) * c + z in
  e / (b * c) = x /\ (e mod (b * c)) / c = y /\ (e mod (b * c)) mod c = z.
Proof.
  intros Hy Hz e. assert (E : e = (b * c) * x + (y * c + z)) by (unfold e; ring).
  assert (B : 0 <= y * c + z < b * c) by nia.
  assert (E1 : e / (b * c) = x) by (symmetry; apply (Z.div_unique e (b * c) x (y * c + z)); [left; exact B|exact E]).
  assert (E2 : e mod (b * c) = y * c + z) by (symmetry; apply (Z.mod_unique e (b * c) x (y * c + z)); [left; exact B|exact E]).
  rewrite E2. split; [exact E1|]. split.
  - symmetry. apply (Z.div_unique _ c y z); [left; exact Hz|ring].
  - symmetry. apply (Z.mod_unique _ c y z); [left; exact Hz|ring].
Qed.
Lemma encode_decode (a b c e : Z) : 0 < b -> 0 < c -> 0 <= e < a * b * c ->
  let x := e / (b * c) in let y := (e mod (b * c)) / c in let z := (e mod (b * c)) mod c in
  (x * b + y) * c + z = e /\ 0 <= x < a /\ 0 <= y < b /\ 0 <= z < c.
Proof.
  intros Hb Hc He x y z. assert (P : 0 < b * c) by nia.
  assert (M := Z.mod_pos_bound e (b * c) P).
  assert (D := Z.div_mod e (b * c) ltac:(lia)).
  assert (D2 := Z.div_mod (e mod (b * c)) c ltac:(lia)).
  assert (M2 := Z.mod_pos_bound (e mod (b * c)) c Hc).
  split; [unfold x, y, z; nia|]. split; [|split; [|exact M2]].
  - unfold x. split; [apply Z.div_pos; lia|]. apply Z.div_lt_upper_bound; nia.
  - unfold y. split; [apply Z.div_pos; lia|]. apply Z.div_lt_upper_bound; nia.
Qed.
Lemma encode_bound (a b c x y z : Z) : 0 <= x < a -> 0 <= y < b -> 0 <= z < c -> 0 <= (x * b + y) * c + z < a * b * c.
Proof.
  intros Hx Hy Hz. assert (x * b + y < a * b) by nia. assert (0 <= x * b + y) by nia. nia.
Qed.

Section G.
  Variable g : grid.
  Hypothesis Pos : 0 < nx g /\ 0 < ny g /\ 0 < nz g.

  Lemma in_bounds_iff x y z : in_bounds g x y z = true <-> 0 <= x < nx g /\ 0 <= y < ny g /\ 0 <= z < nz g.
  Proof. clear Pos. unfold in_bounds. rewrite !andb_true_iff, !Z.leb_le, !Z.ltb_lt. tauto. Qed.
  Lemma cell_ijk_id x y z : 0 <= x < nx g -> 0 <= y < ny g -> 0 <= z < nz g ->
    cell_ijk g (cell_id g x y z) = (x, y, z) /\ 0 <= cell_id g x y z < num_cells g.
  Proof.
    intros Hx Hy Hz. unfold cell_ijk, cell_id, num_cells.
    destruct (decode_encode (ny g) (nz g) x y z Hy Hz) as (E1 & E2 & E3).
    rewrite E1, E2, E3. split; [reflexivity|]. apply encode_bound; assumption.
  Qed.
  Lemma cell_id_ijk e : 0 <= e < num_cells g ->
    exists x y z, cell_ijk g e = (x, y, z) /\ cell_id g x y z = e /\ 0 <= x < nx g /\ 0 <= y < ny g /\ 0 <= z < nz g.
  Proof.
    intros He. destruct (encode_decode (nx g) (ny g) (nz g) e) as (E & A & B & C); try tauto.
    eexists. eexists. eexists. split; [reflexivity|]. split; [exact E|]. tauto.
  Qed.
  Lemma node_ijk_id i j k : 0 <= i <= nx g -> 0 <= j <= ny g -> 0 <= k <= nz g ->
    node_ijk g (node_id g i j k) = (i, j, k) /\ 0 <= node_id g i j k < num_nodes g.
  Proof.
    intros Hx Hy Hz. unfold node_ijk, node_id, num_nodes.
    destruct (decode_encode (ny g + 1) (nz g + 1) i j k) as (E1 & E2 & E3); try lia.
    rewrite E1, E2, E3. split; [reflexivity|]. apply encode_bound; lia.
  Qed.
  Lemma node_id_ijk n : 0 <= n < num_nodes g ->
    exists i j k, node_ijk g n = (i, j, k) /\ node_id g i j k = n /\ 0 <= i <= nx g /\ 0 <= j <= ny g /\ 0 <= k <= nz g.
  Proof.
    intros Hn. destruct (encode_decode (nx g + 1) (ny g + 1) (nz g + 1) n) as (E & A & B & C); try lia; [exact Hn|].
    eexists. eexists. eexists. split; [reflexivity|]. split; [exact E|]. lia.
  Qed.
  Lemma cell_to_nodes_at x y z : 0 <= x < nx g -> 0 <= y < ny g -> 0 <= z < nz g ->
    cell_to_nodes g (cell_id g x y z) =
    map (fun o => let '(ox, oy, oz) := o in node_id g (x + ox) (y + oy) (z + oz)) hex8_offsets.
  Proof. intros. unfold cell_to_nodes. rewrite (proj1 (cell_ijk_id x y z H H0 H1)). reflexivity. Qed.

  (** Dilation: membership. *)
  Definition cheb (r : Z) (a b : ijk) : Prop :=
    Z.abs (fst (fst a) - fst (fst b)) <= r /\ Z.abs (snd (fst a) - snd (fst b)) <= r /\ Z.abs (snd a - snd b) <= r.
  Lemma dilate_in cells r c : 0 <= r -> (forall e, In e cells -> 0 <= e < num_cells g) ->
    (In c (dilate_cells g cells r) <->
     0 <= c < num_cells g /\ exists e, In e cells /\ cheb r (cell_ijk g c) (cell_ijk g e)).
  Proof.
    intros Hr Hin. unfold dilate_cells. destruct (Z.leb_spec r 0).
    - assert (r = 0) by lia. subst r. rewrite uniqueZ_in. split.
      + intros Hc. split; [apply Hin; exact Hc|]. exists c. split; [exact Hc|]. unfold cheb. lia.
      + intros (Hc & e & He & C). destruct (cell_id_ijk c Hc) as (x & y & z & E & Eid & _).
        destruct (cell_id_ijk e (Hin e He)) as (x' & y' & z' & E' & Eid' & _). rewrite E, E' in C. unfold cheb in C. cbn in C.
        assert (c = e) by (rewrite <- Eid, <- Eid'; f_equal; lia). rewrite H0. exact He.
    - rewrite uniqueZ_in, in_flat_map. split.
      + intros (dx & Hdx & H1). apply in_flat_map in H1. destruct H1 as (dy & Hdy & H1).
        apply in_flat_map in H1. destruct H1 as (dz & Hdz & H1). apply in_flat_map in H1. destruct H1 as (e & He & H1).
        apply rangeZ_in in Hdx. apply rangeZ_in in Hdy. apply rangeZ_in in Hdz.
        destruct (cell_id_ijk e (Hin e He)) as (x & y & z & E & _). rewrite E in H1.
        destruct (in_bounds g (x + dx) (y + dy) (z + dz)) eqn:B; [|destruct H1].
        apply in_bounds_iff in B. destruct B as (B1 & B2 & B3). destruct H1 as [<-|[]].
        change (((x + dx) * ny g + (y + dy)) * nz g + (z + dz)) with (cell_id g (x + dx) (y + dy) (z + dz)).
        destruct (cell_ijk_id _ _ _ B1 B2 B3) as [E2 E3]. split; [exact E3|]. exists e. split; [exact He|].
        rewrite E, E2. unfold cheb. cbn. lia.
      + intros (Hc & e & He & C). destruct (cell_id_ijk c Hc) as (x & y & z & E & Eid & B1 & B2 & B3).
        destruct (cell_id_ijk e (Hin e He)) as (x' & y' & z' & E' & _). rewrite E, E' in C. unfold cheb in C. cbn in C.
        exists (x - x'). split; [apply rangeZ_in; lia|]. apply in_flat_map. exists (y - y'). split; [apply rangeZ_in; lia|].
        apply in_flat_map. exists (z - z'). split; [apply rangeZ_in; lia|]. apply in_flat_map. exists e. split; [exact He|].
        rewrite E'. replace (x' + (x - x')) with x by ring. replace (y' + (y - y')) with y by ring. replace (z' + (z - z')) with z by ring.
        rewrite (proj2 (in_bounds_iff x y z)) by tauto. left. exact Eid.
  Qed.
  Lemma dilate_sorted cells r : StronglySorted Z.lt (dilate_cells g cells r).
  Proof. unfold dilate_cells. destruct (r <=? 0); apply uniqueZ_sorted. Qed.
End G.

(** ** Bounding boxes *)
Lemma qlo_le f p0 ps p : In p (p0 :: ps) -> (qlo f p0 ps <= f p)%Q.
Proof.
  induction ps as [|q ps IH]; cbn; intros H.
  - destruct H as [->|[]]. apply Qle_refl.
  - destruct H as [->|[->|H]].
    + eapply Qle_trans; [apply Q.le_min_r|]. apply IH. left. reflexivity.
    + apply Q.le_min_l.
    + eapply Qle_trans; [apply Q.le_min_r|]. apply IH. right. exact H.
Qed.
Lemma qhi_ge f p0 ps p : In p (p0 :: ps) -> (f p <= qhi f p0 ps)%Q.
Proof.
  induction ps as [|q ps IH]; cbn; intros H.
  - destruct H as [->|[]]. apply Qle_refl.
  - destruct H as [->|[->|H]].
    + eapply Qle_trans; [|apply Q.le_max_r]. apply IH. left. reflexivity.
    + apply Q.le_max_l.
    + eapply Qle_trans; [|apply Q.le_max_r]. apply IH. right. exact H.
Qed.
Lemma qlo_lt_hi f p0 ps : (qlo f p0 ps < qhi f p0 ps)%Q \/ (qlo f p0 ps == qhi f p0 ps)%Q.
Proof.
  assert (qlo f p0 ps <= f p0)%Q by (apply qlo_le; left; reflexivity).
  assert (f p0 <= qhi f p0 ps)%Q by (apply qhi_ge; left; reflexivity).
  destruct (Qlt_le_dec (qlo f p0 ps) (qhi f p0 ps)); [left; assumption|right; lra].
Qed.

Lemma align_up_ge a d : (forall x, a = Some x -> 0 <= x) -> d <= align_up a d.
Proof.
  intros H. unfold align_up. destruct a as [x|]; [|lia]. destruct (Z.eqb_spec x 0); [lia|].
  specialize (H x eq_refl). assert (M := Z.div_mod (d + x - 1) x ltac:(lia)). assert (B := Z.mod_pos_bound (d + x - 1) x ltac:(lia)). nia.
Qed.
Lemma align_up_spec x d : 0 < x -> d <= align_up (Some x) d < d + x /\ align_up (Some x) d mod x = 0.
Proof.
  intros H. unfold align_up. destruct (Z.eqb_spec x 0); [lia|].
  assert (M := Z.div_mod (d + x - 1) x ltac:(lia)). assert (B := Z.mod_pos_bound (d + x - 1) x ltac:(lia)).
  split; [nia|]. apply Z.mod_mul. lia.
Qed.

(** ** Floors *)
Lemma floor_iff q k : Qfloor q = k <-> (inject_Z k <= q /\ q < inject_Z (k + 1))%Q.
Proof.
  split.
  - intros <-. split; [apply Qfloor_le|apply Qlt_floor].
  - intros [H1 H2]. apply Z.le_antisymm.
    + assert (F := Qfloor_le q). assert ((inject_Z (Qfloor q) < inject_Z (k + 1))%Q) by (eapply Qle_lt_trans; eassumption).
      rewrite <- Zlt_Qlt in H. lia.
    + assert (F := Qlt_floor q). assert ((inject_Z k < inject_Z (Qfloor q + 1))%Q) by (eapply Qle_lt_trans; eassumption).
      rewrite <- Zlt_Qlt in H. lia.
Qed.
Lemma floor_axis p o s k : (0 < s)%Q ->
  (Qfloor ((p - o) / s) = k <-> (o + inject_Z k * s <= p /\ p < o + (inject_Z k + 1) * s)%Q).
Proof.
  intros Hs. rewrite floor_iff. rewrite inject_Z_plus. change (inject_Z 1) with 1%Q.
  assert (E : ((p - o) == (p - o) / s * s)%Q) by (field; lra). set (q := ((p - o) / s)%Q) in *. split; intros [H1 H2]; split; nra.
Qed.
Lemma floor_range p o s n : (0 < s)%Q ->
  (0 <= Qfloor ((p - o) / s) < n <-> (o <= p /\ p < o + inject_Z n * s)%Q).
Proof.
  intros Hs. destruct (proj1 (floor_axis p o s _ Hs) eq_refl) as [F1 F2]. set (k := Qfloor ((p - o) / s)) in *. split.
  - intros [H1 H2]. assert ((0 <= inject_Z k)%Q) by (change 0%Q with (inject_Z 0); rewrite <- Zle_Qle; exact H1).
    assert ((inject_Z k + 1 <= inject_Z n)%Q) by (change 1%Q with (inject_Z 1); rewrite <- inject_Z_plus, <- Zle_Qle; lia).
    split; nra.
  - intros [H1 H2]. split.
    + destruct (Z_lt_ge_dec k 0); [|lia]. exfalso.
      assert ((inject_Z k + 1 <= 0)%Q) by (change 1%Q with (inject_Z 1); change 0%Q with (inject_Z 0); rewrite <- inject_Z_plus, <- Zle_Qle; lia).
      nra.
    + destruct (Z_lt_ge_dec k n); [lia|]. exfalso.
      assert ((inject_Z n <= inject_Z k)%Q) by (rewrite <- Zle_Qle; lia). nra.
Qed.
