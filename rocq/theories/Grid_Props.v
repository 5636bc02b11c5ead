(** C22, C23, C24: the structured grid. *)
From Coq Require Import ZArith QArith Qround Qminmax Bool List Sorting.Sorted Lia Lqa.
From Verif Require Import ZArr Grid_Model Grid_Proofs.
Import ListNotations.
Local Open Scope Z_scope.

(** ** Specification *)
Definition positive_dims (g : grid) : Prop := 0 < nx g /\ 0 < ny g /\ 0 < nz g.
Definition positive_spacing (g : grid) : Prop := (0 < px (spacing g) /\ 0 < py (spacing g) /\ 0 < pz (spacing g))%Q.
Definition cell_index (g : grid) (c : ijk) : Prop :=
  let '(x, y, z) := c in 0 <= x < nx g /\ 0 <= y < ny g /\ 0 <= z < nz g.
Definition node_index (g : grid) (c : ijk) : Prop :=
  let '(x, y, z) := c in 0 <= x <= nx g /\ 0 <= y <= ny g /\ 0 <= z <= nz g.
(** Half-open box of the cell with index (x, y, z). *)
Definition in_cell (g : grid) (c : ijk) (p : point) : Prop :=
  let '(x, y, z) := c in
  (px (origin g) + inject_Z x * px (spacing g) <= px p < px (origin g) + (inject_Z x + 1) * px (spacing g) /\
   py (origin g) + inject_Z y * py (spacing g) <= py p < py (origin g) + (inject_Z y + 1) * py (spacing g) /\
   pz (origin g) + inject_Z z * pz (spacing g) <= pz p < pz (origin g) + (inject_Z z + 1) * pz (spacing g))%Q.
(** Half-open box of the whole grid. *)
Definition in_grid (g : grid) (p : point) : Prop :=
  (px (origin g) <= px p < px (origin g) + inject_Z (nx g) * px (spacing g) /\
   py (origin g) <= py p < py (origin g) + inject_Z (ny g) * py (spacing g) /\
   pz (origin g) <= pz p < pz (origin g) + inject_Z (nz g) * pz (spacing g))%Q.
(** Chebyshev distance at most r. *)
Definition within (r : Z) (a b : ijk) : Prop :=
  let '(x, y, z) := a in let '(x', y', z') := b in Z.max (Z.abs (x - x')) (Z.max (Z.abs (y - y')) (Z.abs (z - z'))) <= r.

Lemma within_cheb r a b : within r a b <-> cheb r a b.
Proof. destruct a as [[x y] z], b as [[x' y'] z']. unfold within, cheb. cbn. lia. Qed.

(** ** C22 *)
Theorem C22_cell_ids :
  forall g, positive_dims g ->
    (forall x y z, cell_index g (x, y, z) -> cell_ijk g (cell_id g x y z) = (x, y, z) /\ 0 <= cell_id g x y z < num_cells g) /\
    (forall e, 0 <= e < num_cells g -> cell_index g (cell_ijk g e) /\
       let '(x, y, z) := cell_ijk g e in cell_id g x y z = e).
Proof.
  intros g P. split.
  - intros x y z (A & B & C). apply cell_ijk_id; assumption.
  - intros e He. destruct (cell_id_ijk g P e He) as (x & y & z & E & Ei & A & B & C). rewrite E. cbn. tauto.
Qed.
Print Assumptions C22_cell_ids.
Theorem C22_node_ids :
  forall g, positive_dims g ->
    (forall i j k, node_index g (i, j, k) -> node_ijk g (node_id g i j k) = (i, j, k) /\ 0 <= node_id g i j k < num_nodes g) /\
    (forall n, 0 <= n < num_nodes g -> node_index g (node_ijk g n) /\
       let '(i, j, k) := node_ijk g n in node_id g i j k = n).
Proof.
  intros g P. split.
  - intros i j k (A & B & C). apply node_ijk_id; assumption.
  - intros n Hn. destruct (node_id_ijk g P n Hn) as (x & y & z & E & Ei & A & B & C). rewrite E. cbn. tauto.
Qed.
Print Assumptions C22_node_ids.

(** The corners of a cell, in the order y+z+, z+, base, y+ on the low-x face, then the same on
    the high-x face; they are 8 distinct node ids of the grid. *)
Theorem C22_corners :
  forall g e x y z, positive_dims g -> 0 <= e < num_cells g -> cell_ijk g e = (x, y, z) ->
    map (node_ijk g) (cell_to_nodes g e) =
      [(x, y + 1, z + 1); (x, y, z + 1); (x, y, z); (x, y + 1, z);
       (x + 1, y + 1, z + 1); (x + 1, y, z + 1); (x + 1, y, z); (x + 1, y + 1, z)] /\
    NoDup (cell_to_nodes g e) /\ (forall n, In n (cell_to_nodes g e) -> 0 <= n < num_nodes g).
Proof.
  intros g e x y z P He E. destruct (cell_id_ijk g P e He) as (x' & y' & z' & E' & Ei & A & B & C).
  rewrite E in E'. injection E' as <- <- <-. rewrite <- Ei, cell_to_nodes_at by assumption.
  assert (M : map (node_ijk g) (map (fun o : ijk => let '(ox, oy, oz) := o in node_id g (x + ox) (y + oy) (z + oz)) hex8_offsets) =
    [(x, y + 1, z + 1); (x, y, z + 1); (x, y, z); (x, y + 1, z);
       (x + 1, y + 1, z + 1); (x + 1, y, z + 1); (x + 1, y, z); (x + 1, y + 1, z)]).
  { assert (N : forall i j k, 0 <= i <= nx g -> 0 <= j <= ny g -> 0 <= k <= nz g -> node_ijk g (node_id g i j k) = (i, j, k))
      by (intros; apply node_ijk_id; assumption).
    cbn [map hex8_offsets]. rewrite !N by lia. rewrite !Z.add_0_r. reflexivity. }
  split; [exact M|]. split.
  - apply (@NoDup_map_inv Z ijk (node_ijk g)).
    match type of M with _ = ?l => assert (ND : @NoDup ijk l); [|rewrite <- M in ND; exact ND] end.
    repeat constructor; cbn [In]; intros H; decompose [or] H; try congruence;
      match goal with X : (_, _, _) = (_, _, _) |- _ => injection X; lia end.
  - intros n Hn. apply in_map_iff in Hn. destruct Hn as ([[ox oy] oz] & <- & Ho).
    assert (0 <= ox <= 1 /\ 0 <= oy <= 1 /\ 0 <= oz <= 1).
    { cbn in Ho. decompose [or] Ho; try contradiction; match goal with X : (_, _, _) = (_, _, _) |- _ => injection X; intros; subst end; lia. }
    apply node_ijk_id; lia.
Qed.
Print Assumptions C22_corners.

(** Two cells share a node iff their indices differ by at most one in each direction. *)
Theorem C22_sharing :
  forall g e f, positive_dims g -> 0 <= e < num_cells g -> 0 <= f < num_cells g ->
    ((exists n, In n (cell_to_nodes g e) /\ In n (cell_to_nodes g f)) <-> within 1 (cell_ijk g e) (cell_ijk g f)).
Proof.
  intros g e f P He Hf.
  destruct (cell_ijk g e) as [[x y] z] eqn:Ee. destruct (cell_ijk g f) as [[x' y'] z'] eqn:Ef.
  destruct (C22_corners g e x y z P He Ee) as (Me & _ & Re). destruct (C22_corners g f x' y' z' P Hf Ef) as (Mf & _ & Rf).
  unfold within. split.
  - intros (n & H1 & H2). apply (in_map (node_ijk g)) in H1, H2. rewrite Me in H1. rewrite Mf in H2.
    destruct (node_ijk g n) as [[i j] k]. cbn in H1, H2.
    assert (x <= i <= x + 1 /\ y <= j <= y + 1 /\ z <= k <= z + 1)
      by (decompose [or] H1; try contradiction; match goal with X : (_, _, _) = (_, _, _) |- _ => injection X; lia end).
    assert (x' <= i <= x' + 1 /\ y' <= j <= y' + 1 /\ z' <= k <= z' + 1)
      by (decompose [or] H2; try contradiction; match goal with X : (_, _, _) = (_, _, _) |- _ => injection X; lia end).
    lia.
  - intros H. set (i := Z.max x x'). set (j := Z.max y y'). set (k := Z.max z z').
    exists (node_id g i j k).
    assert (D : forall e x y z, cell_ijk g e = (x, y, z) ->
        x <= i <= x + 1 -> y <= j <= y + 1 -> z <= k <= z + 1 -> In (node_id g i j k) (cell_to_nodes g e)).
    { intros e0 x0 y0 z0 E0 Hi Hj Hk. unfold cell_to_nodes. rewrite E0. apply in_map_iff.
      exists (i - x0, j - y0, k - z0). split; [f_equal; lia|].
      assert (i - x0 = 0 \/ i - x0 = 1) as [-> | ->] by lia; assert (j - y0 = 0 \/ j - y0 = 1) as [-> | ->] by lia;
      assert (k - z0 = 0 \/ k - z0 = 1) as [-> | ->] by lia; cbn; tauto. }
    split; [apply (D e x y z)|apply (D f x' y' z')]; auto; unfold i, j, k; lia.
Qed.
Print Assumptions C22_sharing.

(** Geometry: every corner's edge triple (in the HEX8 numbering) spans the volume
    sx sy sz with positive orientation; the centroid is the mean of opposite corners. *)
Definition psub (p q : point) : point := ((px p - px q)%Q, (py p - py q)%Q, (pz p - pz q)%Q).
Definition triple (u v w : point) : Q :=
  (px u * (py v * pz w - pz v * py w) - py u * (px v * pz w - pz v * px w) + pz u * (px v * py w - py v * px w))%Q.
Definition corner_edges : list (nat * nat * nat * nat) :=
  [(0, 1, 3, 4); (1, 2, 0, 5); (2, 3, 1, 6); (3, 0, 2, 7); (4, 7, 5, 0); (5, 4, 6, 1); (6, 5, 7, 2); (7, 6, 4, 3)]%nat.
Theorem C22_orientation :
  forall g e l a b c, positive_dims g -> 0 <= e < num_cells g -> In (l, a, b, c) corner_edges ->
    let P i := node_coords g (nth i (cell_to_nodes g e) 0) in
    (triple (psub (P a) (P l)) (psub (P b) (P l)) (psub (P c) (P l)) ==
     px (spacing g) * py (spacing g) * pz (spacing g))%Q.
Proof.
  intros g e l a b c P He Hin X. destruct (cell_ijk g e) as [[x y] z] eqn:E.
  destruct (C22_corners g e x y z P He E) as (M & _ & _).
  assert (N : forall i, (i < 8)%nat -> node_ijk g (nth i (cell_to_nodes g e) 0) = nth i [(x, y + 1, z + 1); (x, y, z + 1); (x, y, z); (x, y + 1, z);
       (x + 1, y + 1, z + 1); (x + 1, y, z + 1); (x + 1, y, z); (x + 1, y + 1, z)] (0, 0, 0)).
  { intros i Hi. rewrite <- M. rewrite nth_indep with (d' := node_ijk g 0).
    - rewrite map_nth. reflexivity.
    - rewrite M. exact Hi. }
  unfold X, node_coords.
  cbn in Hin. decompose [or] Hin; try contradiction;
    match goal with Y : (_, _, _, _) = (_, _, _, _) |- _ => injection Y; intros; subst end;
    rewrite !N by lia; cbn [nth]; unfold triple, psub, px, py, pz; cbn [fst snd]; rewrite ?inject_Z_plus; change (inject_Z 1) with 1%Q; ring.
Qed.
Print Assumptions C22_orientation.
Theorem C22_centroid :
  forall g e k, positive_dims g -> 0 <= e < num_cells g -> (k < 4)%nat ->
    let P i := node_coords g (nth i (cell_to_nodes g e) 0) in
    let q := cell_centroid g e in
    let a := P k in let b := P (4 + (k + 2) mod 4)%nat in
    (px q == (px a + px b) / 2 /\ py q == (py a + py b) / 2 /\ pz q == (pz a + pz b) / 2)%Q.
Proof.
  intros g e k P He Hk X q a b. destruct (cell_ijk g e) as [[x y] z] eqn:E.
  destruct (C22_corners g e x y z P He E) as (M & _ & _).
  assert (N : forall i, (i < 8)%nat -> node_ijk g (nth i (cell_to_nodes g e) 0) = nth i [(x, y + 1, z + 1); (x, y, z + 1); (x, y, z); (x, y + 1, z);
       (x + 1, y + 1, z + 1); (x + 1, y, z + 1); (x + 1, y, z); (x + 1, y + 1, z)] (0, 0, 0)).
  { intros i Hi. rewrite <- M. rewrite nth_indep with (d' := node_ijk g 0).
    - rewrite map_nth. reflexivity.
    - rewrite M. exact Hi. }
  unfold a, b, q, X, node_coords, cell_centroid. rewrite E.
  destruct k as [|[|[|[|]]]]; [| | | |lia]; cbn [Nat.add Nat.modulo Nat.divmod fst snd Nat.sub];
    rewrite !N by lia; cbn [nth]; unfold px, py, pz; cbn [fst snd]; rewrite ?inject_Z_plus; change (inject_Z 1) with 1%Q;
    split; [|split| |split| |split| |split]; field.
Qed.
Print Assumptions C22_centroid.

(** nodes_where: exactly the nodes whose index satisfies the predicate. *)
Theorem C22_nodes_where :
  forall g predicate n, positive_dims g ->
    (In n (nodes_where g predicate) <->
     0 <= n < num_nodes g /\ let '(i, j, k) := node_ijk g n in predicate i j k = true).
Proof.
  intros g pr n P. unfold nodes_where. rewrite in_flat_map. split.
  - intros (i & Hi & H). apply in_flat_map in H. destruct H as (j & Hj & H). apply in_flat_map in H. destruct H as (k & Hk & H).
    apply arangeZ_in in Hi. apply arangeZ_in in Hj. apply arangeZ_in in Hk.
    destruct (pr i j k) eqn:E; [|destruct H]. destruct H as [<-|[]].
    destruct (node_ijk_id g i j k ltac:(lia) ltac:(lia) ltac:(lia)) as [E2 B]. rewrite E2. split; [exact B|exact E].
  - intros [Hn H]. destruct (node_id_ijk g P n Hn) as (i & j & k & E & Ei & A & B & C). rewrite E in H.
    exists i. split; [apply arangeZ_in; lia|]. apply in_flat_map. exists j. split; [apply arangeZ_in; lia|].
    apply in_flat_map. exists k. split; [apply arangeZ_in; lia|]. rewrite H. left. exact Ei.
Qed.
Print Assumptions C22_nodes_where.

Definition ex_grid := {| nx := 2; ny := 3; nz := 4; spacing := (1 # 2, 1 # 3, 1 # 4)%Q; origin := (0, 1, 2)%Q |}.
Example C22_example : positive_dims ex_grid /\ positive_spacing ex_grid /\ 0 <= 17 < num_cells ex_grid /\
  cell_ijk ex_grid 17 = (1, 1, 1) /\ cell_to_nodes ex_grid 17 = [32; 27; 26; 31; 52; 47; 46; 51].
Proof. repeat split; try reflexivity; discriminate. Qed.

(** ** C23 *)
Theorem C23_point_cells :
  forall g p, positive_dims g -> positive_spacing g ->
    (in_grid g p -> 0 <= point_cell g p < num_cells g /\ in_cell g (cell_ijk g (point_cell g p)) p) /\
    (~ in_grid g p -> point_cell g p = -1) /\
    (forall e, 0 <= e < num_cells g -> in_cell g (cell_ijk g e) p -> point_cell g p = e).
Proof.
  intros g p P (S1 & S2 & S3).
  assert (R1 := floor_range (px p) (px (origin g)) (px (spacing g)) (nx g) S1).
  assert (R2 := floor_range (py p) (py (origin g)) (py (spacing g)) (ny g) S2).
  assert (R3 := floor_range (pz p) (pz (origin g)) (pz (spacing g)) (nz g) S3).
  assert (IB : in_bounds g (Qfloor ((px p - px (origin g)) / px (spacing g))) (Qfloor ((py p - py (origin g)) / py (spacing g)))
                 (Qfloor ((pz p - pz (origin g)) / pz (spacing g))) = true <-> in_grid g p).
  { rewrite in_bounds_iff. unfold in_grid. tauto. }
  unfold point_cell.
  set (i := Qfloor ((px p - px (origin g)) / px (spacing g))) in *.
  set (j := Qfloor ((py p - py (origin g)) / py (spacing g))) in *.
  set (k := Qfloor ((pz p - pz (origin g)) / pz (spacing g))) in *.
  split; [|split].
  - intros H. apply IB in H. rewrite H. apply in_bounds_iff in H. destruct H as (B1 & B2 & B3).
    fold (cell_id g i j k). destruct (cell_ijk_id g i j k B1 B2 B3) as [E B]. split; [exact B|]. rewrite E. unfold in_cell.
    split; [apply floor_axis; [exact S1|reflexivity]|]. split; apply floor_axis; auto.
  - intros H. destruct (in_bounds g i j k); [|reflexivity]. exfalso. apply H, IB. reflexivity.
  - intros e He Hc. destruct (cell_id_ijk g P e He) as (x & y & z & E & Ei & A & B & C). rewrite E in Hc. destruct Hc as (C1 & C2 & C3).
    apply floor_axis in C1; [|exact S1]. apply floor_axis in C2; [|exact S2]. apply floor_axis in C3; [|exact S3].
    fold i in C1. fold j in C2. fold k in C3. rewrite C1, C2, C3.
    rewrite (proj2 (in_bounds_iff g x y z)) by tauto. exact Ei.
Qed.
Print Assumptions C23_point_cells.

Theorem C23_voxelize :
  forall g ps e, positive_dims g -> positive_spacing g ->
    (In e (voxelize g ps) <-> 0 <= e < num_cells g /\ exists p, In p ps /\ in_cell g (cell_ijk g e) p) /\
    StronglySorted Z.lt (voxelize g ps).
Proof.
  intros g ps e P S. split; [|apply uniqueZ_sorted]. unfold voxelize. rewrite uniqueZ_in, filter_In, in_map_iff, Z.leb_le. split.
  - intros [(p & <- & Hp) Hge]. destruct (C23_point_cells g p P S) as (A & B & _).
    assert (D : in_grid g p \/ ~ in_grid g p).
    { unfold in_grid. assert (Q : forall a b, ((a <= b)%Q \/ ~ (a <= b)%Q) /\ ((a < b)%Q \/ ~ (a < b)%Q)).
      { intros a b. split; [destruct (Qlt_le_dec b a); [right; lra|left; assumption]|destruct (Qlt_le_dec a b); [left; assumption|right; lra]]. }
      destruct (proj1 (Q (px (origin g)) (px p))); [|right; tauto].
      destruct (proj1 (Q (py (origin g)) (py p))); [|right; tauto].
      destruct (proj1 (Q (pz (origin g)) (pz p))); [|right; tauto].
      destruct (proj2 (Q (px p) (px (origin g) + inject_Z (nx g) * px (spacing g))%Q)); [|right; tauto].
      destruct (proj2 (Q (py p) (py (origin g) + inject_Z (ny g) * py (spacing g))%Q)); [|right; tauto].
      destruct (proj2 (Q (pz p) (pz (origin g) + inject_Z (nz g) * pz (spacing g))%Q)); [|right; tauto].
      left. tauto. }
    destruct D as [D|D]; [|rewrite (B D) in Hge; lia].
    destruct (A D) as [A1 A2]. split; [exact A1|]. exists p. auto.
  - intros (He & p & Hp & Hc). split; [|lia]. exists p. split; [|exact Hp]. apply (C23_point_cells g p P S); assumption.
Qed.
Print Assumptions C23_voxelize.

(** [fit] with a cell size and at least some padding: every point is inside, with at least
    [pad] cells of distance to the low faces and [pad] cells to the high faces. *)
Theorem C23_fit_h :
  forall p0 rest h pad align g p,
    (0 < px h)%Q -> (0 < py h)%Q -> (0 < pz h)%Q -> (0 < pad)%Q -> (forall a, align = Some a -> 0 <= a) ->
    fit p0 rest (Some (ByH h)) pad None align = Some g -> In p (p0 :: rest) ->
    positive_dims g /\ positive_spacing g /\ in_grid g p /\
    (px (origin g) + pad * px (spacing g) <= px p <= px (origin g) + (inject_Z (nx g) - pad) * px (spacing g))%Q /\
    (py (origin g) + pad * py (spacing g) <= py p <= py (origin g) + (inject_Z (ny g) - pad) * py (spacing g))%Q /\
    (pz (origin g) + pad * pz (spacing g) <= pz p <= pz (origin g) + (inject_Z (nz g) - pad) * pz (spacing g))%Q.
Proof.
  intros p0 rest h pad align g p H1 H2 H3 Hpad Ha HF Hp. unfold fit in HF. cbn [option_map] in HF.
  match type of HF with Some ?x = Some g => assert (EG : g = x) by congruence end. subst g. clear HF. cbn [nx ny nz spacing origin].
  assert (AX : forall f s, (0 < s)%Q ->
    0 < snd (fit_h_axis (qlo f p0 rest) (qhi f p0 rest) s pad None align) /\
    (fst (fit_h_axis (qlo f p0 rest) (qhi f p0 rest) s pad None align) + pad * s <= f p)%Q /\
    (f p <= fst (fit_h_axis (qlo f p0 rest) (qhi f p0 rest) s pad None align) +
           (inject_Z (snd (fit_h_axis (qlo f p0 rest) (qhi f p0 rest) s pad None align)) - pad) * s)%Q).
  { intros f s Hs. unfold fit_h_axis. cbn [fst snd].
    assert (L := qlo_le f p0 rest p Hp). assert (U := qhi_ge f p0 rest p Hp).
    set (lo := qlo f p0 rest) in *. set (hi := qhi f p0 rest) in *.
    set (d := Qceiling ((hi + pad * s - (lo - pad * s)) / s)).
    assert (G := align_up_ge align (Z.max 1 d) Ha). set (n := align_up align (Z.max 1 d)) in *.
    split; [lia|]. split; [lra|].
    assert (C := Qle_ceiling ((hi + pad * s - (lo - pad * s)) / s)). fold d in C.
    assert (D : (inject_Z d <= inject_Z n)%Q) by (rewrite <- Zle_Qle; lia).
    assert (E : ((hi + pad * s - (lo - pad * s)) == (hi + pad * s - (lo - pad * s)) / s * s)%Q) by (field; lra).
    set (q := ((hi + pad * s - (lo - pad * s)) / s)%Q) in *. nra. }
  destruct (AX px (px h) H1) as (X1 & X2 & X3). destruct (AX py (py h) H2) as (Y1 & Y2 & Y3). destruct (AX pz (pz h) H3) as (Z1 & Z2 & Z3).
  set (ax := fit_h_axis (qlo px p0 rest) (qhi px p0 rest) (px h) pad None align) in *.
  set (ay := fit_h_axis (qlo py p0 rest) (qhi py p0 rest) (py h) pad None align) in *.
  set (az := fit_h_axis (qlo pz p0 rest) (qhi pz p0 rest) (pz h) pad None align) in *.
  split; [split; [exact X1|split; assumption]|]. split; [split; [exact H1|split; assumption]|]. split.
  - assert (A1 : (0 < pad * px h)%Q) by nra. assert (A2 : (0 < pad * py h)%Q) by nra. assert (A3 : (0 < pad * pz h)%Q) by nra.
    unfold in_grid. cbn [nx ny nz spacing origin]. clearbody ax ay az.
    change (px (fst ax, fst ay, fst az)) with (fst ax). change (py (fst ax, fst ay, fst az)) with (fst ay).
    change (pz (fst ax, fst ay, fst az)) with (fst az).
    split; [|split]; split; lra.
  - change (px (fst ax, fst ay, fst az)) with (fst ax). change (py (fst ax, fst ay, fst az)) with (fst ay).
    change (pz (fst ax, fst ay, fst az)) with (fst az). tauto.
Qed.
Print Assumptions C23_fit_h.

(** [align] makes every dimension a multiple. *)
Theorem C23_fit_align :
  forall p0 rest mode pad org a g, 0 < a ->
    fit p0 rest mode pad org (Some a) = Some g ->
    nx g mod a = 0 /\ ny g mod a = 0 /\ nz g mod a = 0.
Proof.
  intros p0 rest mode pad org a g Ha HF. unfold fit in HF.
  destruct mode as [[h|dx dy dz]|]; [| |discriminate]; injection HF as <-; cbn [nx ny nz fst snd fit_h_axis fit_dims_axis];
    split; [|split| |split]; apply align_up_spec; exact Ha.
Qed.
Print Assumptions C23_fit_align.

(** [fit] with dims: the grid's closed box is the bounding box, so a point with the largest x
    coordinate is never inside the half-open grid and is reported as outside. *)
Theorem C23_fit_dims_max_refuted :
  forall p0 rest dx dy dz pad g p, 0 < dx -> 0 < dy -> 0 < dz ->
    (qlo px p0 rest < qhi px p0 rest)%Q -> (qlo py p0 rest < qhi py p0 rest)%Q -> (qlo pz p0 rest < qhi pz p0 rest)%Q ->
    fit p0 rest (Some (ByDims dx dy dz)) pad None None = Some g ->
    (px p == qhi px p0 rest)%Q -> point_cell g p = -1.
Proof.
  intros p0 rest dx dy dz pad g p H1 H2 H3 L1 L2 L3 HF Hp. unfold fit in HF. injection HF as <-.
  assert (D : forall d, 0 < d -> (0 < inject_Z (Z.max d 1))%Q).
  { intros d Hd. change 0%Q with (inject_Z 0). rewrite <- Zlt_Qlt. lia. }
  assert (SP : forall lo hi d, 0 < d -> (lo < hi)%Q -> (0 < (hi - lo) / inject_Z (Z.max d 1))%Q).
  { intros lo hi d Hd Hl. apply Qlt_shift_div_l; [apply D; exact Hd|]. lra. }
  refine (proj1 (proj2 (C23_point_cells _ p _ _)) _).
  - cbn. repeat split; assumption.
  - cbn. repeat split; apply SP; assumption.
  - unfold in_grid. cbn [nx ny nz spacing origin]. intros [[_ X] _]. unfold fit_dims_axis, align_up in X. cbn [option_map fst snd] in X.
    match type of X with (_ < px (?a, _, _) + _ * px (?b, _, _))%Q =>
      change (px p < a + inject_Z dx * b)%Q in X end. assert (P := D dx H1).
    replace (Z.max dx 1) with dx in X by lia. replace (Z.max dx 1) with dx in P by lia.
    assert (E : (inject_Z dx * ((qhi px p0 rest - qlo px p0 rest) / inject_Z dx) == qhi px p0 rest - qlo px p0 rest)%Q) by (field; lra).
    rewrite E in X. lra.
Qed.
Print Assumptions C23_fit_dims_max_refuted.
(** All other points are inside. *)
Theorem C23_fit_dims :
  forall p0 rest dx dy dz pad g p, 0 < dx -> 0 < dy -> 0 < dz ->
    (qlo px p0 rest < qhi px p0 rest)%Q -> (qlo py p0 rest < qhi py p0 rest)%Q -> (qlo pz p0 rest < qhi pz p0 rest)%Q ->
    fit p0 rest (Some (ByDims dx dy dz)) pad None None = Some g -> In p (p0 :: rest) ->
    (px p < qhi px p0 rest)%Q -> (py p < qhi py p0 rest)%Q -> (pz p < qhi pz p0 rest)%Q ->
    positive_dims g /\ positive_spacing g /\ in_grid g p.
Proof.
  intros p0 rest dx dy dz pad g p H1 H2 H3 L1 L2 L3 HF Hin P1 P2 P3. unfold fit in HF. injection HF as <-.
  assert (D : forall d, 0 < d -> (0 < inject_Z (Z.max d 1))%Q).
  { intros d Hd. change 0%Q with (inject_Z 0). rewrite <- Zlt_Qlt. lia. }
  assert (SP : forall lo hi d, 0 < d -> (lo < hi)%Q -> (0 < (hi - lo) / inject_Z (Z.max d 1))%Q).
  { intros lo hi d Hd Hl. apply Qlt_shift_div_l; [apply D; exact Hd|]. lra. }
  split; [cbn; repeat split; assumption|]. split; [cbn; repeat split; apply SP; assumption|].
  assert (AX : forall f d, 0 < d -> (f p < qhi f p0 rest)%Q ->
     (qlo f p0 rest <= f p < qlo f p0 rest + inject_Z d * ((qhi f p0 rest - qlo f p0 rest) / inject_Z (Z.max d 1)))%Q).
  { intros f d Hd Hl. split; [apply qlo_le; exact Hin|]. assert (P := D d Hd). replace (Z.max d 1) with d in * by lia.
    assert (E : (inject_Z d * ((qhi f p0 rest - qlo f p0 rest) / inject_Z d) == qhi f p0 rest - qlo f p0 rest)%Q) by (field; lra).
    rewrite E. lra. }
  assert (A1 := AX px dx H1 P1). assert (A2 := AX py dy H2 P2). assert (A3 := AX pz dz H3 P3).
  unfold in_grid. cbn. split; [exact A1|]. split; [exact A2|exact A3].
Qed.
Print Assumptions C23_fit_dims.
(** pad_cells = 0 has the same defect with a cell size dividing the extent. *)
Theorem C23_fit_pad0_refuted :
  exists p0 rest h g p, fit p0 rest (Some (ByH h)) 0 None None = Some g /\ In p (p0 :: rest) /\ point_cell g p = -1 /\
    (0 < px h)%Q /\ (0 < py h)%Q /\ (0 < pz h)%Q.
Proof.
  exists (0, 0, 0)%Q, [(1, 1, 1)%Q], (1 # 2, 1 # 2, 1 # 2)%Q. eexists. exists (1, 1, 1)%Q.
  split; [vm_compute; reflexivity|]. split; [right; left; reflexivity|]. repeat split; reflexivity.
Qed.
Print Assumptions C23_fit_pad0_refuted.
Example C23_example : exists g, fit (0, 0, 0)%Q [(1, 1, 1)%Q] (Some (ByH (1 # 2, 1 # 2, 1 # 4)%Q)) 1 None (Some 4) = Some g /\
  nx g = 4 /\ nz g = 8 /\ point_cell g (1, 1, 1)%Q = (3 * 4 + 3) * 8 + 5.
Proof. eexists. split; [vm_compute; reflexivity|]. repeat split; reflexivity. Qed.

(** The sample points of voxelize_mesh: the mesh nodes, the cell centroids, and for each given
    fraction f and each cell corner p the point f p + (1-f) centroid. *)
Inductive sample (pts : list point) (cells : list (list nat)) (fs : list Q) : point -> Prop :=
| sample_node p : In p pts -> sample pts cells fs p
| sample_centroid c : In c cells -> sample pts cells fs (centroid (cell_points pts c))
| sample_between f c n : In f fs -> In c cells -> In n c ->
    let p := nth n pts (0, 0, 0)%Q in let q := centroid (cell_points pts c) in
    sample pts cells fs (f * px p + (1 - f) * px q, f * py p + (1 - f) * py q, f * pz p + (1 - f) * pz q)%Q.
(** The active cells of voxelize_mesh are exactly the grid cells that contain a sample; in
    particular every grid cell that contains a mesh node is active. *)
Theorem C23_voxelize_mesh :
  forall g pts cells fs, positive_dims g -> positive_spacing g ->
    (forall e, In e (voxelize_mesh g pts cells fs) <-> 0 <= e < num_cells g /\ exists p, sample pts cells fs p /\ in_cell g (cell_ijk g e) p) /\
    (forall p, In p pts -> in_grid g p -> In (point_cell g p) (voxelize_mesh g pts cells fs)) /\
    StronglySorted Z.lt (voxelize_mesh g pts cells fs).
Proof.
  intros g pts cells fs P S.
  assert (A : forall e, In e (voxelize_mesh g pts cells fs) <-> 0 <= e < num_cells g /\ exists p, sample pts cells fs p /\ in_cell g (cell_ijk g e) p).
  { intros e. unfold voxelize_mesh. cbv zeta. rewrite (proj1 (C23_voxelize g _ e P S)). split; intros (B & p & Hp & Hc); (split; [exact B|]); exists p; (split; [|exact Hc]).
    - apply in_app_or in Hp. destruct Hp as [Hp|Hp]; [constructor; exact Hp|]. apply in_app_or in Hp. destruct Hp as [Hp|Hp].
      + apply in_map_iff in Hp. destruct Hp as (c & <- & Hin). apply sample_centroid. exact Hin.
      + apply in_flat_map in Hp. destruct Hp as (f & Hf & Hp). apply in_flat_map in Hp. destruct Hp as (c & Hin & Hp).
        apply in_map_iff in Hp. destruct Hp as (q & <- & Hq). apply in_map_iff in Hq. destruct Hq as (n & <- & Hn). apply sample_between; assumption.
    - destruct Hp as [p Hp|c Hin|f c n Hf Hin Hn]; apply in_or_app; [left; exact Hp|right; apply in_or_app; left; apply in_map_iff; exists c; split; [reflexivity|exact Hin]|].
      right. apply in_or_app. right. apply in_flat_map. exists f. split; [exact Hf|]. apply in_flat_map. exists c. split; [exact Hin|].
      apply in_map_iff. exists (nth n pts (0, 0, 0)%Q). split; [reflexivity|]. apply in_map_iff. exists n. split; [reflexivity|exact Hn]. }
  split; [exact A|]. split; [|apply uniqueZ_sorted].
  intros p Hp Hg. destruct (C23_point_cells g p P S) as (B & _). destruct (B Hg) as [B1 B2].
  apply A. split; [exact B1|]. exists p. split; [constructor; exact Hp|exact B2].
Qed.
Print Assumptions C23_voxelize_mesh.

(** ** C24 *)
Definition cells_of (g : grid) (cells : list Z) : Prop := forall e, In e cells -> 0 <= e < num_cells g.
Theorem C24_dilate :
  forall g cells r, positive_dims g -> cells_of g cells -> 0 <= r ->
    (forall c, In c (dilate_cells g cells r) <->
       0 <= c < num_cells g /\ exists e, In e cells /\ within r (cell_ijk g c) (cell_ijk g e)) /\
    StronglySorted Z.lt (dilate_cells g cells r).
Proof.
  intros g cells r P Hc Hr. split; [|apply dilate_sorted]. intros c. rewrite (dilate_in g P cells r c Hr Hc).
  split; intros (A & e & He & B); (split; [exact A|]); exists e; (split; [exact He|]); apply within_cheb; exact B.
Qed.
Print Assumptions C24_dilate.
Theorem C24_extensive :
  forall g cells r, positive_dims g -> cells_of g cells -> 0 <= r ->
    incl cells (dilate_cells g cells r) /\ cells_of g (dilate_cells g cells r).
Proof.
  intros g cells r P Hc Hr. split.
  - intros e He. apply (C24_dilate g cells r P Hc Hr). split; [apply Hc; exact He|]. exists e. split; [exact He|].
    apply within_cheb. unfold cheb. lia.
  - intros e He. apply (C24_dilate g cells r P Hc Hr) in He. tauto.
Qed.
Print Assumptions C24_extensive.
Theorem C24_monotone :
  forall g c1 c2 r1 r2, positive_dims g -> cells_of g c2 -> incl c1 c2 -> 0 <= r1 <= r2 ->
    incl (dilate_cells g c1 r1) (dilate_cells g c2 r2).
Proof.
  intros g c1 c2 r1 r2 P Hc Hi Hr x Hx.
  apply (C24_dilate g c1 r1 P) in Hx; [|intros e He; apply Hc, Hi, He|lia]. destruct Hx as (Bx & e & He & W).
  apply (C24_dilate g c2 r2 P Hc ltac:(lia)). split; [exact Bx|]. exists e. split; [apply Hi; exact He|].
  apply within_cheb. apply within_cheb in W. unfold cheb in *. lia.
Qed.
Print Assumptions C24_monotone.
Theorem C24_compose :
  forall g cells r s, positive_dims g -> cells_of g cells -> 0 <= r -> 0 <= s ->
    dilate_cells g (dilate_cells g cells r) s = dilate_cells g cells (r + s).
Proof.
  intros g cells r s P Hc Hr Hs. destruct (C24_extensive g cells r P Hc Hr) as [_ Hd].
  apply sortedZ_ext; [apply dilate_sorted|apply dilate_sorted|]. intros x.
  rewrite (proj1 (C24_dilate g _ s P Hd Hs)), (proj1 (C24_dilate g cells (r + s) P Hc ltac:(lia))). split.
  - intros (Bx & e & He & W). apply (C24_dilate g cells r P Hc Hr) in He. destruct He as (Be & f & Hf & V).
    split; [exact Bx|]. exists f. split; [exact Hf|]. rewrite within_cheb in *. unfold cheb in *. lia.
  - intros (Bx & f & Hf & W). split; [exact Bx|].
    destruct (cell_id_ijk g P x Bx) as (x1 & y1 & z1 & Ex & _ & X1 & Y1 & Z1).
    destruct (cell_id_ijk g P f (Hc f Hf)) as (x2 & y2 & z2 & Ef & _ & X2 & Y2 & Z2).
    rewrite Ex, Ef in W. cbn in W.
    (* move from f towards x by at most r in each direction *)
    set (t := fun a b => b + Z.max (- r) (Z.min r (a - b))).
    assert (T : forall a b n, 0 <= a < n -> 0 <= b < n -> Z.abs (a - b) <= r + s ->
        0 <= t a b < n /\ Z.abs (t a b - b) <= r /\ Z.abs (a - t a b) <= s) by (intros; unfold t; lia).
    destruct (T x1 x2 (nx g)) as (Tx & Tx1 & Tx2); try lia.
    destruct (T y1 y2 (ny g)) as (Ty & Ty1 & Ty2); try lia.
    destruct (T z1 z2 (nz g)) as (Tz & Tz1 & Tz2); try lia.
    destruct (cell_ijk_id g _ _ _ Tx Ty Tz) as [Et Bt]. clearbody t. clear T.
    exists (cell_id g (t x1 x2) (t y1 y2) (t z1 z2)). split.
    + apply (C24_dilate g cells r P Hc Hr). split; [exact Bt|]. exists f. split; [exact Hf|]. rewrite Et, Ef. clear - Tx1 Ty1 Tz1. cbn. lia.
    + rewrite Et, Ex. clear - Tx2 Ty2 Tz2. cbn. lia.
Qed.
Print Assumptions C24_compose.
Example C24_example : cells_of ex_grid [0; 23] /\ dilate_cells ex_grid [0; 23] 1 = [0; 1; 4; 5; 6; 7; 10; 11; 12; 13; 16; 17; 18; 19; 22; 23].
Proof. split; [intros e [<-|[<-|[]]]; unfold num_cells; cbn; lia|reflexivity]. Qed.
