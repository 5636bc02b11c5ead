(** Lemmas for the narrow-band multigrid. *)
From Coq Require Import ZArith QArith Bool List Arith Sorting.Permutation Sorting.Sorted Lia Lqa.
From Verif Require Import Base ZArr Grid_Model Grid_Proofs Grid_Props Cmg_Model.
Import ListNotations.
Local Open Scope Z_scope.

Definition dims_pos (d : ijk) : Prop := let '(a, b, c) := d in 0 < a /\ 0 < b /\ 0 < c.
Definition dims_cells (d : ijk) : Z := let '(a, b, c) := d in a * b * c.
Definition cells_ok (d : ijk) (cells : list Z) : Prop := forall e, In e cells -> 0 <= e < dims_cells d.
Definition in_cells (d p : ijk) : Prop := let '(nx, ny, nz) := d in let '(i, j, k) := p in 0 <= i < nx /\ 0 <= j < ny /\ 0 <= k < nz.
Definition in_nodes (d p : ijk) : Prop := let '(nx, ny, nz) := d in let '(i, j, k) := p in 0 <= i <= nx /\ 0 <= j <= ny /\ 0 <= k <= nz.
Definition gof (d : ijk) : grid := let '(a, b, c) := d in {| nx := a; ny := b; nz := c; spacing := (1, 1, 1)%Q; origin := (0, 0, 0)%Q |}.
Definition halve (p : ijk) : ijk := let '(i, j, k) := p in (i / 2, j / 2, k / 2).

Lemma node_idx_at d p : dims_pos d -> in_nodes d p -> node_idx d (node_at d p) = p.
Proof.
  destruct d as [[a b] c], p as [[i j] k]. intros P (Hi & Hj & Hk).
  assert (E := proj1 (node_ijk_id (gof (a, b, c)) i j k Hi Hj Hk)).
  unfold node_ijk, node_id in E. cbn [nx ny nz gof] in E. unfold node_idx, node_at.
  replace (i * ((b + 1) * (c + 1)) + j * (c + 1) + k) with ((i * (b + 1) + j) * (c + 1) + k) by ring. exact E.
Qed.
Lemma cell_idx_ok d e : dims_pos d -> 0 <= e < dims_cells d -> in_cells d (cell_idx d e).
Proof.
  destruct d as [[a b] c]. intros P He.
  destruct (cell_id_ijk (gof (a, b, c)) P e He) as (x & y & z & E & _ & A & B & C).
  unfold cell_ijk in E. cbn [nx ny nz gof] in *. unfold cell_idx. rewrite E. cbn. auto.
Qed.
Lemma corners_iff x y z : In (x, y, z) cmg_corners <-> (x = 0 \/ x = 1) /\ (y = 0 \/ y = 1) /\ (z = 0 \/ z = 1).
Proof.
  cbn. split.
  - intros H. decompose [or] H; match goal with [E : _ = _ |- _] => injection E as <- <- <- | [F : False |- _] => destruct F end; lia.
  - intros ([-> | ->] & [-> | ->] & [-> | ->]); tauto.
Qed.
Lemma shift_nodes d p o : in_cells d p -> In o cmg_corners -> in_nodes d (shift p o).
Proof.
  destruct d as [[a b] c], p as [[i j] k], o as [[x y] z]. rewrite corners_iff. cbn. lia.
Qed.
Lemma cell_nodes_in d e n : dims_pos d -> 0 <= e < dims_cells d ->
  (In n (cell_nodes d e) <-> exists o, In o cmg_corners /\ n = node_at d (shift (cell_idx d e) o)).
Proof.
  intros P He. unfold cell_nodes. rewrite in_map_iff. split; intros (o & A & B); exists o; [split; [exact B|symmetry; exact A]|split; [symmetry; exact B|exact A]].
Qed.
Lemma cell_node_idx d e o : dims_pos d -> 0 <= e < dims_cells d -> In o cmg_corners ->
  node_idx d (node_at d (shift (cell_idx d e) o)) = shift (cell_idx d e) o.
Proof. intros P He Ho. apply node_idx_at; [exact P|]. apply shift_nodes; [apply cell_idx_ok; assumption|exact Ho]. Qed.

Lemma half_up_pos x : 0 < x -> 0 < half_up x.
Proof. intros H. unfold half_up. assert (A := Z.div_mod (x + 1) 2 ltac:(lia)). assert (B := Z.mod_pos_bound (x + 1) 2 ltac:(lia)). lia. Qed.
Lemma half_lt x n : 0 <= x < n -> 0 <= x / 2 < half_up n.
Proof.
  intros H. unfold half_up. assert (A := Z.div_mod (n + 1) 2 ltac:(lia)). assert (B := Z.mod_pos_bound (n + 1) 2 ltac:(lia)).
  assert (C := Z.div_mod x 2 ltac:(lia)). assert (D := Z.mod_pos_bound x 2 ltac:(lia)). lia.
Qed.
Lemma coarse_pos d : dims_pos d -> dims_pos (coarse_dims d).
Proof. destruct d as [[a b] c]. intros (A & B & C). cbn. auto using half_up_pos. Qed.
Lemma parent_ok d e : dims_pos d -> 0 <= e < dims_cells d ->
  0 <= parent d e < dims_cells (coarse_dims d) /\ cell_idx (coarse_dims d) (parent d e) = halve (cell_idx d e).
Proof.
  intros P He. assert (I := cell_idx_ok d e P He). assert (PC := coarse_pos d P). unfold parent.
  destruct (cell_idx d e) as [[ex ey] ez]. destruct d as [[a b] c]. cbn [coarse_dims] in *. cbn in I. destruct I as (X & Y & Z0).
  apply half_lt in X, Y, Z0.
  destruct (cell_ijk_id (gof (half_up a, half_up b, half_up c)) _ _ _ X Y Z0) as [E R].
  unfold cell_ijk, cell_id, num_cells in E, R. cbn [nx ny nz gof] in E, R. unfold cell_idx, halve, dims_cells.
  replace (ex / 2 * (half_up b * half_up c) + ey / 2 * half_up c + ez / 2)
    with ((ex / 2 * half_up b + ey / 2) * half_up c + ez / 2) by ring. auto.
Qed.

Lemma insZ_in x l y : In y (insZ x l) <-> y = x \/ In y l.
Proof.
  induction l as [|a t IH]; cbn; [intuition|]. destruct (x <=? a); cbn; [|rewrite IH]; intuition.
Qed.
Lemma sortZ_in l y : In y (sortZ l) <-> In y l.
Proof. induction l as [|x t IH]; [reflexivity|]. cbn [sortZ fold_right]. fold (sortZ t). rewrite insZ_in, IH. cbn. intuition. Qed.
Lemma insZ_head x l : (forall y, In y l -> x <= y) -> insZ x l = x :: l.
Proof. destruct l as [|a t]; [reflexivity|]. intros H. cbn. destruct (Z.leb_spec x a); [reflexivity|]. specialize (H a (or_introl eq_refl)). lia. Qed.
Lemma sortZ_id l : StronglySorted Z.le l -> sortZ l = l.
Proof.
  induction 1 as [|x t H IH F]; [reflexivity|]. cbn [sortZ fold_right]. fold (sortZ t). rewrite IH. apply insZ_head.
  rewrite Forall_forall in F. exact F.
Qed.
Lemma insZ_perm x l : Permutation (x :: l) (insZ x l).
Proof.
  induction l as [|a t IH]; cbn; [reflexivity|]. destruct (x <=? a); [reflexivity|]. rewrite perm_swap. constructor. exact IH.
Qed.
Lemma sortZ_perm l : Permutation l (sortZ l).
Proof. induction l as [|x t IH]; [reflexivity|]. cbn [sortZ fold_right]. fold (sortZ t). rewrite <- insZ_perm. constructor. exact IH. Qed.

(** Every level of the hierarchy comes from in-range cells, and the next one from its parents. *)
Lemma levels_ok L : forall d cells l lev, dims_pos d -> cells_ok d cells -> nth_error (build_levels L d cells) l = Some lev ->
  lev = mk_level (l_dims lev) (l_cells lev) /\ dims_pos (l_dims lev) /\ cells_ok (l_dims lev) (l_cells lev) /\
  forall lev', nth_error (build_levels L d cells) (S l) = Some lev' ->
    lev' = mk_level (coarse_dims (l_dims lev)) (uniqueZ (map (parent (l_dims lev)) (l_cells lev))).
Proof.
  induction L as [|L IH]; intros d cells l lev P C H; [destruct l; discriminate|]. cbn [build_levels] in H.
  assert (C' : cells_ok (coarse_dims d) (uniqueZ (map (parent d) cells))).
  { intros e He. apply uniqueZ_in, in_map_iff in He. destruct He as (f & <- & Hf). apply parent_ok; [exact P|]. apply C, Hf. }
  destruct l as [|l]; cbn [nth_error] in H.
  - injection H as <-. cbn [l_dims l_cells mk_level]. split; [reflexivity|]. split; [exact P|]. split; [exact C|].
    intros lev' H'. cbn [build_levels nth_error] in H'. destruct L; [discriminate|]. cbn in H'. injection H' as <-. reflexivity.
  - destruct (IH _ _ l lev (coarse_pos d P) C' H) as (A & B & D & N). split; [exact A|]. split; [exact B|]. split; [exact D|].
    intros lev' H'. apply N. exact H'.
Qed.
Lemma sort_ok d cells : cells_ok d cells -> cells_ok d (sortZ cells).
Proof. intros H e He. apply H, sortZ_in, He. Qed.

(** ** Parity *)
Lemma parity_cases n : exists m, n = 2 * m /\ n mod 2 = 0 /\ n / 2 = m \/ n = 2 * m + 1 /\ n mod 2 = 1 /\ n / 2 = m.
Proof.
  exists (n / 2). assert (A := Z.div_mod n 2 ltac:(lia)). assert (B := Z.mod_pos_bound n 2 ltac:(lia)).
  assert (n mod 2 = 0 \/ n mod 2 = 1) as [H|H] by lia; rewrite H in *; lia.
Qed.
(** Both parents of a node index next to cell index [ex] are corners of the parent cell, when
    their weight is not zero. *)
Lemma axis_near ex o c w : (o = 0 \/ o = 1) -> In (c, w) (axis (ex + o)) -> ~ (w == 0)%Q -> c = ex / 2 \/ c = ex / 2 + 1.
Proof.
  intros Ho Hin Hw. destruct (parity_cases ex) as (m & [(E & M & D)|(E & M & D)]); destruct (parity_cases (ex + o)) as (m' & [(E' & M' & D')|(E' & M' & D')]);
    unfold axis in Hin; rewrite M', D' in Hin; cbn in Hin; destruct Hin as [H|[H|[]]]; injection H as <- <-; try (exfalso; apply Hw; reflexivity); lia.
Qed.
Lemma axis_weight v c w : In (c, w) (axis v) -> (0 <= w)%Q.
Proof. unfold axis. destruct (v mod 2 =? 0); cbn; intros [H|[H|[]]]; injection H as <- <-; lra. Qed.
Lemma axis_range ex o n c w : (o = 0 \/ o = 1) -> 0 <= ex < n -> In (c, w) (axis (ex + o)) -> ~ (w == 0)%Q -> 0 <= c <= half_up n.
Proof. intros Ho He Hin Hw. apply half_lt in He. destruct (axis_near ex o c w Ho Hin Hw); lia. Qed.

Lemma qsum_app l l' : (qsum (l ++ l') == qsum l + qsum l')%Q.
Proof. unfold qsum. induction l as [|x t IH]; cbn [app fold_right]; [ring|]. rewrite IH. ring. Qed.
Lemma qsum_ext {A} (f g : A -> Q) l : (forall x, In x l -> f x == g x)%Q -> (qsum (map f l) == qsum (map g l))%Q.
Proof.
  induction l as [|x t IH]; intros H; [reflexivity|]. cbn. rewrite (H x (or_introl eq_refl)), IH by (intros y Hy; apply H; right; exact Hy). reflexivity.
Qed.
Lemma qsum_flat {A} (g : A -> list Q) l : (qsum (flat_map g l) == qsum (map (fun x => qsum (g x)) l))%Q.
Proof. induction l as [|x t IH]; [reflexivity|]. cbn [flat_map map]. rewrite qsum_app, IH. reflexivity. Qed.
Lemma map_flat_map {A B C} (f : B -> C) (g : A -> list B) l : map f (flat_map g l) = flat_map (fun x => map f (g x)) l.
Proof. induction l as [|x t IH]; [reflexivity|]. cbn. rewrite map_app, IH. reflexivity. Qed.

(** The parents with non-zero weight are nodes of the coarse level. *)
Section T.
  Variables (d : ijk) (cells : list Z).
  Hypotheses (P : dims_pos d) (C : cells_ok d cells).
  Local Notation fine := (mk_level d cells).
  Local Notation coarse := (mk_level (coarse_dims d) (uniqueZ (map (parent d) cells))).
  Lemma fine_node n : In n (l_nodes fine) -> exists e ex ey ez ox oy oz, In e cells /\ cell_idx d e = (ex, ey, ez) /\
    (ox = 0 \/ ox = 1) /\ (oy = 0 \/ oy = 1) /\ (oz = 0 \/ oz = 1) /\ in_cells d (ex, ey, ez) /\ node_idx d n = (ex + ox, ey + oy, ez + oz).
  Proof.
    intros H. cbn in H. apply uniqueZ_in, in_flat_map in H. destruct H as (e & He & Hn).
    apply (cell_nodes_in d e n P (C e He)) in Hn. destruct Hn as (o & Ho & ->).
    assert (I := cell_idx_ok d e P (C e He)). assert (N := cell_node_idx d e o P (C e He) Ho).
    destruct (cell_idx d e) as [[ex ey] ez] eqn:E. destruct o as [[ox oy] oz]. apply corners_iff in Ho.
    exists e, ex, ey, ez, ox, oy, oz. tauto.
  Qed.
  Lemma coarse_corner e x y z cx cy cz : In e cells -> cell_idx d e = (x, y, z) -> in_cells d (x, y, z) ->
    (cx = x / 2 \/ cx = x / 2 + 1) -> (cy = y / 2 \/ cy = y / 2 + 1) -> (cz = z / 2 \/ cz = z / 2 + 1) ->
    In (node_at (coarse_dims d) (cx, cy, cz)) (l_nodes coarse) /\ in_nodes (coarse_dims d) (cx, cy, cz).
  Proof.
    intros He E I Hx Hy Hz. destruct (parent_ok d e P (C e He)) as [R EP]. rewrite E in EP. cbn in EP.
    assert (IC : in_cells (coarse_dims d) (x / 2, y / 2, z / 2)).
    { destruct d as [[a b] c]. cbn in I |- *. destruct I as (A & B & D). auto using half_lt. }
    assert (Ho : In (cx - x / 2, cy - y / 2, cz - z / 2) cmg_corners) by (apply corners_iff; lia).
    assert (S : shift (x / 2, y / 2, z / 2) (cx - x / 2, cy - y / 2, cz - z / 2) = (cx, cy, cz)).
    { cbn. replace (x / 2 + (cx - x / 2)) with cx by lia. replace (y / 2 + (cy - y / 2)) with cy by lia. replace (z / 2 + (cz - z / 2)) with cz by lia. reflexivity. }
    split.
    - cbn [l_nodes mk_level]. apply uniqueZ_in, in_flat_map. exists (parent d e). split; [apply uniqueZ_in, in_map, He|].
      apply (cell_nodes_in _ _ _ (coarse_pos d P) R). exists (cx - x / 2, cy - y / 2, cz - z / 2). split; [exact Ho|].
      rewrite EP, S. reflexivity.
    - rewrite <- S. apply shift_nodes; assumption.
  Qed.
  Lemma entry_hit c w : (0 < w)%Q -> in_nodes (coarse_dims d) c -> In (node_at (coarse_dims d) c) (l_nodes coarse) ->
    exists pos, transfer_entry coarse c w = (pos, w) /\ (pos < length (l_nodes coarse))%nat /\
                forall dd, nth pos (l_nodes coarse) dd = node_at (coarse_dims d) c.
  Proof.
    intros Hw Hr Hin. destruct (searchsortedZ_hit (l_nodes coarse) _ (uniqueZ_sorted _) Hin) as [B E].
    exists (searchsortedZ (l_nodes coarse) (node_at (coarse_dims d) c)). split; [|split; assumption].
    unfold transfer_entry. cbn [l_dims mk_level]. destruct c as [[cx cy] cz]. destruct (coarse_dims d) as [[a b] cc] eqn:ED.
    assert (V : Qpos w && (cx <=? a) && (cy <=? b) && (cz <=? cc) = true).
    { cbn in Hr. rewrite !andb_true_iff, !Z.leb_le. split; [split; [split|]|]; try lia. unfold Qpos. apply negb_true_iff.
      destruct (Qle_bool w 0) eqn:Q; [|reflexivity]. apply Qle_bool_iff in Q. lra. }
    rewrite V. cbn [andb]. rewrite Nat.min_l by (rewrite <- ED in *; lia). rewrite E, Z.eqb_refl. reflexivity.
  Qed.
  Lemma entry_zero c w : (w == 0)%Q -> transfer_entry coarse c w = (length (l_nodes coarse), 0%Q).
  Proof.
    intros Hw. unfold transfer_entry. destruct c as [[cx cy] cz]. cbn [l_dims mk_level]. destruct (coarse_dims d) as [[a b] cc].
    assert (V : Qpos w = false) by (unfold Qpos; apply negb_false_iff, Qle_bool_iff; lra). rewrite V. reflexivity.
  Qed.
End T.
