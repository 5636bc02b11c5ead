(** C32, C33 and C55: transfer operators, colouring and layout of the narrow-band multigrid. *)
From Coq Require Import ZArith QArith Bool List Arith Sorting.Permutation Sorting.Sorted Lia Lqa Ring.
From Verif Require Import Base ZArr Grid_Model Grid_Proofs Band_Model Band_Props Cmg_Model Cmg_Proofs Smooth_Proofs.
Import ListNotations.
Local Open Scope Z_scope.

(** ** C32 *)
(** A trilinear field, given by its eight coefficients. *)
Record trilinear := { t0 : Q; tx : Q; ty : Q; tz : Q; txy : Q; tyz : Q; txz : Q; txyz : Q }.
Definition tri (t : trilinear) (x y z : Z) : Q :=
  let x := inject_Z x in let y := inject_Z y in let z := inject_Z z in
  (t0 t + tx t * x + ty t * y + tz t * z + txy t * (x * y) + tyz t * (y * z) + txz t * (x * z) + txyz t * (x * y * z))%Q.
Definition tri_at (t : trilinear) (p : ijk) : Q := let '(x, y, z) := p in tri t x y z.
Definition double (p : ijk) : ijk := let '(x, y, z) := p in (2 * x, 2 * y, 2 * z).
(** Two index triples differ by at most one on each axis. *)
Definition close (p q : ijk) : Prop :=
  let '(a, b, c) := p in let '(x, y, z) := q in Z.abs (a - x) <= 1 /\ Z.abs (b - y) <= 1 /\ Z.abs (c - z) <= 1.

Lemma axis_affine v a b (g : Z -> Q) : (forall c, (g c == a + b * inject_Z (2 * c))%Q) ->
  (qsum (map (fun x => snd x * g (fst x)) (axis v)) == a + b * inject_Z v)%Q.
Proof.
  intros H. destruct (parity_cases v) as (m & [(E & M & D)|(E & M & D)]); unfold axis; rewrite M, D; cbn [Z.eqb map fst snd qsum fold_right]; rewrite !H.
  - rewrite E. ring.
  - rewrite E. rewrite !inject_Z_mult, !inject_Z_plus, !inject_Z_mult. change (inject_Z 2) with 2%Q. change (inject_Z 1) with 1%Q. field.
Qed.

Section Row.
  Variables (d : ijk) (cells : list Z).
  Hypotheses (P : dims_pos d) (C : cells_ok d cells).
  Local Notation fine := (mk_level d cells).
  Local Notation coarse := (mk_level (coarse_dims d) (uniqueZ (map (parent d) cells))).
  (** Every entry of a row: either its weight is zero, or it hits the intended coarse node. *)
  Lemma entry_cases n ni nj nk x y z : In n (l_nodes fine) -> node_idx d n = (ni, nj, nk) ->
    In x (axis ni) -> In y (axis nj) -> In z (axis nk) ->
    let w := (snd x * snd y * snd z)%Q in let c := (fst x, fst y, fst z) in
    (w == 0 /\ transfer_entry coarse c w = (length (l_nodes coarse), 0))%Q \/
    (0 < w)%Q /\ exists pos, transfer_entry coarse c w = (pos, w) /\ (pos < length (l_nodes coarse))%nat /\
      (forall dd, nth pos (l_nodes coarse) dd = node_at (coarse_dims d) c) /\
      node_idx (coarse_dims d) (node_at (coarse_dims d) c) = c.
  Proof.
    intros Hn HI Hx Hy Hz w c. destruct x as [cx wx], y as [cy wy], z as [cz wz]. cbn [fst snd] in *.
    assert (Wx := axis_weight _ _ _ Hx). assert (Wy := axis_weight _ _ _ Hy). assert (Wz := axis_weight _ _ _ Hz).
    destruct (Qeq_dec w 0) as [W|W]; [left; split; [exact W|apply entry_zero; assumption]|right].
    assert (Nx : ~ (wx == 0)%Q) by (intros E; apply W; unfold w; rewrite E; ring).
    assert (Ny : ~ (wy == 0)%Q) by (intros E; apply W; unfold w; rewrite E; ring).
    assert (Nz : ~ (wz == 0)%Q) by (intros E; apply W; unfold w; rewrite E; ring).
    assert (Wp : (0 < w)%Q).
    { assert (0 <= w)%Q; [unfold w; repeat apply Qmult_le_0_compat; assumption|].
      apply Qle_lt_or_eq in H. destruct H as [H|H]; [exact H|]. exfalso. apply W. symmetry. exact H. }
    split; [exact Wp|]. destruct (fine_node d cells P C n Hn) as (e & ex & ey & ez & ox & oy & oz & He & E & Ox & Oy & Oz & I & NI).
    rewrite NI in HI. injection HI as <- <- <-.
    destruct (coarse_corner d cells P C e ex ey ez cx cy cz He E I (axis_near _ _ _ _ Ox Hx Nx) (axis_near _ _ _ _ Oy Hy Ny) (axis_near _ _ _ _ Oz Hz Nz)) as [Hin Hr].
    destruct (entry_hit d cells c w Wp Hr Hin) as (pos & A & B & D). exists pos. split; [exact A|]. split; [exact B|]. split; [exact D|].
    apply node_idx_at; [apply coarse_pos; exact P|exact Hr].
  Qed.
  Lemma axis_close v c w : In (c, w) (axis v) -> ~ (w == 0)%Q -> Z.abs (2 * c - v) <= 1.
  Proof.
    intros H W. destruct (parity_cases v) as (m & [(E & M & D)|(E & M & D)]); unfold axis in H; rewrite M, D in H; cbn in H;
      destruct H as [H|[H|[]]]; injection H as <- <-; try (exfalso; apply W; reflexivity); lia.
  Qed.
  Lemma row_eval n t : In n (l_nodes fine) ->
    (prolong_at (transfer fine coarse n) (map (fun m => tri_at t (double (node_idx (coarse_dims d) m))) (l_nodes coarse)) == tri_at t (node_idx d n))%Q.
  Proof.
    intros Hn. unfold prolong_at, transfer. cbn [l_dims mk_level]. destruct (node_idx d n) as [[ni nj] nk] eqn:HI.
    rewrite map_flat_map, qsum_flat.
    transitivity (qsum (map (fun x => snd x * qsum (map (fun y => snd y * qsum (map (fun z => snd z * tri t (2 * fst x) (2 * fst y) (2 * fst z)) (axis nk))) (axis nj))) (axis ni)))%Q.
    - apply qsum_ext. intros x Hx. rewrite map_flat_map, qsum_flat.
      transitivity (qsum (map (fun y => snd x * (snd y * qsum (map (fun z => snd z * tri t (2 * fst x) (2 * fst y) (2 * fst z)) (axis nk)))) (axis nj)))%Q.
      2:{ clear. generalize (axis nj). intros l. induction l as [|a l IH]; [cbn; ring|]. cbn [map]. unfold qsum in *. cbn [fold_right]. rewrite IH. ring. }
      apply qsum_ext. intros y Hy. rewrite map_map.
      transitivity (qsum (map (fun z => snd x * snd y * (snd z * tri t (2 * fst x) (2 * fst y) (2 * fst z))) (axis nk)))%Q.
      2:{ clear. generalize (axis nk). intros l. induction l as [|a l IH]; [cbn; ring|]. cbn [map]. unfold qsum in *. cbn [fold_right]. rewrite IH. ring. }
      apply qsum_ext. intros z Hz.
      destruct (entry_cases n ni nj nk x y z Hn HI Hx Hy Hz) as [[W E]|[W (pos & E & B & A & NI)]].
      + rewrite E. cbn [fst snd]. transitivity ((snd x * snd y * snd z) * tri t (2 * fst x) (2 * fst y) (2 * fst z))%Q; [rewrite W; ring|ring].
      + rewrite E. cbn [fst snd]. rewrite (nth_map_in _ _ (-1) 0%Q) by exact B. rewrite (A (-1)), NI. cbn [double tri_at]. ring.
    - cbn [tri_at].
      rewrite (axis_affine ni (t0 t + ty t * inject_Z nj + tz t * inject_Z nk + tyz t * (inject_Z nj * inject_Z nk))%Q
                              (tx t + txy t * inject_Z nj + txz t * inject_Z nk + txyz t * (inject_Z nj * inject_Z nk))%Q
                              (fun cx => qsum (map (fun y => snd y * qsum (map (fun z => snd z * tri t (2 * cx) (2 * fst y) (2 * fst z)) (axis nk))) (axis nj)))%Q).
      { unfold tri. cbv zeta. ring. }
      intros cx. rewrite (axis_affine nj (t0 t + tx t * inject_Z (2 * cx) + tz t * inject_Z nk + txz t * (inject_Z (2 * cx) * inject_Z nk))%Q
                              (ty t + txy t * inject_Z (2 * cx) + tyz t * inject_Z nk + txyz t * (inject_Z (2 * cx) * inject_Z nk))%Q
                              (fun cy => qsum (map (fun z => snd z * tri t (2 * cx) (2 * cy) (2 * fst z)) (axis nk)))%Q); [ring|].
      intros cy. rewrite (axis_affine nk (t0 t + tx t * inject_Z (2 * cx) + ty t * inject_Z (2 * cy) + txy t * (inject_Z (2 * cx) * inject_Z (2 * cy)))%Q
                              (tz t + txz t * inject_Z (2 * cx) + tyz t * inject_Z (2 * cy) + txyz t * (inject_Z (2 * cx) * inject_Z (2 * cy)))%Q
                              (fun cz => tri t (2 * cx) (2 * cy) (2 * cz))); [ring|].
      intros cz. unfold tri. cbv zeta. ring.
  Qed.
  Lemma axis_sum1 v : (qsum (map snd (axis v)) == 1)%Q.
  Proof. unfold axis. destruct (v mod 2 =? 0); reflexivity. Qed.
  Lemma row_weights n : In n (l_nodes fine) ->
    (qsum (map snd (transfer fine coarse n)) == 1)%Q.
  Proof.
    intros Hn. unfold transfer. cbn [l_dims mk_level]. destruct (node_idx d n) as [[ni nj] nk] eqn:HI.
    rewrite map_flat_map, qsum_flat.
    transitivity (qsum (map snd (axis ni))); [|apply axis_sum1]. apply qsum_ext. intros x Hx. rewrite map_flat_map, qsum_flat.
    transitivity (qsum (map (fun y => snd x * snd y) (axis nj)))%Q.
    2:{ transitivity (snd x * qsum (map snd (axis nj)))%Q; [|rewrite axis_sum1; ring]. clear. generalize (axis nj). intros l. induction l as [|a l IH]; [cbn; ring|]. cbn [map]. unfold qsum in *. cbn [fold_right]. rewrite IH. ring. }
    apply qsum_ext. intros y Hy. rewrite map_map.
    transitivity (qsum (map (fun z => snd x * snd y * snd z) (axis nk)))%Q.
    2:{ transitivity (snd x * snd y * qsum (map snd (axis nk)))%Q; [|rewrite axis_sum1; ring]. clear. generalize (axis nk). intros l. induction l as [|a l IH]; [cbn; ring|]. cbn [map]. unfold qsum in *. cbn [fold_right]. rewrite IH. ring. }
    apply qsum_ext. intros z Hz. destruct (entry_cases n ni nj nk x y z Hn HI Hx Hy Hz) as [[W E]|[W (pos & E & _)]]; rewrite E; cbn [snd].
    - symmetry. exact W.
    - reflexivity.
  Qed.
  Lemma row_length n : length (transfer fine coarse n) = 8%nat.
  Proof.
    unfold transfer. cbn [l_dims mk_level]. destruct (node_idx d n) as [[ni nj] nk].
    unfold axis. destruct (ni mod 2 =? 0), (nj mod 2 =? 0), (nk mod 2 =? 0); reflexivity.
  Qed.
  Lemma row_entry n i w : In n (l_nodes fine) -> In (i, w) (transfer fine coarse n) ->
    (0 <= w)%Q /\ ((0 < w)%Q -> (i < length (l_nodes coarse))%nat /\
      close (double (node_idx (coarse_dims d) (nth i (l_nodes coarse) (-1)))) (node_idx d n)).
  Proof.
    intros Hn Hin. unfold transfer in Hin. cbn [l_dims mk_level] in Hin. destruct (node_idx d n) as [[ni nj] nk] eqn:HI.
    apply in_flat_map in Hin. destruct Hin as (x & Hx & Hin). apply in_flat_map in Hin. destruct Hin as (y & Hy & Hin).
    apply in_map_iff in Hin. destruct Hin as (z & Eq & Hz).
    destruct (entry_cases n ni nj nk x y z Hn HI Hx Hy Hz) as [[W E]|[W (pos & E & B & A & NI)]]; rewrite E in Eq; injection Eq as <- <-.
    - split; [apply Qle_refl|]. intros F. exfalso. exact (Qlt_irrefl 0 F).
    - split; [apply Qlt_le_weak; exact W|]. intros _. split; [exact B|]. rewrite (A (-1)), NI. destruct x as [cx wx], y as [cy wy], z as [cz wz].
      cbn [fst snd] in *. cbn. split; [|split]; eapply axis_close; try eassumption; intros F; rewrite F in W; apply (Qlt_irrefl 0); (eapply Qlt_le_trans; [exact W|]); apply Qle_lteq; right; ring.
  Qed.
End Row.

(** Between any two consecutive levels of a built hierarchy, the transfer row of every fine node
    has eight entries with non-negative weights that sum to one, uses coarse nodes at most one
    fine step away on each axis, and interpolates every trilinear field exactly (coarse node
    (a,b,c) sits at the fine position (2a,2b,2c)). *)
Theorem C32_prolongation :
  forall L d cells0 l fine coarse n,
    dims_pos d -> (forall e, In e cells0 -> 0 <= e < dims_cells d) ->
    nth_error (build L d cells0) l = Some fine -> nth_error (build L d cells0) (S l) = Some coarse ->
    In n (l_nodes fine) ->
    let row := transfer fine coarse n in
    length row = 8%nat /\
    (forall i w, In (i, w) row -> (0 <= w)%Q /\ ((0 < w)%Q -> (i < length (l_nodes coarse))%nat /\
       close (double (node_idx (l_dims coarse) (nth i (l_nodes coarse) (-1)))) (node_idx (l_dims fine) n))) /\
    (qsum (map snd row) == 1)%Q /\
    forall t : trilinear,
      (prolong_at row (map (fun m => tri_at t (double (node_idx (l_dims coarse) m))) (l_nodes coarse))
       == tri_at t (node_idx (l_dims fine) n))%Q.
Proof.
  intros L d cells0 l fine coarse n P C F G Hn row. unfold build in *.
  destruct (levels_ok L d (sortZ cells0) l fine P (sort_ok d cells0 C) F) as (EF & PF & CF & N). specialize (N coarse G).
  subst coarse. unfold row. clear row. rewrite EF in Hn |- *. cbn [l_dims l_cells mk_level] in *.
  split; [apply row_length|]. split; [intros i w Hin; apply (row_entry _ _ PF CF n i w Hn Hin)|].
  split; [apply row_weights; assumption|]. intros t. apply (row_eval _ _ PF CF n t Hn).
Qed.
Print Assumptions C32_prolongation.

Definition qdot (a b : list Q) : Q := qsum (map (fun p => fst p * snd p)%Q (combine a b)).
Lemma qscatter_length iv : forall base, length (qscatter base iv) = length base.
Proof. unfold qscatter. induction iv as [|p t IH]; intros base; [reflexivity|]. cbn [fold_left]. rewrite IH. apply upd_length. Qed.
Lemma qdot_upd a : forall b i x, (i < length a)%nat -> length a = length b ->
  (qdot (upd a i (nth i a 0 + x)%Q) b == qdot a b + x * nth i b 0)%Q.
Proof.
  induction a as [|y a IH]; intros b i x Hi L; [cbn in Hi; lia|]. destruct b as [|z b]; [discriminate|]. destruct i as [|i].
  - cbn. unfold qdot. ring.
  - cbn in Hi, L. cbn [upd nth]. unfold qdot in *. cbn [combine map qsum fold_right fst snd]. change (fold_right Qplus 0%Q) with qsum. rewrite IH by lia. ring.
Qed.
Lemma upd_out {A} (l : list A) : forall i x, (length l <= i)%nat -> upd l i x = l.
Proof. induction l as [|y t IH]; intros [|i] x H; cbn in *; try reflexivity; [lia|]. rewrite IH by lia. reflexivity. Qed.
Lemma qdot_scatter iv : forall base b, length base = length b ->
  (qdot (qscatter base iv) b == qdot base b + qsum (map (fun p => snd p * nth (fst p) b 0) iv))%Q.
Proof.
  induction iv as [|p t IH]; intros base b L; [unfold qscatter; cbn [fold_left map qsum fold_right]; ring|].
  change (qscatter base (p :: t)) with (qscatter (upd base (fst p) (nth (fst p) base 0 + snd p)%Q) t).
  rewrite IH by (rewrite upd_length; exact L). cbn [map]. unfold qsum at 2. cbn [fold_right]. change (fold_right Qplus 0%Q) with qsum.
  destruct (Nat.lt_ge_cases (fst p) (length base)) as [H|H].
  - rewrite qdot_upd by assumption. ring.
  - rewrite upd_out by exact H. rewrite (nth_overflow b) by lia. ring.
Qed.
(** Restriction is the transpose of prolongation: for every residual and every coarse correction
    the two pairings agree. *)
Theorem C32_restriction :
  forall (rows : list (list (nat * Q))) (r ec : list Q), length rows = length r ->
    let nc := length ec in
    length (restrict nc rows r) = nc /\
    (qdot (restrict nc rows r) ec == qdot r (map (fun row => prolong_at row ec) rows))%Q.
Proof.
  intros rows r ec L nc. unfold restrict. split; [rewrite qscatter_length; apply repeat_length|].
  rewrite qdot_scatter by apply repeat_length.
  assert (Z0 : (qdot (repeat 0%Q nc) ec == 0)%Q).
  { clear. unfold nc. induction ec as [|x t IH]; [reflexivity|]. unfold qdot in *. cbn [length repeat combine map qsum fold_right fst snd].
    change (fold_right Qplus 0%Q) with qsum. rewrite IH. ring. }
  rewrite Z0. clear Z0. revert r L. induction rows as [|row rows IH]; intros [|x r] L; try discriminate L; [reflexivity|].
  cbn in L. cbn [combine flat_map]. rewrite map_app, qsum_app. specialize (IH r ltac:(lia)).
  unfold qdot in *. cbn [map combine qsum fold_right fst snd]. change (fold_right Qplus 0%Q) with qsum. rewrite <- IH.
  transitivity (x * prolong_at row ec + qsum (map (fun p => snd p * nth (fst p) ec 0) (flat_map (fun p => map (fun e => (fst e, snd e * snd p)) (fst p)) (combine rows r))))%Q; [|ring].
  assert (A : (qsum (map (fun p => snd p * nth (fst p) ec 0) (map (fun e => (fst e, snd e * x)) row)) == x * prolong_at row ec)%Q).
  { clear. unfold prolong_at. induction row as [|e t IH]; [cbn; ring|]. cbn [map fst snd qsum fold_right]. change (fold_right Qplus 0%Q) with qsum. rewrite IH. ring. }
  rewrite A. ring.
Qed.
Print Assumptions C32_restriction.

(** The coarse density of a coarse cell is the mean of the densities of its (at least one)
    children; so bounds and constants carry over. *)
Definition children (fine coarse : level) (i : nat) : list nat :=
  filter (fun k => parent (l_dims fine) (nth k (l_cells fine) 0) =? nth i (l_cells coarse) 0) (seq 0 (length (l_cells fine))).
Lemma qscatter_get iv : forall base i, (i < length base)%nat ->
  (nth i (qscatter base iv) 0 == nth i base 0 + qsum (map (fun p => if Nat.eqb (fst p) i then snd p else 0) iv))%Q.
Proof.
  induction iv as [|p t IH]; intros base i Hi; [unfold qscatter; cbn [fold_left map qsum fold_right]; ring|].
  change (qscatter base (p :: t)) with (qscatter (upd base (fst p) (nth (fst p) base 0 + snd p)%Q) t).
  rewrite IH by (rewrite upd_length; exact Hi). cbn [map]. unfold qsum at 2. cbn [fold_right]. change (fold_right Qplus 0%Q) with qsum.
  rewrite nth_upd. destruct (Nat.eqb_spec (fst p) i) as [->|H]; cbn [andb].
  - destruct (Nat.ltb_spec i (length base)); [|lia]. ring.
  - ring.
Qed.
Lemma combine_seq_pick (pos : list nat) (rho : list Q) i : forall s, length pos = length rho ->
  (qsum (map (fun p => if Nat.eqb (fst p) i then snd p else 0) (combine pos rho)) ==
   qsum (map (fun k => nth (k - s) rho 0) (filter (fun k => Nat.eqb (nth (k - s) pos 0%nat) i) (seq s (length pos)))))%Q.
Proof.
  revert rho. induction pos as [|x t IH]; intros rho s L; destruct rho as [|y rho]; try discriminate L; [reflexivity|].
  cbn in L. cbn [combine map length seq filter]. replace (s - s)%nat with 0%nat by lia. cbn [nth fst snd].
  assert (T : (qsum (map (fun k => nth (k - s) (y :: rho) 0) (filter (fun k => Nat.eqb (nth (k - s) (x :: t) 0%nat) i) (seq (S s) (length t)))) ==
              qsum (map (fun k => nth (k - S s) rho 0) (filter (fun k => Nat.eqb (nth (k - S s) t 0%nat) i) (seq (S s) (length t)))))%Q).
  { assert (F : filter (fun k => Nat.eqb (nth (k - s) (x :: t) 0%nat) i) (seq (S s) (length t)) = filter (fun k => Nat.eqb (nth (k - S s) t 0%nat) i) (seq (S s) (length t))).
    { apply filter_ext_in. intros k Hk. apply in_seq in Hk. replace (k - s)%nat with (S (k - S s)) by lia. reflexivity. }
    rewrite F. apply qsum_ext. intros k Hk. apply filter_In in Hk. destruct Hk as [Hk _]. apply in_seq in Hk. replace (k - s)%nat with (S (k - S s)) by lia. reflexivity. }
  unfold qsum at 1. cbn [fold_right]. change (fold_right Qplus 0%Q) with qsum. rewrite (IH rho (S s)) by lia. rewrite <- T.
  destruct (Nat.eqb x i); cbn [map qsum fold_right]; change (fold_right Qplus 0%Q) with qsum.
  - replace (s - s)%nat with 0%nat by lia. reflexivity.
  - rewrite Qplus_0_l. reflexivity.
Qed.
Lemma count_pos_filter (pos : list nat) i : forall s, count_pos pos i = length (filter (fun k => Nat.eqb (nth (k - s) pos 0%nat) i) (seq s (length pos))).
Proof.
  unfold count_pos. induction pos as [|x t IH]; intros s; [reflexivity|]. cbn [filter length seq].
  assert (F : filter (fun k => Nat.eqb (nth (k - s) (x :: t) 0%nat) i) (seq (S s) (length t)) = filter (fun k => Nat.eqb (nth (k - S s) t 0%nat) i) (seq (S s) (length t))).
  { apply filter_ext_in. intros k Hk. apply in_seq in Hk. replace (k - s)%nat with (S (k - S s)) by lia. reflexivity. }
  rewrite F. replace (nth (s - s) (x :: t) 0%nat) with x by (rewrite Nat.sub_diag; reflexivity).
  rewrite (Nat.eqb_sym i x). destruct (Nat.eqb x i); cbn [length]; rewrite (IH (S s)); reflexivity.
Qed.
Theorem C32_coarse_density :
  forall L d cells0 l fine coarse rho i,
    dims_pos d -> (forall e, In e cells0 -> 0 <= e < dims_cells d) ->
    nth_error (build L d cells0) l = Some fine -> nth_error (build L d cells0) (S l) = Some coarse ->
    length rho = length (l_cells fine) -> (i < length (l_cells coarse))%nat ->
    let kids := children fine coarse i in
    kids <> [] /\
    length (coarsen_rho fine coarse rho) = length (l_cells coarse) /\
    (nth i (coarsen_rho fine coarse rho) 0 == qsum (map (fun k => nth k rho 0) kids) / inject_Z (Z.of_nat (length kids)))%Q /\
    forall lo hi, (forall k, In k kids -> lo <= nth k rho 0 <= hi)%Q -> (lo <= nth i (coarsen_rho fine coarse rho) 0 <= hi)%Q.
Proof.
  intros L d cells0 l fine coarse rho i P C F G Lr Hi kids. unfold build in *.
  destruct (levels_ok L d (sortZ cells0) l fine P (sort_ok d cells0 C) F) as (EF & PF & CF & N). specialize (N coarse G).
  assert (EC : l_cells coarse = uniqueZ (map (parent (l_dims fine)) (l_cells fine))) by (rewrite N; reflexivity).
  assert (SC : StronglySorted Z.lt (l_cells coarse)) by (rewrite EC; apply uniqueZ_sorted).
  set (pos := map (fun e => searchsortedZ (l_cells coarse) (parent (l_dims fine) e)) (l_cells fine)).
  assert (LP : length pos = length (l_cells fine)) by (unfold pos; apply map_length).
  assert (K : filter (fun k => Nat.eqb (nth (k - 0) pos 0%nat) i) (seq 0 (length pos)) = kids).
  { unfold kids, children. rewrite LP. apply filter_ext_in. intros k Hk. apply in_seq in Hk. rewrite Nat.sub_0_r. unfold pos.
    rewrite (nth_map_in _ _ 0 0%nat) by lia. set (e := nth k (l_cells fine) 0).
    assert (He : In (parent (l_dims fine) e) (l_cells coarse)) by (rewrite EC; apply uniqueZ_in, in_map, nth_In; lia).
    destruct (searchsortedZ_hit _ _ SC He) as [B A].
    destruct (Nat.eqb_spec (searchsortedZ (l_cells coarse) (parent (l_dims fine) e)) i) as [Q|Q]; destruct (Z.eqb_spec (parent (l_dims fine) e) (nth i (l_cells coarse) 0)) as [R|R]; try reflexivity; exfalso.
    - apply R. rewrite <- Q. symmetry. apply A.
    - apply Q. rewrite R. apply searchsortedZ_nth; assumption. }
  assert (NE : kids <> []).
  { assert (Hin : In (nth i (l_cells coarse) 0) (l_cells coarse)) by (apply nth_In; exact Hi). rewrite EC in Hin at 2.
    apply uniqueZ_in, in_map_iff in Hin. destruct Hin as (e & Pe & He). destruct (In_nth _ _ 0 He) as (k & Hk & Ek).
    assert (In k kids); [|intros Q; rewrite Q in H; exact H]. unfold kids, children. apply filter_In. split; [apply in_seq; lia|]. rewrite Ek, Pe. apply Z.eqb_refl. }
  assert (LK : (1 <= length kids)%nat) by (destruct kids; [congruence|cbn; lia]).
  assert (V : (nth i (coarsen_rho fine coarse rho) 0 == qsum (map (fun k => nth k rho 0) kids) / inject_Z (Z.of_nat (length kids)))%Q).
  { unfold coarsen_rho. cbv zeta. fold pos. rewrite (nth_map_in _ _ 0%nat 0%Q) by (rewrite seq_length; exact Hi). rewrite seq_nth by exact Hi. cbn [Nat.add].
    rewrite qscatter_get by (rewrite repeat_length; exact Hi). rewrite (combine_seq_pick pos rho i 0) by lia. rewrite (count_pos_filter pos i 0), K.
    rewrite Nat.max_l by exact LK. assert (R0 : nth i (repeat 0%Q (length (l_cells coarse))) 0%Q = 0%Q) by (apply nth_repeat). rewrite R0.
    assert (S : (qsum (map (fun k => nth (k - 0) rho 0) kids) == qsum (map (fun k => nth k rho 0) kids))%Q) by (apply qsum_ext; intros k _; rewrite Nat.sub_0_r; reflexivity).
    rewrite S. field. assert (0 < inject_Z (Z.of_nat (length kids)))%Q; [|lra]. change 0%Q with (inject_Z 0). rewrite <- Zlt_Qlt. lia. }
  split; [exact NE|]. split; [unfold coarsen_rho; rewrite map_length, seq_length; reflexivity|]. split; [exact V|].
  intros lo hi H. rewrite V.
  assert (B : forall ks, (forall k, In k ks -> lo <= nth k rho 0 <= hi)%Q ->
     (lo * inject_Z (Z.of_nat (length ks)) <= qsum (map (fun k => nth k rho 0) ks) <= hi * inject_Z (Z.of_nat (length ks)))%Q).
  { clear. induction ks as [|k ks IH]; intros H; [unfold qsum; cbn [length map fold_right]; change (inject_Z (Z.of_nat 0)) with 0%Q; lra|]. destruct (IH (fun x Hx => H x (or_intror Hx))) as [A B]. destruct (H k (or_introl eq_refl)) as [A' B'].
    cbn [length map]. unfold qsum in *. cbn [fold_right]. rewrite Nat2Z.inj_succ. unfold Z.succ. rewrite inject_Z_plus. change (inject_Z 1) with 1%Q. lra. }
  assert (Pn : (0 < inject_Z (Z.of_nat (length kids)))%Q) by (change 0%Q with (inject_Z 0); rewrite <- Zlt_Qlt; lia).
  destruct (B kids H) as [B1 B2]. split; [apply Qle_shift_div_l; assumption|apply Qle_shift_div_r; assumption].
Qed.
Print Assumptions C32_coarse_density.
(** Three levels over a 5x3x2 grid, an L-shaped band. *)
Example C32_example :
  let b := build 3 (5, 3, 2) [0; 1; 6; 12; 29; 28] in
  map l_dims b = [(5, 3, 2); (3, 2, 1); (2, 1, 1)] /\ map (fun l => length (l_cells l)) b = [6; 3; 2]%nat /\
  map (fun l => length (l_nodes l)) b = [32; 18; 12]%nat.
Proof. vm_compute. auto. Qed.

(** ** C33 *)
Lemma color_parity d n i j k i' j' k' n' : node_idx d n = (i, j, k) -> node_idx d n' = (i', j', k') -> color d n = color d n' ->
  i mod 2 = i' mod 2 /\ j mod 2 = j' mod 2 /\ k mod 2 = k' mod 2.
Proof.
  unfold color. intros -> ->. assert (B := fun x => Z.mod_pos_bound x 2 ltac:(lia)).
  assert (Bi := B i). assert (Bj := B j). assert (Bk := B k). assert (Bi' := B i'). assert (Bj' := B j'). assert (Bk' := B k'). lia.
Qed.
Lemma same_parity x o o' : (o = 0 \/ o = 1) -> (o' = 0 \/ o' = 1) -> (x + o) mod 2 = (x + o') mod 2 -> o = o'.
Proof.
  intros A B H. destruct (parity_cases (x + o)) as (m & Hm), (parity_cases (x + o')) as (m' & Hm'). lia.
Qed.
Lemma colours_separate d e n n' : dims_pos d -> 0 <= e < dims_cells d -> In n (cell_nodes d e) -> In n' (cell_nodes d e) ->
  color d n = color d n' -> n = n'.
Proof.
  intros P He Hn Hn' HC. apply (cell_nodes_in d e n P He) in Hn. apply (cell_nodes_in d e n' P He) in Hn'.
  destruct Hn as (o & Ho & ->), Hn' as (o' & Ho' & ->).
  assert (I := cell_node_idx d e o P He Ho). assert (I' := cell_node_idx d e o' P He Ho').
  destruct (cell_idx d e) as [[x y] z] eqn:E. destruct o as [[ox oy] oz], o' as [[px py] pz]. apply corners_iff in Ho, Ho'.
  cbn [shift] in *. destruct (color_parity d _ _ _ _ _ _ _ _ I I' HC) as (A & B & D).
  assert (ox = px) by (apply (same_parity x); tauto). assert (oy = py) by (apply (same_parity y); tauto). assert (oz = pz) by (apply (same_parity z); tauto).
  subst. reflexivity.
Qed.
(** On every level, two different nodes of one colour never belong to a common cell; a cell has
    eight nodes of eight different colours 0..7. *)
Theorem C33_colours :
  forall L d cells0 l lev,
    dims_pos d -> (forall e, In e cells0 -> 0 <= e < dims_cells d) ->
    nth_error (build L d cells0) l = Some lev ->
    (forall e n n', In e (l_cells lev) -> In n (cell_nodes (l_dims lev) e) -> In n' (cell_nodes (l_dims lev) e) ->
       color (l_dims lev) n = color (l_dims lev) n' -> n = n') /\
    (forall e, In e (l_cells lev) -> NoDup (cell_nodes (l_dims lev) e) /\ length (cell_nodes (l_dims lev) e) = 8%nat) /\
    (forall n, 0 <= color (l_dims lev) n <= 7).
Proof.
  intros L d cells0 l lev P C F. unfold build in *.
  destruct (levels_ok L d (sortZ cells0) l lev P (sort_ok d cells0 C) F) as (_ & PF & CF & _).
  split; [|split].
  - intros e n n' He. apply colours_separate; [exact PF|apply CF; exact He].
  - intros e He. split; [|reflexivity]. unfold cell_nodes.
    assert (ND : NoDup cmg_corners) by (unfold cmg_corners; repeat constructor; cbn; intuition congruence).
    assert (G : forall l', incl l' cmg_corners -> NoDup l' -> NoDup (map (fun o => node_at (l_dims lev) (shift (cell_idx (l_dims lev) e) o)) l')).
    { clear ND. induction l' as [|o t IH]; intros Hi ND; [constructor|]. inversion ND as [|x y A B]; subst. cbn [map]. constructor.
      - intros Hin. apply in_map_iff in Hin. destruct Hin as (o' & Eq & Ho'). apply A. assert (o = o'); [|subst; exact Ho'].
        assert (I1 := cell_node_idx (l_dims lev) e o PF (CF e He) (Hi o (or_introl eq_refl))).
        assert (I2 := cell_node_idx (l_dims lev) e o' PF (CF e He) (Hi o' (or_intror Ho'))). rewrite Eq, I1 in I2.
        destruct (cell_idx (l_dims lev) e) as [[x y] z], o as [[a b] c], o' as [[a' b'] c']. cbn [shift] in I2. injection I2 as E1 E2 E3.
        f_equal; [f_equal|]; lia.
      - apply IH; [intros x Hx; apply Hi; right; exact Hx|exact B]. }
    apply G; [apply incl_refl|exact ND].
  - intros n. unfold color. destruct (node_idx (l_dims lev) n) as [[i j] k]. assert (B := fun x => Z.mod_pos_bound x 2 ltac:(lia)).
    assert (Bi := B i). assert (Bj := B j). assert (Bk := B k). lia.
Qed.
Print Assumptions C33_colours.

(** The compact node numbers of every cell of a level, and the colour of a compact node. *)
Definition level_cells (lev : level) : list (list nat) := map (ncid lev) (l_cells lev).
Definition level_color (lev : level) (n : nat) : Z := color (l_dims lev) (nth n (l_nodes lev) (-1)).
Definition has_colour (lev : level) (c : Z) (n : nat) : bool := level_color lev n =? c.

Lemma level_wf L d cells0 l lev : dims_pos d -> (forall e, In e cells0 -> 0 <= e < dims_cells d) ->
  nth_error (build L d cells0) l = Some lev ->
  cells_wf (level_cells lev) (length (l_nodes lev)) /\ forall c, separated (level_cells lev) (fun n => has_colour lev c n = true).
Proof.
  intros P C F. destruct (C33_colours L d cells0 l lev P C F) as (A & B & _). unfold build in F.
  destruct (levels_ok L d (sortZ cells0) l lev P (sort_ok d cells0 C) F) as (EL & PF & CF & _).
  assert (EN : l_nodes lev = uniqueZ (flat_map (cell_nodes (l_dims lev)) (l_cells lev))) by (rewrite EL; reflexivity).
  assert (S : StronglySorted Z.lt (l_nodes lev)) by (rewrite EN; apply uniqueZ_sorted).
  assert (IN : forall e n, In e (l_cells lev) -> In n (cell_nodes (l_dims lev) e) -> In n (l_nodes lev)).
  { intros e n He Hn. rewrite EN. apply uniqueZ_in, in_flat_map. exists e. split; assumption. }
  assert (RW : forall e, (e < length (level_cells lev))%nat -> exists c, In c (l_cells lev) /\ nth e (level_cells lev) [] = ncid lev c).
  { intros e He. unfold level_cells in *. rewrite map_length in He. exists (nth e (l_cells lev) 0). split; [apply nth_In; exact He|]. apply nth_map_in. exact He. }
  split.
  - intros e He. destruct (RW e He) as (c & Hc & ->). destruct (B c Hc) as [ND _]. split.
    + unfold ncid. assert (G : forall l', incl l' (cell_nodes (l_dims lev) c) -> NoDup l' -> NoDup (map (searchsortedZ (l_nodes lev)) l')).
      { induction l' as [|x t IH]; intros Hi HN; [constructor|]. inversion HN as [|p q HA HB]; subst. cbn [map]. constructor.
        - intros Hin. apply in_map_iff in Hin. destruct Hin as (y & Eq & Hy). apply HA.
          assert (H1 := proj2 (searchsortedZ_hit _ _ S (IN c x Hc (Hi x (or_introl eq_refl)))) 0).
          assert (H2 := proj2 (searchsortedZ_hit _ _ S (IN c y Hc (Hi y (or_intror Hy)))) 0). rewrite Eq, H1 in H2. subst. exact Hy.
        - apply IH; [intros y Hy; apply Hi; right; exact Hy|exact HB]. }
      apply G; [apply incl_refl|exact ND].
    + intros n Hn. unfold ncid in Hn. apply in_map_iff in Hn. destruct Hn as (x & <- & Hx). apply (searchsortedZ_hit _ _ S (IN c x Hc Hx)).
  - intros c e n n' He Hn Hn' Pn Pn'. destruct (RW e He) as (cc & Hc & R). rewrite R in Hn, Hn'. unfold ncid in Hn, Hn'.
    apply in_map_iff in Hn, Hn'. destruct Hn as (x & <- & Hx), Hn' as (y & <- & Hy). f_equal.
    unfold has_colour, level_color in Pn, Pn'. apply Z.eqb_eq in Pn, Pn'.
    rewrite (proj2 (searchsortedZ_hit _ _ S (IN cc x Hc Hx))) in Pn. rewrite (proj2 (searchsortedZ_hit _ _ S (IN cc y Hc Hy))) in Pn'.
    apply (A cc x y Hc Hx Hy). congruence.
Qed.

(** One colour step of the smoother equals the block Gauss-Seidel updates of that colour's nodes
    done one after the other, in any order. *)
Theorem C33_sequential :
  forall (K : CRing) L d cells0 l lev (E : list K) KE free_node D c ns b u,
    dims_pos d -> (forall e, In e cells0 -> 0 <= e < dims_cells d) ->
    nth_error (build L d cells0) l = Some lev ->
    let cn := level_cells lev in let nn := length (l_nodes lev) in
    masked K free_node nn u ->
    NoDup ns -> (forall n, In n ns <-> (n < nn)%nat /\ level_color lev n = c) -> ns <> [] ->
    colour_step K cn E KE free_node nn D (fun n => level_color lev n =? c) b u =
    fold_left (node_step K cn E KE free_node nn D b) ns u.
Proof.
  intros K L d cells0 l lev E KE free_node D c ns b u P C F cn nn M ND Hns NE.
  destruct (level_wf L d cells0 l lev P C F) as [W S].
  rewrite (colour_sequential K cn E KE free_node nn D b u ns W M ND).
  - apply map_ext_in. intros i Hi. apply in_seq in Hi. f_equal. f_equal.
    assert (Hd : (i / 3 < nn)%nat) by (apply Nat.div_lt_upper_bound; lia).
    destruct (Z.eqb_spec (level_color lev (i / 3)) c) as [Q|Q]; destruct (in_dec Nat.eq_dec (i / 3)%nat ns) as [R|R]; try reflexivity; exfalso.
    + apply R, Hns. split; assumption.
    + apply Q, Hns, R.
  - intros n Hn. apply Hns, Hn.
  - intros e n n' He Hn Hn' Pn Pn'. apply (S c e n n' He Hn Hn'); unfold has_colour; apply Z.eqb_eq; [apply (proj1 (Hns n) Pn)|apply (proj1 (Hns n') Pn')].
  - exact NE.
Qed.
Print Assumptions C33_sequential.

(** After the step of colour [c], with a symmetric element matrix and exact block inverses, the
    equations of every node of colour [c] are satisfied (their residual is zero). *)
Theorem C33_exact :
  forall (K : CRing) L d cells0 l lev (E : list K) KE free_node D c b u,
    dims_pos d -> (forall e, In e cells0 -> 0 <= e < dims_cells d) ->
    nth_error (build L d cells0) l = Some lev ->
    let cn := level_cells lev in let nn := length (l_nodes lev) in
    masked K free_node nn u ->
    (forall a c', KE a c' = KE c' a) ->
    (forall n a c', (n < nn)%nat -> (a < 3)%nat -> (c' < 3)%nat ->
       sumf (fun x => cmul (block K cn E KE free_node n a x) (D n x c')) (seq 0 3) = if Nat.eqb a c' then c1 else c0) ->
    forall n a, (n < nn)%nat -> (a < 3)%nat -> level_color lev n = c ->
      residual K cn E KE free_node nn b (colour_step K cn E KE free_node nn D (fun n => level_color lev n =? c) b u) (3 * n + a) = c0.
Proof.
  intros K L d cells0 l lev E KE free_node D c b u P C F cn nn M Sym Inv n a Hn Ha Hc.
  destruct (level_wf L d cells0 l lev P C F) as [W S].
  apply (colour_exact K cn E KE free_node nn D _ b u W M (S c) Sym Inv n a Hn Ha). apply Z.eqb_eq. exact Hc.
Qed.
Print Assumptions C33_exact.

(** The hypotheses of both theorems are met: one active cell of a 2x1x1 grid, node 0 fixed,
    integers, identity element matrix, so the blocks and D are identities. *)
Example C33_example :
  let lev := mk_level (2, 1, 1) [1] in
  build 1 (2, 1, 1) [1] = [lev] /\
  let cn := level_cells lev in let nn := length (l_nodes lev) in
  let KE := fun a c => if Nat.eqb a c then 1 else 0 in
  let D := fun _ a c => if Nat.eqb a c then 1 else 0 in
  let fr := fun n => negb (Nat.eqb n 0) in
  (forall n a c', (n < nn)%nat -> (a < 3)%nat -> (c' < 3)%nat ->
    sumf (fun x => cmul (block ZK cn [1] KE fr n a x) (D n x c')) (seq 0 3) = if Nat.eqb a c' then 1 else 0) /\
  masked ZK fr nn (repeat 0 24) /\
  nth_error (colour_step ZK cn [1] KE fr nn D (fun n => level_color lev n =? 1) (repeat 5 24) (repeat 0 24)) 13%nat = Some 0 /\
  exists n, (n < nn)%nat /\ level_color lev n = 1.
Proof.
  cbv zeta. split; [vm_compute; reflexivity|]. split.
  - intros n a c' Hn Ha Hc. vm_compute in Hn. 
    do 8 (destruct n as [|n]; [do 3 (destruct a as [|a]; [do 3 (destruct c' as [|c']; [vm_compute; reflexivity|]); lia|]); lia|]). lia.
  - split; [split; [reflexivity|]; intros i Hi; unfold get; rewrite nth_repeat; reflexivity|].
    split; [vm_compute; reflexivity|]. exists 5%nat. vm_compute. split; [repeat constructor|reflexivity].
Qed.

(** ** C55 *)
(** The finest level has the layout of the narrow band over the same grid, provided the active
    cells are listed in increasing order: level cell k is active cell k, and row i of a solution
    belongs to grid node b_map[i]. *)
Lemma nodes_agree g e : cell_nodes (nx g, ny g, nz g) e = map (fun o => let '(ox, oy, oz) := o in let '(cx, cy, cz) := cell_ijk g e in node_id g (cx + ox) (cy + oy) (cz + oz)) cmg_corners.
Proof.
  unfold cell_nodes, cell_ijk. apply map_ext. intros [[ox oy] oz]. unfold cell_idx, node_at, shift, node_id. ring.
Qed.
Lemma cell_nodes_grid g e n : In n (cell_nodes (nx g, ny g, nz g) e) <-> In n (cell_to_nodes g e).
Proof.
  rewrite nodes_agree. unfold cell_to_nodes. destruct (cell_ijk g e) as [[cx cy] cz]. rewrite !in_map_iff. unfold cmg_corners, hex8_offsets.
  split; intros (o & Eq & Hin); exists o; (split; [exact Eq|]); cbn in Hin |- *; tauto.
Qed.
Theorem C55_layout :
  forall g L active, 0 < nx g /\ 0 < ny g /\ 0 < nz g -> StronglySorted Z.lt active ->
    forall lev, nth_error (build (S L) (nx g, ny g, nz g) active) 0 = Some lev ->
      l_cells lev = b_active (narrow_band (grid_domain g) active) /\ l_nodes lev = b_map (narrow_band (grid_domain g) active).
Proof.
  intros g L active P S lev F. unfold build in F. cbn [build_levels nth_error] in F. injection F as <-. cbn [l_cells l_nodes mk_level narrow_band b_active b_map].
  assert (E : sortZ active = active).
  { apply sortZ_id. induction S as [|x t S IH F]; constructor; [exact IH|]. eapply Forall_impl; [|exact F]. cbn. intros; lia. }
  rewrite E. split; [reflexivity|]. apply sortedZ_ext; try apply uniqueZ_sorted. intros n. rewrite !uniqueZ_in, in_flat_map.
  split; intros H.
  - destruct H as (e & He & Hn). rewrite <- flat_map_concat_map. apply in_flat_map. exists e. split; [exact He|]. apply cell_nodes_grid, Hn.
  - rewrite <- flat_map_concat_map in H. apply in_flat_map in H. destruct H as (e & He & Hn). exists e. split; [exact He|]. apply cell_nodes_grid. exact Hn.
Qed.
Print Assumptions C55_layout.

(** Loads: for nodes of the band, exactly component [comp] of exactly those nodes is set. *)
Theorem C55_load_vector :
  forall L d active ids comp value lev,
    nth_error (build (S L) d active) 0 = Some lev -> (comp < 3)%nat -> (forall n, In n ids -> In n (l_nodes lev)) ->
    exists b, load_vector lev ids comp value = Some b /\ length b = (3 * length (l_nodes lev))%nat /\
      forall i c, (i < length (l_nodes lev))%nat -> (c < 3)%nat ->
        nth (3 * i + c) b 0%Q = if Nat.eqb c comp && existsb (Z.eqb (nth i (l_nodes lev) (-1))) ids then value else 0%Q.
Proof.
  intros L d active ids comp value lev F Hc Hids. unfold build in F. cbn [build_levels nth_error] in F.
  assert (S : StronglySorted Z.lt (l_nodes lev)) by (injection F as <-; apply uniqueZ_sorted). clear F.
  unfold load_vector. cbv zeta.
  assert (A : forallb (fun i => i <? 3 * length (l_nodes lev))%nat (map (fun c => (3 * c + comp)%nat) (compact_nodes lev ids)) = true).
  { apply forallb_forall. intros i Hi. apply in_map_iff in Hi. destruct Hi as (k & <- & Hk). apply in_map_iff in Hk. destruct Hk as (n & <- & Hn).
    apply Nat.ltb_lt. destruct (searchsortedZ_hit _ _ S (Hids n Hn)) as [B _]. lia. }
  rewrite A. eexists. split; [reflexivity|]. split; [rewrite scatter_set_length; apply repeat_length|].
  intros i c Hi Hc'. rewrite map_map.
  assert (G : forall (ivs : list nat) (base : list Q) j, (j < length base)%nat ->
     nth j (scatter_set base (map (fun i => (i, value)) ivs)) 0%Q = if existsb (Nat.eqb j) ivs then value else nth j base 0%Q).
  { clear. induction ivs as [|x t IH]; intros base j Hj; [reflexivity|]. cbn [map]. unfold scatter_set. cbn [fold_left fst snd].
    fold (scatter_set (upd base x value) (map (fun i => (i, value)) t)). rewrite IH by (rewrite upd_length; exact Hj).
    cbn [existsb]. rewrite nth_upd. rewrite (Nat.eqb_sym j x). destruct (existsb (Nat.eqb j) t); [rewrite orb_true_r; reflexivity|]. rewrite orb_false_r.
    destruct (Nat.eqb_spec x j) as [->|]; cbn [andb]; [|reflexivity]. destruct (Nat.ltb_spec j (length base)); [reflexivity|lia]. }
  unfold compact_nodes. rewrite map_map. 
  rewrite <- (map_map (fun x => (3 * searchsortedZ (l_nodes lev) x + comp)%nat) (fun i => (i, value))).
  rewrite G by (rewrite repeat_length; lia). rewrite nth_repeat.
  match goal with |- (if ?x then _ else _) = (if ?y then _ else _) => replace y with x; [reflexivity|] end.
  apply eq_true_iff_eq. rewrite andb_true_iff, !existsb_exists, Nat.eqb_eq. split.
  - intros (j & Hj & Q). apply Nat.eqb_eq in Q. apply in_map_iff in Hj. destruct Hj as (n & <- & Hn).
    destruct (searchsortedZ_hit _ _ S (Hids n Hn)) as [B E]. assert (c = comp /\ i = searchsortedZ (l_nodes lev) n) as [-> ->] by lia.
    split; [reflexivity|]. exists n. split; [exact Hn|]. rewrite E. apply Z.eqb_refl.
  - intros [-> (n & Hn & Q)]. apply Z.eqb_eq in Q. exists (3 * i + comp)%nat. split; [|apply Nat.eqb_refl]. apply in_map_iff. exists n. split; [|exact Hn].
    rewrite <- Q, searchsortedZ_nth by assumption. reflexivity.
Qed.
Print Assumptions C55_load_vector.

(** A node outside the band: the load silently lands on another node. *)
Theorem C55_outside_refuted :
  exists d active ids lev b, nth_error (build 1 d active) 0 = Some lev /\
    (forall n, In n ids -> 0 <= n < 16 /\ ~ In n (l_nodes lev)) /\ load_vector lev ids 2 (-1)%Q = Some b /\
    exists i, (i < length (l_nodes lev))%nat /\ nth (3 * i + 2) b 0%Q = (-1)%Q.
Proof.
  exists (3, 1, 1), [1], [0], (mk_level (3, 1, 1) [1]). eexists.
  split; [reflexivity|]. split; [intros n [<-|[]]; split; [lia|]; vm_compute; intuition congruence|]. split; [vm_compute; reflexivity|]. exists 0%nat. vm_compute. split; [lia|reflexivity].
Qed.
Print Assumptions C55_outside_refuted.

(** Active cells in another order: level cell k is not active cell k, so a design array given in
    the order of the active cells is read for other cells. *)
Theorem C55_order_refuted :
  exists d active lev, nth_error (build 1 d active) 0 = Some lev /\ NoDup active /\ nth 0 (l_cells lev) (-1) <> nth 0 active (-1).
Proof.
  exists (3, 1, 1), [2; 0], (mk_level (3, 1, 1) [0; 2]). split; [reflexivity|]. split; [repeat constructor; cbn; intuition congruence|]. vm_compute. discriminate.
Qed.
Print Assumptions C55_order_refuted.

(** [auto_levels]: always finds a depth for which the coarsest smallest dimension is at most
    [floor] (floor >= 1), and no smaller depth does. *)
Fixpoint coarsened (k : nat) (d : ijk) : ijk := match k with O => d | S k' => coarsened k' (coarse_dims d) end.
Lemma half_up_dec x : 1 < x -> half_up x < x.
Proof. intros H. unfold half_up. apply Z.div_lt_upper_bound; lia. Qed.
Lemma min3_coarse d : 1 < min3 d -> dims_pos d -> min3 (coarse_dims d) < min3 d.
Proof.
  destruct d as [[a b] c]. cbn. intros H (A & B & C).
  assert (Ha := half_up_dec a ltac:(lia)). assert (Hb := half_up_dec b ltac:(lia)). assert (Hc := half_up_dec c ltac:(lia)). lia.
Qed.
Theorem C55_auto_levels :
  forall d floor, dims_pos d -> 1 <= floor ->
    exists fuel L, auto_levels fuel d floor = Some L /\ (1 <= L)%nat /\ min3 (coarsened (L - 1) d) <= floor /\
      forall k, (k < L - 1)%nat -> floor < min3 (coarsened k d).
Proof.
  assert (G : forall n d floor, dims_pos d -> 1 <= floor -> min3 d - floor <= Z.of_nat n ->
    exists fuel L, auto_levels fuel d floor = Some L /\ (1 <= L)%nat /\ min3 (coarsened (L - 1) d) <= floor /\
      forall k, (k < L - 1)%nat -> floor < min3 (coarsened k d)).
  { induction n as [|n IH]; intros d floor P Hf Hn.
    - exists 0%nat, 1%nat. cbn [auto_levels]. destruct (Z.leb_spec (min3 d) floor); [|lia]. split; [reflexivity|]. split; [lia|]. split; [exact H|]. intros k Hk. lia.
    - destruct (Z.leb_spec (min3 d) floor) as [H|H].
      + exists 0%nat, 1%nat. cbn [auto_levels]. destruct (Z.leb_spec (min3 d) floor); [|lia]. split; [reflexivity|]. split; [lia|]. split; [exact H|]. intros k Hk. lia.
      + assert (M := min3_coarse d ltac:(lia) P). destruct (IH (coarse_dims d) floor (coarse_pos d P) Hf ltac:(lia)) as (fuel & L & E & HL & A & B).
        exists (S fuel), (S L). cbn [auto_levels]. destruct (Z.leb_spec (min3 d) floor); [lia|]. rewrite E. split; [reflexivity|]. split; [lia|].
        replace (S L - 1)%nat with (S (L - 1)) by lia. split; [exact A|]. intros [|k] Hk; [exact H|]. apply B. lia. }
  intros d floor P Hf. apply (G (Z.to_nat (min3 d))); [exact P|exact Hf|lia].
Qed.
Print Assumptions C55_auto_levels.
(** Cell sizes are rounded up to a multiple of the bucket. *)
Theorem C55_cap : forall n bucket, 0 < bucket -> n <= cap n bucket /\ cap n bucket mod bucket = 0 /\ 0 < cap n bucket < Z.max 1 n + bucket.
Proof.
  intros n b H. unfold cap. assert (A := Z.div_mod (Z.max 1 n + b - 1) b ltac:(lia)). assert (B := Z.mod_pos_bound (Z.max 1 n + b - 1) b H).
  split; [nia|]. split; [apply Z_mod_mult|]. nia.
Qed.
Print Assumptions C55_cap.
