(** C46 (graph representations) and C56 (lattice membership). *)
From Coq Require Import QArith Qminmax Lqa Lia.
From Verif Require Import Base Graph_Model.
Local Open Scope Q_scope.

(** ** Specification *)

(** Squared distance from [x] to the point at parameter [s] of the segment p--q. *)
Fixpoint dist2_at (s : Q) (x p q : vec) : Q :=
  match x, p, q with
  | a :: x', b :: p', c :: q' =>
      (a - ((1 - s) * b + s * c)) * (a - ((1 - s) * b + s * c)) + dist2_at s x' p' q'
  | _, _, _ => 0
  end.
(** [x] is within [r] of the segment p--q. *)
Definition within (r : Q) (x p q : vec) : Prop :=
  exists s, 0 <= s <= 1 /\ dist2_at s x p q <= r * r.
(** Nodes [i] and [j] are joined. *)
Definition joined (edges : list (nat * nat)) (i j : nat) : Prop := In (i, j) edges \/ In (j, i) edges.
(** Every edge joins two existing nodes. *)
Definition in_range (n : nat) (edges : list (nat * nat)) : Prop :=
  forall e, In e edges -> (fst e < n /\ snd e < n)%nat.
Definition no_loops (edges : list (nat * nat)) : Prop := forall i, ~ In (i, i) edges.

(** ** Distance to a segment *)
Lemma dist2_expand s x : forall p q, length p = length x -> length q = length x ->
  dist2_at s x p q == dot (vsub x p) (vsub x p) - 2 * s * dot (vsub x p) (vsub q p)
                      + s * s * dot (vsub q p) (vsub q p).
Proof.
  unfold dot, vsub. induction x as [|a x IH]; intros [|b p] [|c q] Hp Hq; cbn [length] in *; try lia.
  - cbn. ring.
  - cbn [dist2_at combine map sumQ fold_right fst snd]. rewrite IH by lia. unfold sumQ. ring.
Qed.

Lemma proj_dist2 t x : forall p q, length p = length x -> length q = length x ->
  dot (vsub x (vadd p (vscale t (vsub q p)))) (vsub x (vadd p (vscale t (vsub q p)))) == dist2_at t x p q.
Proof.
  unfold dot, vsub, vadd, vscale.
  induction x as [|a x IH]; intros [|b p] [|c q] Hp Hq; cbn [length] in *; try lia.
  - cbn. ring.
  - cbn [dist2_at combine map sumQ fold_right fst snd]. rewrite <- (IH p q) by lia. unfold sumQ. ring.
Qed.

Lemma dot_nonneg a : 0 <= dot a a.
Proof.
  unfold dot. induction a as [|x t IH]; cbn; [lra|]. fold (sumQ (map (fun p => fst p * snd p) (combine t t))).
  unfold sumQ in *. nra.
Qed.

Lemma sq_nonneg a : 0 <= a * a.
Proof. nra. Qed.
Lemma mul3_nonneg a b c : 0 <= a -> 0 <= b -> 0 <= c -> 0 <= a * b * c.
Proof. intros. apply Qmult_le_0_compat; [apply Qmult_le_0_compat; assumption|assumption]. Qed.

Ltac sq3 := first [ apply Qmult_le_0_compat; [apply sq_nonneg|lra] | apply mul3_nonneg; lra ].

Lemma Qltb_lt a b : Qltb a b = true <-> a < b.
Proof.
  unfold Qltb. destruct (Qle_bool b a) eqn:E; cbn.
  - split; [discriminate|]. intros H. apply Qle_bool_iff in E. lra.
  - split; [|reflexivity]. intros _. apply Qnot_le_lt. intros H. apply Qle_bool_iff in H. congruence.
Qed.
Lemma Qltb_ge a b : Qltb a b = false <-> b <= a.
Proof.
  destruct (Qltb a b) eqn:E.
  - apply Qltb_lt in E. split; [discriminate|lra].
  - split; [|reflexivity]. intros _. apply Qnot_lt_le. intros H. apply Qltb_lt in H. congruence.
Qed.

Definition param (x p q : vec) : Q :=
  if Qltb 0 (dot (vsub q p) (vsub q p))
  then clip (dot (vsub x p) (vsub q p) / dot (vsub q p) (vsub q p)) 0 1 else 0.

Lemma param_range x p q : 0 <= param x p q <= 1.
Proof.
  unfold param. destruct (Qltb _ _); [|lra]. unfold clip.
  destruct (Q.max_spec (dot (vsub x p) (vsub q p) / dot (vsub q p) (vsub q p)) 0) as [[H1 H2]|[H1 H2]];
  destruct (Q.min_spec (Qmax (dot (vsub x p) (vsub q p) / dot (vsub q p) (vsub q p)) 0) 1) as [[H3 H4]|[H3 H4]];
  rewrite H4; lra.
Qed.

Lemma segment_is_min x p q : length p = length x -> length q = length x ->
  segment_dist2 x p q == dist2_at (param x p q) x p q /\
  (forall s, 0 <= s <= 1 -> segment_dist2 x p q <= dist2_at s x p q).
Proof.
  intros Hp Hq.
  assert (E : segment_dist2 x p q == dist2_at (param x p q) x p q) by (apply proj_dist2; assumption).
  split; [exact E|]. intros s Hs. rewrite E, !dist2_expand by assumption.
  set (ww := dot (vsub x p) (vsub x p)). set (wv := dot (vsub x p) (vsub q p)).
  set (vv := dot (vsub q p) (vsub q p)). unfold param. fold wv vv.
  pose proof (dot_nonneg (vsub q p)) as NN. fold vv in NN.
  destruct (Qltb 0 vv) eqn:B.
  - apply Qltb_lt in B. assert (D : wv == (wv / vv) * vv) by (field; lra).
    set (t0 := wv / vv) in *. clearbody t0 ww wv vv. unfold clip.
    destruct (Q.max_spec t0 0) as [[H1 H2]|[H1 H2]];
    destruct (Q.min_spec (Qmax t0 0) 1) as [[H3 H4]|[H3 H4]]; rewrite H4; try rewrite H2;
      rewrite H2 in H3; try lra; rewrite !D.
    + assert (0 <= s * s * vv) by (sq3).
      assert (0 <= s * (- t0) * vv) by (sq3). lra.
    + assert (0 <= (s - t0) * (s - t0) * vv) by (sq3). lra.
    + assert (0 <= (1 - s) * (t0 - 1) * vv) by (sq3).
      assert (0 <= (1 - s) * (1 - s) * vv) by (sq3). lra.
  - apply Qltb_ge in B. assert (Z : vv == 0) by lra.
    (* both ends coincide: the dot product with the direction vanishes *)
    assert (W : wv == 0).
    { unfold wv. unfold vv in Z. clear - Z.
      assert (G : forall v : vec, dot v v == 0 -> forall w, dot w v == 0).
      { unfold dot. induction v as [|a v IH]; intros H w; [destruct w; reflexivity|].
        cbn in H. pose proof (dot_nonneg v) as N. unfold dot, sumQ in N.
        assert (Ha : a * a == 0) by nra. assert (Hv : sumQ (map (fun p => fst p * snd p) (combine v v)) == 0) by (unfold sumQ; nra).
        assert (A0 : a == 0). { destruct (Qeq_dec a 0) as [?|Hn]; [assumption|]. exfalso. nra. }
        destruct w as [|b w]; [reflexivity|]. cbn. specialize (IH Hv w). unfold sumQ in IH. rewrite IH, A0. ring. }
      apply G. exact Z. }
    rewrite W, Z. lra.
Qed.

Lemma near_edge_iff x nodes r i j :
  length (nth i nodes []) = length x -> length (nth j nodes []) = length x ->
  (near_edge x nodes r i j = true <-> within r x (nth i nodes []) (nth j nodes [])).
Proof.
  intros Hi Hj. unfold near_edge. rewrite Qle_bool_iff.
  destruct (segment_is_min x _ _ Hi Hj) as [E M]. split.
  - intros H. exists (param x (nth i nodes []) (nth j nodes [])). split; [apply param_range|].
    rewrite <- E. exact H.
  - intros [s [Hs H]]. eapply Qle_trans; [apply M; exact Hs|exact H].
Qed.

Lemma dist2_flip s x : forall p q, dist2_at s x p q == dist2_at (1 - s) x q p.
Proof.
  induction x as [|a x IH]; intros [|b p] [|c q]; cbn; try reflexivity. rewrite IH. ring.
Qed.

Lemma within_sym r x p q : within r x p q <-> within r x q p.
Proof.
  split; intros [s [Hs H]]; (exists (1 - s); split; [lra|]); rewrite <- dist2_flip; exact H.
Qed.

(** ** C56: lattice membership *)

(** [universal_graph] is 1 exactly for the points within the radius of some edge of
    the graph (closest point of the closed segment), and 0 otherwise; a negative
    radius is an error. *)
Theorem C56_membership :
  forall (x : vec) (nodes : list vec) (edges : list (nat * nat)) (r : Q),
  (forall p, In p nodes -> length p = length x) -> in_range (length nodes) edges ->
  (r < 0 -> universal_graph x nodes edges r = None) /\
  (0 <= r ->
     (universal_graph x nodes edges r = Some 1 <->
        exists i j, In (i, j) edges /\ within r x (nth i nodes []) (nth j nodes [])) /\
     (universal_graph x nodes edges r = Some 0 <->
        forall i j, In (i, j) edges -> ~ within r x (nth i nodes []) (nth j nodes []))).
Proof.
  intros x nodes edges r HD HR. split.
  - intros H. unfold universal_graph. now rewrite (proj2 (Qltb_lt r 0) H).
  - intros H. unfold universal_graph. rewrite (proj2 (Qltb_ge r 0) H).
    assert (NE : forall i j, In (i, j) edges ->
      (near_edge x nodes r i j = true <-> within r x (nth i nodes []) (nth j nodes []))).
    { intros i j I. destruct (HR _ I). apply near_edge_iff; apply HD, nth_In; assumption. }
    destruct edges as [|e0 es].
    + split; split; intros Q; try discriminate.
      * destruct Q as [i [j [[] _]]].
      * intros i j [].
      * reflexivity.
    + destruct (existsb _ _) eqn:EX.
      * apply existsb_exists in EX. destruct EX as [[i j] [I N]]. cbn [fst snd] in N.
        split; split; intros Q; try discriminate; try reflexivity.
        -- exists i, j. split; [exact I|]. apply NE; assumption.
        -- exfalso. apply (Q i j I). apply NE; assumption.
      * assert (F : forall i j, In (i, j) (e0 :: es) -> near_edge x nodes r i j = false).
        { intros i j I. destruct (near_edge x nodes r i j) eqn:B; [|reflexivity].
          rewrite (proj2 (existsb_exists _ _)) in EX; [discriminate|]. exists (i, j). auto. }
        split; split; intros Q; try discriminate; try reflexivity.
        -- exfalso. destruct Q as [i [j [I W]]]. apply (NE i j I) in W. rewrite (F i j I) in W. discriminate.
        -- intros i j I W. apply (NE i j I) in W. rewrite (F i j I) in W. discriminate.
Qed.
Print Assumptions C56_membership.

(** The distance used is the minimum over the closed segment. *)
Theorem C56_segment_distance :
  forall x p q : vec, length p = length x -> length q = length x ->
  (exists s, 0 <= s <= 1 /\ segment_dist2 x p q == dist2_at s x p q) /\
  (forall s, 0 <= s <= 1 -> segment_dist2 x p q <= dist2_at s x p q).
Proof.
  intros x p q Hp Hq. destruct (segment_is_min x p q Hp Hq) as [E M]. split; [|exact M].
  exists (param x p q). split; [apply param_range|exact E].
Qed.
Print Assumptions C56_segment_distance.

(** ** Matrices *)
Lemma nth_repeat_Q n k : nth k (repeat 0 n) 0 = 0.
Proof. revert k; induction n as [|n IH]; intros [|k]; cbn; auto. Qed.

Definition square (n : nat) (A : matrix) : Prop := length A = n /\ forall i, (i < n)%nat -> length (nth i A []) = n.

Lemma mzeros_square n : square n (mzeros n).
Proof.
  unfold mzeros. split; [apply repeat_length|]. intros i Hi.
  assert (E : nth i (repeat (repeat 0 n) n) [] = repeat 0 n).
  { generalize (repeat 0 n) as z. revert i Hi. generalize n as m. induction m as [|m IH]; intros [|i] Hi z; cbn; try lia; auto. apply IH; lia. }
  rewrite E. apply repeat_length.
Qed.
Lemma mget_zeros n i j : mget (mzeros n) i j = 0.
Proof.
  unfold mget, mzeros. destruct (nth_in_or_default i (repeat (repeat 0 n) n) []) as [H|H].
  - apply repeat_spec in H. rewrite H. apply nth_repeat_Q.
  - rewrite H. destruct j; reflexivity.
Qed.

Lemma mset_square n A i j v : square n A -> square n (mset A i j v).
Proof.
  intros [L W]. unfold mset. split; [now rewrite upd_length|].
  intros k Hk. rewrite nth_upd. destruct ((i =? k)%nat && (i <? length A)%nat) eqn:E.
  - rewrite upd_length. apply W. apply andb_true_iff in E. destruct E as [E _]. apply Nat.eqb_eq in E. now subst.
  - apply W. exact Hk.
Qed.

Lemma mget_mset n A i j v a b : square n A -> (i < n)%nat -> (j < n)%nat ->
  mget (mset A i j v) a b = if (i =? a)%nat && (j =? b)%nat then v else mget A a b.
Proof.
  intros [L W] Hi Hj. unfold mget, mset. rewrite nth_upd.
  rewrite L. destruct (Nat.eqb_spec i a) as [<-|Ha]; cbn [andb].
  - rewrite (proj2 (Nat.ltb_lt i n) Hi). rewrite nth_upd.
    rewrite (W i Hi). destruct (Nat.eqb_spec j b) as [<-|Hb]; cbn [andb]; [|reflexivity].
    now rewrite (proj2 (Nat.ltb_lt j n) Hj).
  - reflexivity.
Qed.

(** The adjacency matrix of [edges] on [n] nodes. *)
Definition is_adj (n : nat) (edges : list (nat * nat)) (A : matrix) : Prop :=
  square n A /\ forall i j, (joined edges i j -> mget A i j = 1) /\ (~ joined edges i j -> mget A i j = 0).

Lemma joined_dec edges i j : {joined edges i j} + {~ joined edges i j}.
Proof.
  assert (D : forall x y : nat * nat, {x = y} + {x <> y}) by (intros; decide equality; apply Nat.eq_dec).
  unfold joined. destruct (in_dec D (i, j) edges); [left; auto|].
  destruct (in_dec D (j, i) edges); [left; auto|]. right. tauto.
Qed.

Lemma fold_adj n edges : in_range n edges ->
  is_adj n edges (fold_left (fun A e => mset (mset A (fst e) (snd e) 1) (snd e) (fst e) 1) edges (mzeros n)).
Proof.
  intros HR. induction edges as [|e edges IH] using rev_ind.
  - cbn. split; [apply mzeros_square|]. intros i j. split; [intros [[]|[]]|intros _; apply mget_zeros].
  - rewrite fold_left_app. cbn [fold_left].
    destruct IH as [S G]. { intros e' H. apply HR. apply in_app_iff; auto. }
    destruct (HR e) as [H1 H2]; [apply in_app_iff; right; left; reflexivity|].
    set (A := fold_left _ edges (mzeros n)) in *.
    split; [apply mset_square, mset_square; exact S|]. intros i j.
    rewrite (mget_mset n) by (try apply mset_square; assumption).
    rewrite (mget_mset n) by assumption. destruct e as [a b]. cbn [fst snd].
    assert (J : joined (edges ++ [(a, b)]) i j <-> joined edges i j \/ (i = a /\ j = b) \/ (i = b /\ j = a)).
    { unfold joined. rewrite !in_app_iff. cbn [In]. split.
      - intros [[H|[H|[]]]|[H|[H|[]]]]; auto; injection H; auto.
      - intros [[H|H]|[[-> ->]|[-> ->]]]; auto. }
    split; intros Q.
    + apply J in Q.
      destruct ((b =? i)%nat && (a =? j)%nat) eqn:B1; [reflexivity|].
      destruct ((a =? i)%nat && (b =? j)%nat) eqn:B2; [reflexivity|].
      apply G. destruct Q as [Q|[[-> ->]|[-> ->]]]; [exact Q| |]; rewrite !Nat.eqb_refl in *; discriminate.
    + destruct ((b =? i)%nat && (a =? j)%nat) eqn:B1.
      { exfalso. apply Q, J. apply andb_true_iff in B1. rewrite !Nat.eqb_eq in B1. right; right. intuition. }
      destruct ((a =? i)%nat && (b =? j)%nat) eqn:B2.
      { exfalso. apply Q, J. apply andb_true_iff in B2. rewrite !Nat.eqb_eq in B2. right; left. intuition. }
      apply G. intros Q'. apply Q, J. auto.
Qed.

Lemma max_index_range edges : in_range (max_index edges + 1) edges.
Proof.
  unfold max_index. induction edges as [|e t IH]; intros e' H; [destruct H|].
  cbn [map fold_right]. destruct H as [<-|H]; [lia|]. specialize (IH e' H). lia.
Qed.

Definition num_of (edges : list (nat * nat)) (num : option nat) : nat :=
  match num with Some n => n | None => match edges with [] => 0%nat | _ => (max_index edges + 1)%nat end end.

Lemma edges2adj_is edges num : in_range (num_of edges num) edges ->
  is_adj (num_of edges num) edges (edges2adj edges num).
Proof.
  intros HR. unfold edges2adj. destruct edges as [|e t].
  - split; [apply mzeros_square|]. intros i j. split; [intros [[]|[]]|intros _; apply mget_zeros].
  - apply fold_adj. exact HR.
Qed.

(** ** Upper triangle and padded [where] *)
Lemma triu_in n i j : In (i, j) (triu n) <-> (i < j < n)%nat.
Proof.
  unfold triu. rewrite in_flat_map. split.
  - intros [a [Ha H]]. apply in_map_iff in H. destruct H as [b [E Hb]]. injection E as -> ->.
    apply in_seq in Ha, Hb. lia.
  - intros H. exists i. split; [apply in_seq; lia|]. apply in_map_iff. exists j. split; [reflexivity|].
    apply in_seq. lia.
Qed.

Lemma triu_length n : length (triu n) = (n * (n - 1) / 2)%nat.
Proof.
  assert (H : forall m, (m <= n)%nat ->
     (2 * length (flat_map (fun i => map (fun j => (i, j)) (seq (i + 1) (n - (i + 1)))) (seq (n - m) m)) = m * (m - 1))%nat).
  { induction m as [|m IH]; intros Hm; [reflexivity|].
    replace (seq (n - S m) (S m)) with ((n - S m)%nat :: seq (n - m) m).
    2:{ cbn [seq]. do 2 f_equal. lia. }
    cbn [flat_map]. rewrite app_length, map_length, seq_length. specialize (IH ltac:(lia)).
    replace (n - (n - S m + 1))%nat with m by lia. nia. }
  specialize (H n (le_n n)). rewrite Nat.sub_diag in H. unfold triu.
  rewrite <- H, Nat.mul_comm, Nat.div_mul by lia. reflexivity.
Qed.

Definition hits (cond : list bool) : list nat := filter (fun k => nth k cond false) (seq 0 (length cond)).

Lemma filter_length_le A (f : A -> bool) l : (length (filter f l) <= length l)%nat.
Proof. induction l as [|x t IH]; cbn; [lia|]. destruct (f x); cbn; lia. Qed.

Lemma where_sized_all cond : exists k, where_sized cond (length cond) = map Some (hits cond) ++ repeat None k.
Proof.
  unfold where_sized. fold (hits cond).
  assert (L : (length (hits cond) <= length cond)%nat).
  { unfold hits. pose proof (filter_length_le _ (fun k => nth k cond false) (seq 0 (length cond))). rewrite seq_length in H. exact H. }
  rewrite firstn_app, map_length, (firstn_all2 (map Some (hits cond))) by (rewrite map_length; exact L).
  exists (length cond - length (hits cond))%nat. f_equal.
  assert (F : forall m q, (m <= q)%nat -> firstn m (repeat (@None nat) q) = repeat None m).
  { induction m as [|m IH]; intros q Hq; [reflexivity|]. destruct q; [lia|]. cbn. f_equal. apply IH. lia. }
  apply F. lia.
Qed.

Lemma mask_valid A (f : option nat -> A) l k :
  mask_select (map f (map Some l ++ repeat None k))
    (map (fun o => match o with Some _ => true | None => false end) (map Some l ++ repeat None k)) =
  map (fun x => f (Some x)) l.
Proof.
  induction l as [|x t IH]; cbn.
  - induction k as [|k IH]; cbn; auto.
  - f_equal. exact IH.
Qed.

Lemma filter_map_S (f : nat -> bool) l : filter f (map S l) = map S (filter (fun k => f (S k)) l).
Proof. induction l as [|a l IH]; cbn; [reflexivity|]. destruct (f (S a)); cbn; rewrite IH; reflexivity. Qed.

Lemma filter_nth A (d : A) (P : A -> bool) l :
  map (fun k => nth k l d) (filter (fun k => nth k (map P l) false) (seq 0 (length l))) = filter P l.
Proof.
  induction l as [|x t IH]; [reflexivity|].
  cbn [length seq]. rewrite <- seq_shift. cbn [filter].
  rewrite (filter_map_S (fun k => nth k (map P (x :: t)) false)). cbn [map nth].
  destruct (P x); cbn [map]; rewrite map_map; cbn [nth]; rewrite IH; reflexivity.
Qed.

Lemma adj2edges_eq A :
  adj2edges A = filter (fun p => negb (Qeq_bool (mget A (fst p) (snd p)) 0)) (triu (length A)).
Proof.
  unfold adj2edges. rewrite <- triu_length, map_map.
  set (ij := triu (length A)). set (P := fun p : nat * nat => negb (Qeq_bool (mget A (fst p) (snd p)) 0)).
  change (map (fun x => negb (Qeq_bool (mget A (fst x) (snd x)) 0)) ij) with (map P ij).
  destruct (where_sized_all (map P ij)) as [k E]. rewrite map_length in E. rewrite E, mask_valid.
  unfold hits. rewrite map_length. apply (filter_nth _ (0, 0)%nat P ij).
Qed.

Definition lexlt (p q : nat * nat) : Prop := (fst p < fst q \/ (fst p = fst q /\ snd p < snd q))%nat.

Lemma triu_sorted n : StronglySorted lexlt (triu n).
Proof.
  unfold triu.
  cut (forall m a, StronglySorted lexlt (flat_map (fun i => map (fun j => (i, j)) (seq (i + 1) (n - (i + 1)))) (seq a m))).
  { intros H. apply H. }
  induction m as [|m IH]; intros a; cbn [seq flat_map]; [constructor|].
  assert (R : StronglySorted lexlt (map (fun j => (a, j)) (seq (a + 1) (n - (a + 1))))).
  { generalize (n - (a + 1))%nat as k. generalize (a + 1)%nat as b. intros b k. revert b.
    induction k as [|k IHk]; intros b; cbn; constructor; auto.
    apply Forall_forall. intros q Hq. apply in_map_iff in Hq. destruct Hq as [j [<- Hj]]. apply in_seq in Hj.
    right. cbn. lia. }
  specialize (IH (S a)). revert IH R.
  assert (B : forall q, In q (flat_map (fun i => map (fun j => (i, j)) (seq (i + 1) (n - (i + 1)))) (seq (S a) m)) -> (a < fst q)%nat).
  { intros q Hq. apply in_flat_map in Hq. destruct Hq as [i [Hi Hq]]. apply in_map_iff in Hq. destruct Hq as [j [<- _]].
    apply in_seq in Hi. cbn. lia. }
  revert B. generalize (flat_map (fun i => map (fun j => (i, j)) (seq (i + 1) (n - (i + 1)))) (seq (S a) m)) as T.
  generalize (seq (a + 1) (n - (a + 1))) as js. intros js T B ST SJ.
  induction js as [|j js IHj]; cbn; [exact ST|].
  inversion SJ as [|? ? S1 F1]; subst. constructor; [apply IHj; exact S1|].
  apply Forall_app. split; [exact F1|]. apply Forall_forall. intros q Hq. left. cbn. apply B. exact Hq.
Qed.

Lemma SS_filter A (R : A -> A -> Prop) P l : StronglySorted R l -> StronglySorted R (filter P l).
Proof. apply StronglySorted_filter. Qed.

(** ** C46 *)

(** The adjacency matrix: square, symmetric, 1 exactly at the joined pairs. *)
Theorem C46_adjacency :
  forall edges num, in_range (num_of edges num) edges ->
  let A := edges2adj edges num in
  square (num_of edges num) A /\
  (forall i j, mget A i j = mget A j i) /\
  (forall i j, (joined edges i j -> mget A i j = 1) /\ (~ joined edges i j -> mget A i j = 0)).
Proof.
  intros edges num HR A. destruct (edges2adj_is edges num HR) as [S G]. fold A in S, G.
  split; [exact S|]. split; [|exact G].
  intros i j. destruct (joined_dec edges i j) as [J|J].
  - rewrite (proj1 (G i j) J). symmetry. apply G. unfold joined in *. tauto.
  - rewrite (proj2 (G i j) J). symmetry. apply G. unfold joined in *. tauto.
Qed.
Print Assumptions C46_adjacency.

(** With [num_nodes] left out every edge is in range. *)
Theorem C46_inferred_size :
  forall edges, in_range (num_of edges None) edges.
Proof. intros [|e t]; [intros e []|]. apply (max_index_range (e :: t)). Qed.
Print Assumptions C46_inferred_size.

(** The edge list of a matrix: its non-zero upper-triangle positions, each once, in
    row-major order. *)
Theorem C46_edges :
  forall A, StronglySorted lexlt (adj2edges A) /\
  (forall i j, In (i, j) (adj2edges A) <-> (i < j < length A)%nat /\ ~ mget A i j == 0).
Proof.
  intros A. rewrite adj2edges_eq. split; [apply SS_filter, triu_sorted|].
  intros i j. rewrite filter_In, triu_in. cbn [fst snd].
  rewrite negb_true_iff. split; intros [H N]; (split; [exact H|]).
  - intros E. apply Qeq_bool_iff in E. congruence.
  - destruct (Qeq_bool (mget A i j) 0) eqn:B; [|reflexivity]. apply Qeq_bool_iff in B. contradiction.
Qed.
Print Assumptions C46_edges.

(** Edges to matrix to edges: the same simple graph. *)
Theorem C46_round_trip_edges :
  forall edges num, in_range (num_of edges num) edges ->
  forall i j, In (i, j) (adj2edges (edges2adj edges num)) <-> (i < j)%nat /\ joined edges i j.
Proof.
  intros edges num HR i j. destruct (edges2adj_is edges num HR) as [[L W] G].
  rewrite (proj2 (C46_edges _)), L. split.
  - intros [H N]. split; [lia|]. destruct (joined_dec edges i j) as [J|J]; [exact J|].
    exfalso. apply N. rewrite (proj2 (G i j) J). reflexivity.
  - intros [H J]. split.
    + split; [exact H|]. destruct J as [J|J]; apply HR in J; cbn in J; lia.
    + rewrite (proj1 (G i j) J). intros E. apply Qeq_bool_iff in E. discriminate.
Qed.
Print Assumptions C46_round_trip_edges.

(** Matrix to edges to matrix: the same matrix, for a symmetric 0/1 matrix with an
    empty diagonal. *)
Theorem C46_round_trip_matrix :
  forall n A, square n A ->
  (forall i j, mget A i j = mget A j i) -> (forall i, mget A i i = 0) ->
  (forall i j, mget A i j = 0 \/ mget A i j = 1) ->
  edges2adj (adj2edges A) (Some n) = A.
Proof.
  intros n A [L W] HS HD HB.
  assert (HR : in_range n (adj2edges A)).
  { intros [i j] H. apply C46_edges in H. cbn. lia. }
  destruct (edges2adj_is (adj2edges A) (Some n) HR) as [[L' W'] G]. cbn [num_of] in *.
  set (B := edges2adj (adj2edges A) (Some n)) in *.
  apply nth_ext with (d := []) (d' := []); [congruence|]. intros i Hi. rewrite L' in Hi.
  apply nth_ext with (d := 0) (d' := 0); [rewrite W, W' by exact Hi; reflexivity|].
  intros j Hj. rewrite (W' i Hi) in Hj. change (mget B i j = mget A i j).
  assert (J : joined (adj2edges A) i j <-> ~ mget A i j == 0).
  { unfold joined. rewrite !(proj2 (C46_edges A)), (HS j i). split; [tauto|].
    intros N. destruct (Nat.lt_trichotomy i j) as [H|[H|H]]; [left; split; [lia|exact N]| |right; split; [lia|exact N]].
    subst j. rewrite HD in N. exfalso. apply N. reflexivity. }
  destruct (joined_dec (adj2edges A) i j) as [Y|N].
  - rewrite (proj1 (G i j) Y). destruct (HB i j) as [E|E]; [|now rewrite E].
    exfalso. apply J in Y. rewrite E in Y. apply Y. reflexivity.
  - rewrite (proj2 (G i j) N). destruct (HB i j) as [E|E]; [now rewrite E|].
    exfalso. apply N, J. rewrite E. intros Q. apply Qeq_bool_iff in Q. discriminate.
Qed.
Print Assumptions C46_round_trip_matrix.

(** The lattice function of a loop-free graph is the same from its edge list and
    from its adjacency matrix, at every point. *)
Theorem C46_same_lattice :
  forall x nodes edges r,
  (forall p, In p nodes -> length p = length x) -> in_range (length nodes) edges -> no_loops edges ->
  universal_graph_adj x nodes (edges2adj edges (Some (length nodes))) r = universal_graph x nodes edges r.
Proof.
  intros x nodes edges r HD HR NL.
  destruct (edges2adj_is edges (Some (length nodes)) HR) as [[L W] G]. cbn [num_of] in *.
  set (A := edges2adj edges (Some (length nodes))) in *.
  unfold universal_graph_adj, universal_graph. destruct (Qltb r 0); [reflexivity|]. rewrite L.
  assert (NE : forall i j, (i < length nodes)%nat -> (j < length nodes)%nat ->
    near_edge x nodes r i j = near_edge x nodes r j i).
  { intros i j Hi Hj.
    assert (E : near_edge x nodes r i j = true <-> near_edge x nodes r j i = true).
    { rewrite !near_edge_iff by (apply HD, nth_In; assumption). apply within_sym. }
    destruct (near_edge x nodes r i j), (near_edge x nodes r j i); intuition congruence. }
  assert (EX : existsb (fun i => existsb (fun j =>
            ((i <? j)%nat && negb (Qeq_bool (mget A i j) 0)) && near_edge x nodes r i j) (seq 0 (length nodes))) (seq 0 (length nodes)) =
          existsb (fun e => near_edge x nodes r (fst e) (snd e)) edges).
  { apply eq_true_iff_eq. rewrite !existsb_exists. split.
    - intros [i [Hi H]]. apply existsb_exists in H. destruct H as [j [Hj H]]. apply in_seq in Hi, Hj.
      apply andb_true_iff in H. destruct H as [H N]. apply andb_true_iff in H. destruct H as [H1 H2].
      apply Nat.ltb_lt in H1. apply negb_true_iff in H2.
      destruct (joined_dec edges i j) as [J|J].
      + destruct J as [J|J]; [exists (i, j); auto|exists (j, i)]. split; [exact J|]. cbn [fst snd]. rewrite NE by lia. exact N.
      + rewrite (proj2 (G i j) J) in H2. discriminate.
    - intros [[i j] [I N]]. cbn [fst snd] in N. destruct (HR _ I) as [Hi Hj]. cbn in Hi, Hj.
      assert (X : forall a b, (a < b)%nat -> (b < length nodes)%nat -> joined edges a b -> near_edge x nodes r a b = true ->
        exists i0, In i0 (seq 0 (length nodes)) /\ existsb (fun j =>
            ((i0 <? j)%nat && negb (Qeq_bool (mget A i0 j) 0)) && near_edge x nodes r i0 j) (seq 0 (length nodes)) = true).
      { intros a b Hab Hb J Nn. exists a. split; [apply in_seq; lia|]. apply existsb_exists. exists b.
        split; [apply in_seq; lia|]. rewrite (proj1 (G a b) J), Nn. rewrite (proj2 (Nat.ltb_lt a b) Hab). reflexivity. }
      destruct (Nat.lt_trichotomy i j) as [H|[H|H]].
      + apply (X i j); auto. left; exact I.
      + subst j. exfalso. apply (NL i I).
      + apply (X j i); auto; [right; exact I|]. rewrite NE by lia. exact N. }
  destruct edges as [|e t].
  - rewrite EX. reflexivity.
  - rewrite EX. reflexivity.
Qed.
Print Assumptions C46_same_lattice.

(** A self-loop (a ball around one node) is lost in the matrix form. *)
Theorem C46_self_loop_refuted :
  exists x nodes edges r, (forall p, In p nodes -> length p = length x) /\ in_range (length nodes) edges /\
  universal_graph_adj x nodes (edges2adj edges (Some (length nodes))) r <> universal_graph x nodes edges r.
Proof.
  exists [0; 0], [[0; 0]; [5; 0]], [(0, 0)%nat], 1.
  split; [intros p [<-|[<-|[]]]; reflexivity|]. split; [intros e [<-|[]]; cbn; lia|]. vm_compute. discriminate.
Qed.
Print Assumptions C46_self_loop_refuted.

Example C46_example :
  let nodes := [[0; 0]; [4; 0]; [0; 3]] in
  let edges := [(1, 0); (0, 2); (0, 1)]%nat in
  in_range 3 edges /\ no_loops edges /\
  edges2adj edges None = [[0; 1; 1]; [1; 0; 0]; [1; 0; 0]] /\
  adj2edges (edges2adj edges None) = [(0, 1); (0, 2)]%nat /\
  universal_graph [2; 1] nodes edges 1 = Some 1 /\ universal_graph [2; 1 + (1 # 2)] nodes edges 1 = Some 0 /\
  universal_graph [2; 1] nodes edges (- (1)) = None.
Proof.
  cbv zeta. split; [intros e [<-|[<-|[<-|[]]]]; cbn; lia|].
  split; [|vm_compute; auto 10].
  intros i [H|[H|[H|[]]]]; injection H; lia.
Qed.

(** ** C56: density fields *)
Lemma all_some_map A B (f : A -> option B) (g : A -> B) l :
  (forall x, In x l -> f x = Some (g x)) -> all_some (map f l) = Some (map g l).
Proof.
  induction l as [|x t IH]; intros H; [reflexivity|]. cbn [map all_some].
  rewrite (H x) by (left; reflexivity). rewrite IH by (intros; apply H; right; assumption). reflexivity.
Qed.

(** Element k of the density field is the solid density when the centroid of cell k
    is within the radius of an edge, and the void density otherwise. *)
Theorem C56_density :
  forall (nodes points : list vec) (edges : list (nat * nat)) (cells : list (list nat)) (r solid void : Q) (d : nat),
  0 <= r -> (forall p, In p nodes -> length p = d) -> in_range (length nodes) edges ->
  (forall c, In c cells -> length (centroid points c) = d) ->
  exists rho, density_field (fun x => universal_graph x nodes edges r) points cells solid void = Some rho /\
  length rho = length cells /\
  forall k, (k < length cells)%nat ->
    let x := centroid points (nth k cells []) in
    ((exists i j, In (i, j) edges /\ within r x (nth i nodes []) (nth j nodes [])) -> nth k rho 0 = solid) /\
    ((forall i j, In (i, j) edges -> ~ within r x (nth i nodes []) (nth j nodes [])) -> nth k rho 0 = void).
Proof.
  intros nodes points edges cells r solid void d Hr HD HR HC.
  set (g := fun c => if match universal_graph (centroid points c) nodes edges r with
                        | Some v => Qeq_bool v 1 | None => false end then 1 else 0).
  assert (U : forall c, In c cells -> universal_graph (centroid points c) nodes edges r = Some (g c)).
  { intros c Hc. unfold g, universal_graph. rewrite (proj2 (Qltb_ge r 0) Hr). destruct edges; [reflexivity|].
    destruct (existsb _ _); reflexivity. }
  exists (map (to_density solid void) (map g cells)). unfold density_field.
  rewrite (all_some_map _ _ (fun c => universal_graph (centroid points c) nodes edges r) g) by exact U.
  split; [reflexivity|]. split; [now rewrite !map_length|].
  intros k Hk. set (x := centroid points (nth k cells [])). rewrite map_map.
  rewrite (nth_map_in (fun c => to_density solid void (g c)) cells []) by exact Hk.
  set (c := nth k cells []) in *. assert (Ic : In c cells) by (apply nth_In; exact Hk).
  destruct (C56_membership x nodes edges r) as [_ M].
  { intros p Hp. rewrite (HD p Hp). symmetry. apply HC. exact Ic. }
  { exact HR. }
  destruct (M Hr) as [M1 M0]. specialize (U c Ic). fold x in U. split; intros Q.
  - apply M1 in Q. rewrite U in Q. injection Q as ->. reflexivity.
  - apply M0 in Q. rewrite U in Q. injection Q as ->. reflexivity.
Qed.
Print Assumptions C56_density.

(** The nodal variant evaluates at the mesh nodes. *)
Theorem C56_density_nodal :
  forall (nodes points : list vec) (edges : list (nat * nat)) (r solid void : Q) (d : nat),
  0 <= r -> (forall p, In p nodes -> length p = d) -> in_range (length nodes) edges ->
  (forall p, In p points -> length p = d) ->
  exists rho, density_field_nodal (fun x => universal_graph x nodes edges r) points solid void = Some rho /\
  length rho = length points /\
  forall k, (k < length points)%nat ->
    let x := nth k points [] in
    ((exists i j, In (i, j) edges /\ within r x (nth i nodes []) (nth j nodes [])) -> nth k rho 0 = solid) /\
    ((forall i j, In (i, j) edges -> ~ within r x (nth i nodes []) (nth j nodes [])) -> nth k rho 0 = void).
Proof.
  intros nodes points edges r solid void d Hr HD HR HC.
  set (g := fun p => if match universal_graph p nodes edges r with
                        | Some v => Qeq_bool v 1 | None => false end then 1 else 0).
  assert (U : forall p, universal_graph p nodes edges r = Some (g p)).
  { intros p. unfold g, universal_graph. rewrite (proj2 (Qltb_ge r 0) Hr). destruct edges; [reflexivity|].
    destruct (existsb _ _); reflexivity. }
  exists (map (to_density solid void) (map g points)). unfold density_field_nodal.
  rewrite (all_some_map _ _ (fun p => universal_graph p nodes edges r) g) by (intros; apply U).
  split; [reflexivity|]. split; [now rewrite !map_length|].
  intros k Hk. set (x := nth k points []). rewrite map_map.
  rewrite (nth_map_in (fun c => to_density solid void (g c)) points []) by exact Hk.
  fold x. assert (Ic : In x points) by (apply nth_In; exact Hk).
  destruct (C56_membership x nodes edges r) as [_ M].
  { intros p Hp. rewrite (HD p Hp). symmetry. apply HC. exact Ic. }
  { exact HR. }
  destruct (M Hr) as [M1 M0]. specialize (U x). split; intros Q.
  - apply M1 in Q. rewrite U in Q. injection Q as ->. reflexivity.
  - apply M0 in Q. rewrite U in Q. injection Q as ->. reflexivity.
Qed.
Print Assumptions C56_density_nodal.

Example C56_example :
  density_field (fun x => universal_graph x [[0; 0]; [4; 0]] [(0, 1)%nat] 1)
    [[0; 0]; [2; 0]; [2; 2]; [0; 2]; [0; 4]; [2; 4]] [[0; 1; 2; 3]; [3; 2; 5; 4]]%nat 1 (1 # 100) = Some [1; 1 # 100].
Proof. vm_compute. reflexivity. Qed.
