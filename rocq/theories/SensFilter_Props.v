(** C50: the band sensitivity filter is the full-grid filter. *)
From Coq Require Import List Bool Arith ZArith QArith Qminmax Qabs Qround Lia Lqa Sorted Permutation.
From Verif Require Import Base ZArr Grid_Model Grid_Proofs Graph_Model Oc_Model Oc_Props Filter_Model NbLoop_Props.
Import ListNotations.
Open Scope Q_scope.

(** ** Specification vocabulary *)
(** Square roots are exact enough to be at least k on numbers of at least k^2. *)
Definition sqrt_ok (sq : Z -> Q) : Prop := forall k n, (0 <= k)%Z -> (k * k <= n)%Z -> inject_Z k <= sq n.
(** The cone weight of two cells: rmin minus their centre distance in cell widths. *)
Definition cone (g : grid) (sq : Z -> Q) (rmin : Q) (e c : Z) : Q :=
  let '(x, y, z) := cell_ijk g e in let '(x', y', z') := cell_ijk g c in
  Qmax 0 (rmin - sq ((x' - x) * (x' - x) + (y' - y) * (y' - y) + (z' - z) * (z' - z))%Z).
(** Sum over all cells of the grid. *)
Definition over_grid (g : grid) (f : Z -> Q) : Q := fold_right Qplus 0 (map f (arangeZ (num_cells g))).
(** The full-grid formula at a cell e. *)
Definition full_filter (g : grid) (sq : Z -> Q) (rmin : Q) (R D : Z -> Q) (e : Z) : Q :=
  over_grid g (fun c => cone g sq rmin e c * (R c * D c)) /
  (over_grid g (fun c => cone g sq rmin e c) * Qmax (1 # 1000) (R e) + (1 # 10 ^ 30)).

(** ** Sums *)
Lemma sumQ_perm l l' : Permutation l l' -> sumQ l == sumQ l'.
Proof. induction 1; cbn; try lra. unfold sumQ in *; lra. Qed.
Lemma sumQ_ext {A} (f h : A -> Q) l : (forall a, In a l -> f a == h a) -> sumQ (map f l) == sumQ (map h l).
Proof.
  induction l as [|a l IH]; intros H; cbn; [lra|]. fold (sumQ (map f l)). fold (sumQ (map h l)).
  rewrite (H a (or_introl eq_refl)), IH; [lra|]. intros b Hb. apply H. right. exact Hb.
Qed.
Lemma sumQ_filter {A} (p : A -> bool) (f : A -> Q) l : (forall a, In a l -> p a = false -> f a == 0) -> sumQ (map f l) == sumQ (map f (filter p l)).
Proof.
  induction l as [|a l IH]; intros H; cbn; [lra|]. fold (sumQ (map f l)).
  assert (I := IH (fun b Hb => H b (or_intror Hb))). destruct (p a) eqn:E; cbn; fold (sumQ (map f (filter p l))).
  - rewrite I. lra.
  - rewrite (H a (or_introl eq_refl) E), I. lra.
Qed.
Lemma NoDup_app_intro {A} (l m : list A) : NoDup l -> NoDup m -> (forall x, In x l -> ~ In x m) -> NoDup (l ++ m).
Proof.
  intros L M. induction L as [|a l N L IH]; intros D; cbn; [exact M|]. constructor.
  - rewrite in_app_iff. intros [H|H]; [exact (N H)|exact (D a (or_introl eq_refl) H)].
  - apply IH. intros x Hx. apply D. right. exact Hx.
Qed.
Lemma NoDup_flat_map {A B} (f : A -> list B) l : NoDup l -> (forall a, In a l -> NoDup (f a)) ->
  (forall a b x, In a l -> In b l -> In x (f a) -> In x (f b) -> a = b) -> NoDup (flat_map f l).
Proof.
  induction l as [|a l IH]; intros N F D; cbn; [constructor|]. inversion N as [|? ? N1 N2]; subst.
  apply NoDup_app_intro.
  - apply F. left. reflexivity.
  - apply IH; [exact N2|intros b Hb; apply F; right; exact Hb|]. intros b c x Hb Hc. apply D; right; assumption.
  - intros x Hx Hy. apply in_flat_map in Hy. destruct Hy as (b & Hb & Hy). apply N1.
    rewrite (D a b x (or_introl eq_refl) (or_intror Hb) Hx Hy). exact Hb.
Qed.
Lemma NoDup_map_on {A B} (f : A -> B) l : NoDup l -> (forall a b, In a l -> In b l -> f a = f b -> a = b) -> NoDup (map f l).
Proof.
  induction 1 as [|a l N L IH]; intros I; cbn; constructor.
  - intros H. apply in_map_iff in H. destruct H as (b & E & Hb). apply N. rewrite <- (I b a (or_intror Hb) (or_introl eq_refl) E). exact Hb.
  - apply IH. intros b c Hb Hc. apply I; right; assumption.
Qed.
Lemma NoDup_arangeZ n : NoDup (arangeZ n).
Proof. apply StronglySortedZ_NoDup, arangeZ_sorted. Qed.
Lemma NoDup_rangeZ a b : NoDup (rangeZ a b).
Proof. unfold rangeZ. apply NoDup_map_on; [apply NoDup_arangeZ|]. intros; lia. Qed.

Section Reindex.
  Variable g : grid.
  Variable sq : Z -> Q.
  Variable rmin : Q.
  Hypothesis SQ : sqrt_ok sq.

  Lemma offs_in di dj dk : In (di, dj, dk) (offs rmin) <->
    (Z.abs di <= sens_r rmin /\ Z.abs dj <= sens_r rmin /\ Z.abs dk <= sens_r rmin)%Z.
  Proof using.
    clear. unfold offs. rewrite in_flat_map. split.
    - intros (a & Ha & H). apply in_flat_map in H. destruct H as (b & Hb & H). apply in_map_iff in H. destruct H as (c & E & Hc).
      injection E as <- <- <-. apply rangeZ_in in Ha, Hb, Hc. lia.
    - intros (A & B & C). exists di. split; [apply rangeZ_in; lia|]. apply in_flat_map. exists dj. split; [apply rangeZ_in; lia|].
      apply in_map_iff. exists dk. split; [reflexivity|apply rangeZ_in; lia].
  Qed.
  Lemma offs_nodup : NoDup (offs rmin).
  Proof using.
    clear. unfold offs. apply NoDup_flat_map; [apply NoDup_rangeZ| |].
    - intros a _. apply NoDup_flat_map; [apply NoDup_rangeZ| |].
      + intros b _. apply NoDup_map_on; [apply NoDup_rangeZ|]. intros c d _ _ E. injection E. auto.
      + intros b c x _ _ H1 H2. apply in_map_iff in H1, H2. destruct H1 as (u & <- & _), H2 as (v & E & _). injection E. congruence.
    - intros a b x _ _ H1 H2. apply in_flat_map in H1, H2. destruct H1 as (u & _ & H1), H2 as (v & _ & H2).
      apply in_map_iff in H1, H2. destruct H1 as (s & <- & _), H2 as (t & E & _). injection E. congruence.
  Qed.

  Lemma far_zero d n : (sens_r rmin < Z.abs d)%Z -> (d * d <= n)%Z -> Qmax 0 (rmin - sq n) == 0.
  Proof.
    intros D N. unfold sens_r in D. assert (K := SQ (Z.abs d) n ltac:(lia) ltac:(nia)).
    assert (C := Qle_ceiling rmin). assert (L : inject_Z (Qceiling rmin) <= inject_Z (Z.abs d)) by (rewrite <- Zle_Qle; lia).
    apply Q.max_l. lra.
  Qed.

  Definition inb_off (e : Z) (o : ijk) : bool :=
    let '(x, y, z) := cell_ijk g e in let '(a, b, c) := o in in_bounds g (x + a) (y + b) (z + c).
  Definition cell_off (e : Z) (o : ijk) : Z :=
    let '(x, y, z) := cell_ijk g e in let '(a, b, c) := o in cell_id g (x + a) (y + b) (z + c).

  Lemma reindex (e : Z) (G : Z -> Q) : sane_grid g -> in_grid g e ->
    sumQ (map (fun o => if inb_off e o then w0 sq rmin o * G (cell_off e o) else 0) (offs rmin)) ==
    over_grid g (fun c => cone g sq rmin e c * G c).
  Proof.
    intros S He. assert (Pos : (0 < nx g /\ 0 < ny g /\ 0 < nz g)%Z) by (unfold sane_grid in S; lia).
    destruct (cell_id_ijk g Pos e He) as (x & y & z & E & I & X & Y & Z).
    rewrite (sumQ_filter (inb_off e)). 2: { intros o _ H. rewrite H. lra. }
    set (near := fun c => let '(x', y', z') := cell_ijk g c in
       ((Z.abs (x' - x) <=? sens_r rmin) && (Z.abs (y' - y) <=? sens_r rmin) && (Z.abs (z' - z) <=? sens_r rmin))%Z%bool).
    unfold over_grid. fold (sumQ (map (fun c => cone g sq rmin e c * G c) (arangeZ (num_cells g)))).
    rewrite (sumQ_filter near).
    2: { intros c Hc H. apply arangeZ_in in Hc. destruct (cell_id_ijk g Pos c Hc) as (a & b & d & Ec & _).
         unfold near in H. rewrite Ec in H. unfold cone. rewrite E, Ec.
         assert (Z0 : Qmax 0 (rmin - sq ((a - x) * (a - x) + (b - y) * (b - y) + (d - z) * (d - z))%Z) == 0); [|rewrite Z0; ring].
         apply andb_false_iff in H. rewrite andb_false_iff in H. rewrite !Z.leb_gt in H. destruct H as [[H|H]|H];
           apply (far_zero _ _ H); pose proof (Z.square_nonneg (a - x)); pose proof (Z.square_nonneg (b - y)); pose proof (Z.square_nonneg (d - z)); lia. }
    assert (P : Permutation (map (cell_off e) (filter (inb_off e) (offs rmin))) (filter near (arangeZ (num_cells g)))).
    { apply NoDup_Permutation.
      - apply NoDup_map_on; [apply NoDup_filter, offs_nodup|]. intros [[a b] c] [[a' b'] c'] H1 H2 Q.
        apply filter_In in H1, H2. destruct H1 as [_ H1], H2 as [_ H2]. unfold inb_off, cell_off in *. rewrite E in *.
        apply in_bounds_iff in H1, H2.
        destruct (cell_ijk_id g (x + a) (y + b) (z + c)) as [Q1 _]; try tauto.
        destruct (cell_ijk_id g (x + a') (y + b') (z + c')) as [Q2 _]; try tauto. rewrite Q, Q2 in Q1. injection Q1 as K1 K2 K3.
        repeat f_equal; lia.
      - apply NoDup_filter, NoDup_arangeZ.
      - intros c. rewrite in_map_iff, filter_In, arangeZ_in. split.
        + intros ([[a b] d] & Q & H). apply filter_In in H. destruct H as [H1 H2]. apply offs_in in H1. unfold inb_off, cell_off in *. rewrite E in *.
          apply in_bounds_iff in H2. destruct (cell_ijk_id g (x + a) (y + b) (z + d)) as [Q1 Q2]; try tauto. rewrite Q in *. split; [exact Q2|].
          unfold near. rewrite Q1. rewrite !andb_true_iff, !Z.leb_le. lia.
        + intros [Hc H]. destruct (cell_id_ijk g Pos c Hc) as (a & b & d & Ec & Ic & A & B & C). unfold near in H. rewrite Ec in H.
          rewrite !andb_true_iff, !Z.leb_le in H. exists (a - x, b - y, d - z)%Z. split.
          * unfold cell_off. rewrite E. rewrite <- Ic. f_equal; lia.
          * apply filter_In. split; [apply offs_in; lia|]. unfold inb_off. rewrite E. apply in_bounds_iff. lia. }
    rewrite <- (sumQ_perm _ _ (Permutation_map (fun c => cone g sq rmin e c * G c) P)). rewrite map_map.
    apply sumQ_ext. intros [[a b] c] H. apply filter_In in H. destruct H as [_ H]. rewrite H. unfold inb_off in H. rewrite E in H.
    apply in_bounds_iff in H. unfold cone, cell_off, w0. rewrite E. destruct (cell_ijk_id g (x + a) (y + b) (z + c)) as [Q1 _]; try tauto.
    rewrite Q1. replace (x + a - x)%Z with a by lia. replace (y + b - y)%Z with b by lia. replace (z + c - z)%Z with c by lia. lra.
  Qed.
End Reindex.

Lemma nth_pad (l : list Q) i : nth i (l ++ [0]) 0 = nth i l 0.
Proof.
  destruct (Nat.lt_ge_cases i (length l)); [apply app_nth1; assumption|]. rewrite app_nth2 by assumption.
  rewrite (nth_overflow l) by assumption. destruct (i - length l)%nat as [|[|k]]; reflexivity.
Qed.
Lemma clipZ_id v n : (0 <= v < n)%Z -> clipZ v 0 (n - 1) = v.
Proof. unfold clipZ. lia. Qed.

(** The loop over the offsets adds up the sums of the formula. *)
Lemma sens_fold g sq rmin active R D e : StronglySorted Z.lt active -> (forall c, In c active -> in_grid g c) ->
  (forall c, in_grid g c -> ~ In c active -> R c * D c == 0) ->
  forall l acc, let r := fold_left (sens_step g sq rmin active (map R active ++ [0]) (map D active ++ [0]) e) l acc in
  fst r == fst acc + sumQ (map (fun o => if inb_off g e o then w0 sq rmin o * (R (cell_off g e o) * D (cell_off g e o)) else 0) l) /\
  snd r == snd acc + sumQ (map (fun o => if inb_off g e o then w0 sq rmin o * 1 else 0) l).
Proof.
  intros S A OUT. induction l as [|o l IH]; intros acc r; [cbn; split; lra|].
  cbn [fold_left] in r. subst r. destruct (IH (sens_step g sq rmin active (map R active ++ [0]) (map D active ++ [0]) e acc o)) as [I1 I2].
  cbv zeta in I1, I2. set (r := fold_left _ l _) in *. rewrite I1, I2. cbn [map sumQ fold_right].
  fold (sumQ (map (fun o => if inb_off g e o then w0 sq rmin o * (R (cell_off g e o) * D (cell_off g e o)) else 0) l)).
  fold (sumQ (map (fun o => if inb_off g e o then w0 sq rmin o * 1 else 0) l)). clear I1 I2 IH r.
  unfold sens_step. destruct (Qle_bool (w0 sq rmin o) 0) eqn:W.
  - apply Qle_bool_iff in W. assert (W0 : w0 sq rmin o == 0).
    { destruct o as [[a b] c]. unfold w0 in *. apply Qle_antisym; [exact W|apply Q.le_max_l]. }
    destruct (inb_off g e o); rewrite ?W0; split; lra.
  - destruct o as [[a b] c]. unfold inb_off, cell_off. destruct (cell_ijk g e) as [[x y] z].
    destruct (in_bounds g (x + a) (y + b) (z + c)) eqn:IB; cbn [andb fst snd].
    + pose proof IB as IB'. apply in_bounds_iff in IB'. rewrite !clipZ_id by tauto.
      destruct (cell_ijk_id g (x + a) (y + b) (z + c)) as [_ CI]; try tauto. set (c0 := cell_id g (x + a) (y + b) (z + c)) in *.
      set (pos := Nat.min _ _). rewrite !nth_pad. split; [|lra].
      assert (Q : nth (if Z.eqb (nth pos active 0%Z) c0 then pos else length active) (map R active) 0 *
                  nth (if Z.eqb (nth pos active 0%Z) c0 then pos else length active) (map D active) 0 == R c0 * D c0).
      { destruct (in_dec Z.eq_dec c0 active) as [IN|NI].
        - destruct (searchsortedZ_hit active c0 S IN) as [B E]. replace pos with (searchsortedZ active c0) by (unfold pos; lia).
          rewrite E, Z.eqb_refl. rewrite !(nth_indep _ 0 (R 0%Z)), map_nth by (rewrite map_length; exact B). rewrite E.
          rewrite (nth_indep _ (R 0%Z) (D 0%Z)), map_nth by (rewrite map_length; exact B). rewrite E. lra.
        - rewrite (OUT c0 CI NI). destruct (Z.eqb_spec (nth pos active 0%Z) c0) as [E|E].
          + destruct (Nat.lt_ge_cases pos (length active)) as [LT|GE].
            * exfalso. apply NI. rewrite <- E. apply nth_In. exact LT.
            * rewrite nth_overflow by (rewrite map_length; exact GE). lra.
          + rewrite nth_overflow by (rewrite map_length; lia). lra. }
      set (u := nth _ (map R active) 0) in *. set (v := nth _ (map D active) 0) in *.
      assert (QW : w0 sq rmin (a, b, c) * u * v == w0 sq rmin (a, b, c) * (R c0 * D c0)) by (rewrite <- Q; ring). rewrite QW. lra.
    + rewrite !nth_pad. rewrite (nth_overflow (map R active)) by (rewrite map_length; lia). split; lra.
Qed.

(** On every active cell the filter gives the full-grid value, for densities and
    sensitivities whose product vanishes outside the band. *)
Theorem C50_full_grid :
  forall g sq rmin active R D,
  sane_grid g -> sqrt_ok sq -> StronglySorted Z.lt active -> (forall c, In c active -> in_grid g c) ->
  (forall c, in_grid g c -> ~ In c active -> R c * D c == 0) ->
  let out := sens_filter g sq rmin active (map R active) (map D active) in
  length out = length active /\
  forall k, (k < length active)%nat -> nth k out 0 == full_filter g sq rmin R D (nth k active 0%Z).
Proof.
  intros g sq rmin active R D SG SQ S A OUT out. unfold out, sens_filter.
  assert (LC : length (combine active (map R active)) = length active) by (rewrite combine_length, map_length; lia).
  split; [rewrite map_length; exact LC|]. intros k Hk. set (e := nth k active 0%Z).
  assert (He : in_grid g e) by (apply A, nth_In; exact Hk).
  set (F := fun er => _). rewrite (nth_indep _ 0 (F (0%Z, R 0%Z))) by (rewrite map_length, LC; exact Hk). rewrite map_nth.
  rewrite combine_nth by (rewrite map_length; reflexivity). rewrite map_nth. fold e. unfold F. cbn [fst snd].
  destruct (sens_fold g sq rmin active R D e S A OUT (offs rmin) (0, 0)) as [P1 P2]. cbn [fst snd] in P1, P2.
  destruct (fold_left _ (offs rmin) (0, 0)) as [num hs]. cbn [fst snd] in P1, P2.
  rewrite (reindex g sq rmin SQ e (fun c => R c * D c) SG He) in P1. rewrite (reindex g sq rmin SQ e (fun _ => 1) SG He) in P2.
  unfold full_filter. rewrite P1, P2. rewrite !Qplus_0_l.
  assert (W : over_grid g (fun c => cone g sq rmin e c * 1) == over_grid g (fun c => cone g sq rmin e c)).
  { apply sumQ_ext. intros c _. ring. }
  rewrite W. reflexivity.
Qed.
Print Assumptions C50_full_grid.

(** Cells further than rmin do not contribute, whatever they hold. *)
Theorem C50_support :
  forall g sq rmin active R D R' D' k,
  sane_grid g -> sqrt_ok sq -> StronglySorted Z.lt active -> (forall c, In c active -> in_grid g c) -> (k < length active)%nat ->
  (forall c, in_grid g c -> ~ In c active -> R c * D c == 0 /\ R' c * D' c == 0) ->
  let e := nth k active 0%Z in
  R e == R' e -> (forall c, in_grid g c -> 0 < cone g sq rmin e c -> R c * D c == R' c * D' c) ->
  nth k (sens_filter g sq rmin active (map R active) (map D active)) 0 ==
  nth k (sens_filter g sq rmin active (map R' active) (map D' active)) 0.
Proof.
  intros g sq rmin active R D R' D' k SG SQ S A Hk OUT e RE H.
  destruct (C50_full_grid g sq rmin active R D SG SQ S A (fun c G N => proj1 (OUT c G N))) as [_ K1].
  destruct (C50_full_grid g sq rmin active R' D' SG SQ S A (fun c G N => proj2 (OUT c G N))) as [_ K2].
  rewrite (K1 k Hk), (K2 k Hk). fold e. unfold full_filter. rewrite RE.
  assert (Q : over_grid g (fun c => cone g sq rmin e c * (R c * D c)) == over_grid g (fun c => cone g sq rmin e c * (R' c * D' c))).
  { apply sumQ_ext. intros c Hc. apply arangeZ_in in Hc. destruct (Qlt_le_dec 0 (cone g sq rmin e c)) as [P|P].
    - rewrite (H c Hc P). lra.
    - assert (Z0 : cone g sq rmin e c == 0).
      { apply Qle_antisym; [exact P|]. unfold cone. destruct (cell_ijk g e) as [[? ?] ?], (cell_ijk g c) as [[? ?] ?]. apply Q.le_max_l. }
      rewrite Z0. lra. }
  rewrite Q. reflexivity.
Qed.
Print Assumptions C50_support.

Lemma cone_nonneg g sq rmin e c : 0 <= cone g sq rmin e c.
Proof. unfold cone. destruct (cell_ijk g e) as [[? ?] ?], (cell_ijk g c) as [[? ?] ?]. apply Q.le_max_l. Qed.
Lemma sumQ_nonneg {A} (f : A -> Q) l : (forall a, In a l -> 0 <= f a) -> 0 <= sumQ (map f l).
Proof.
  induction l as [|a l IH]; intros H; cbn; [lra|]. fold (sumQ (map f l)).
  assert (I := IH (fun b Hb => H b (or_intror Hb))). specialize (H a (or_introl eq_refl)). lra.
Qed.
Lemma sumQ_ge {A} (f : A -> Q) l a : (forall b, 0 <= f b) -> In a l -> f a <= sumQ (map f l).
Proof.
  intros N. induction l as [|b l IH]; intros IN; [destruct IN|]. cbn. fold (sumQ (map f l)). destruct IN as [->|IN].
  - assert (0 <= sumQ (map f l)) by (apply sumQ_nonneg; intros; apply N). lra.
  - specialize (IH IN). specialize (N b). lra.
Qed.
Lemma sumQ_scale {A} (f : A -> Q) k l : sumQ (map (fun a => f a * k) l) == sumQ (map f l) * k.
Proof. induction l as [|a l IH]; cbn; [lra|]. fold (sumQ (map f l)). fold (sumQ (map (fun a => f a * k) l)). rewrite IH. lra. Qed.

(** Filtering keeps the sign: non-positive sensitivities stay non-positive. *)
Theorem C50_sign :
  forall g sq rmin active R D,
  sane_grid g -> sqrt_ok sq -> StronglySorted Z.lt active -> (forall c, In c active -> in_grid g c) ->
  (forall c, in_grid g c -> ~ In c active -> R c * D c == 0) ->
  (forall c, in_grid g c -> 0 <= R c /\ D c <= 0) ->
  forall k, (k < length active)%nat -> nth k (sens_filter g sq rmin active (map R active) (map D active)) 0 <= 0.
Proof.
  intros g sq rmin active R D SG SQ S A OUT SGN k Hk.
  destruct (C50_full_grid g sq rmin active R D SG SQ S A OUT) as [_ K]. rewrite (K k Hk). unfold full_filter.
  set (e := nth k active 0%Z).
  assert (H0 : 0 <= over_grid g (fun c => cone g sq rmin e c)) by (apply sumQ_nonneg; intros; apply cone_nonneg).
  assert (N0 : over_grid g (fun c => cone g sq rmin e c * (R c * D c)) <= 0).
  { assert (P : 0 <= over_grid g (fun c => cone g sq rmin e c * (R c * D c) * -1)).
    { apply sumQ_nonneg. intros c Hc. apply arangeZ_in in Hc. destruct (SGN c Hc) as [S1 S2]. assert (C := cone_nonneg g sq rmin e c).
      assert (M : 0 <= R c * - D c) by (apply Qmult_le_0_compat; lra).
      assert (M2 := Qmult_le_0_compat _ _ C M). lra. }
    unfold over_grid in P at 1. fold (sumQ (map (fun c => cone g sq rmin e c * (R c * D c) * -1) (arangeZ (num_cells g)))) in P.
    rewrite sumQ_scale in P. unfold over_grid. unfold sumQ in P. lra. }
  assert (M0 : 1 # 1000 <= Qmax (1 # 1000) (R e)) by apply Q.le_max_l.
  assert (PD : 0 < over_grid g (fun c => cone g sq rmin e c) * Qmax (1 # 1000) (R e) + (1 # 10 ^ 30)).
  { assert (0 <= over_grid g (fun c => cone g sq rmin e c) * Qmax (1 # 1000) (R e)) by (apply Qmult_le_0_compat; lra).
    assert (T : 0 < 1 # 10 ^ 30) by reflexivity. generalize dependent (1 # 10 ^ 30). intros. lra. }
  apply Qle_shift_div_r; [exact PD|]. rewrite Qmult_0_l. exact N0.
Qed.
Print Assumptions C50_sign.

(** A uniform design with a uniform sensitivity is reproduced, up to the guard against
    division by zero, when the whole grid is active. *)
Theorem C50_uniform :
  forall g sq rmin r d,
  sane_grid g -> sqrt_ok sq -> sq 0%Z == 0 -> 0 < rmin -> 1 # 1000 <= r ->
  forall k, (k < Z.to_nat (num_cells g))%nat ->
  exists H, rmin <= H /\
  nth k (sens_filter g sq rmin (arangeZ (num_cells g)) (map (fun _ => r) (arangeZ (num_cells g))) (map (fun _ => d) (arangeZ (num_cells g)))) 0
    * (1 + (1 # 10 ^ 30) / (H * r)) == d.
Proof.
  intros g sq rmin r d SG SQ S0 RM R0 k Hk. set (act := arangeZ (num_cells g)).
  assert (Lk : (k < length act)%nat) by (unfold act; rewrite arangeZ_length; exact Hk).
  destruct (C50_full_grid g sq rmin act (fun _ => r) (fun _ => d) SG SQ (arangeZ_sorted _)) as [_ K].
  { intros c Hc. apply arangeZ_in. exact Hc. } { intros c G N. exfalso. apply N, arangeZ_in, G. }
  specialize (K k Lk). set (e := nth k act 0%Z) in *. unfold full_filter in K.
  set (H := over_grid g (fun c => cone g sq rmin e c)) in *. exists H.
  assert (He : in_grid g e). { apply arangeZ_in. apply nth_In. exact Lk. }
  assert (HR : rmin <= H).
  { assert (C : cone g sq rmin e e == rmin).
    { unfold cone. destruct (cell_ijk g e) as [[x y] z]. rewrite !Z.sub_diag. cbn [Z.mul Z.add].
      rewrite Q.max_r; rewrite S0; lra. }
    rewrite <- C. unfold H, over_grid. apply (sumQ_ge (fun c => cone g sq rmin e c)); [intros; apply cone_nonneg|]. apply arangeZ_in. exact He. }
  split; [exact HR|].
  assert (N : over_grid g (fun c => cone g sq rmin e c * (r * d)) == H * (r * d)) by (apply (sumQ_scale (fun c => cone g sq rmin e c))).
  rewrite N in K. rewrite K. clear K N. clearbody H. assert (MX : Qmax (1 # 1000) r == r) by (apply Q.max_r; exact R0). rewrite MX.
  assert (P1 : 0 < H * r) by (apply Qmult_lt_0_compat; lra).
  assert (T : 0 < 1 # 10 ^ 30) by reflexivity. generalize dependent (1 # 10 ^ 30). intros t T.
  assert (A1 : ~ H == 0) by lra. assert (A2 : ~ r == 0) by lra. assert (A3 : ~ H * r + t == 0) by (intros Z0; lra). field. auto.
Qed.
Print Assumptions C50_uniform.

(** A radius of at most zero silences the sensitivities altogether. *)
Theorem C50_no_radius :
  forall g sq rmin active rho dc k, rmin <= 0 -> nth k (sens_filter g sq rmin active rho dc) 0 == 0.
Proof.
  intros g sq rmin active rho dc k H. unfold sens_filter.
  assert (O : offs rmin = []).
  { destruct (offs rmin) as [|[[a b] c] l] eqn:E; [reflexivity|]. exfalso.
    assert (I : In (a, b, c) (offs rmin)) by (rewrite E; left; reflexivity). apply offs_in in I. unfold sens_r in I.
    assert (Qceiling rmin <= Qceiling 0)%Z by (apply Qceiling_resp_le; exact H). change (Qceiling 0) with 0%Z in *. lia. }
  rewrite O. cbn [fold_left]. revert k. induction (combine active rho) as [|a l IH]; intros [|k]; cbn; try lra; [|apply IH].
  unfold Qdiv. ring.
Qed.
Print Assumptions C50_no_radius.

(** The active cells must be sorted: otherwise neighbours are lost. *)
Theorem C50_unsorted_refuted :
  exists g sq rmin active R D k,
  sane_grid g /\ sqrt_ok sq /\ NoDup active /\ (forall c, In c active <-> in_grid g c) /\ (k < length active)%nat /\
  ~ nth k (sens_filter g sq rmin active (map R active) (map D active)) 0 == full_filter g sq rmin R D (nth k active 0%Z).
Proof.
  exists (Build_grid 3 1 1 (1, 1, 1) (0, 0, 0)), (fun n => inject_Z (Z.sqrt n)), (3 # 2), [2; 1; 0]%Z, (fun _ => 1), (fun _ => - (1)), 1%nat.
  split; [unfold sane_grid; cbn; lia|]. split.
  { intros k n K N. rewrite <- Zle_Qle. rewrite <- (Z.sqrt_square k K). apply Z.sqrt_le_mono. exact N. }
  split; [repeat constructor; cbn; lia|]. split; [intros c; unfold in_grid; cbn; lia|]. split; [cbn; lia|].
  vm_compute. discriminate.
Qed.
Print Assumptions C50_unsorted_refuted.

(** A band of three cells in a row of five, with the middle cell at the band's edge. *)
Example C50_example :
  let g := Build_grid 5 1 1 (1, 1, 1) (0, 0, 0) in
  let sq := fun n => inject_Z (Z.sqrt n) in
  let R := fun c => if (c <? 3)%Z then 1 # 2 else 0 in let D := fun c => inject_Z (- (c + 1)) in
  sane_grid g /\ sqrt_ok sq /\
  (forall c, in_grid g c -> ~ In c [0; 1; 2]%Z -> R c * D c == 0) /\
  map (fun p => Qeq_bool (fst p) (snd p)) (combine (sens_filter g sq 2 [0; 1; 2]%Z (map R [0; 1; 2]%Z) (map D [0; 1; 2]%Z))
    (map (full_filter g sq 2 R D) [0; 1; 2]%Z)) = [true; true; true] /\
  full_filter g sq 2 R D 2%Z < - (3 # 2) < full_filter g sq 2 R D 0%Z.
Proof.
  intros g sq R D. split; [unfold sane_grid; cbn; lia|]. split.
  { intros k n K N. unfold sq. rewrite <- Zle_Qle. rewrite <- (Z.sqrt_square k K). apply Z.sqrt_le_mono. exact N. }
  split; [|vm_compute; auto]. intros c G N. unfold R. destruct (Z.ltb_spec c 3); [|lra].
  exfalso. apply N. unfold in_grid in G. cbn in G |- *. lia.
Qed.
