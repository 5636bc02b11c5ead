From Verif Require Import Base Pbc_Model Pbc_Spec.
From Coq Require Import ZArith ZifyBool ZifyNat.
Local Open Scope list_scope. Local Open Scope nat_scope.
Set Implicit Arguments.

(** ** Counting *)
Section Rank.
  Variable free : nat -> bool.
  Definition rank (i : nat) : nat := length (filter free (seq 0 i)).

  Lemma rank_S i : rank (S i) = rank i + (if free i then 1 else 0).
  Proof.
    unfold rank. rewrite seq_S, filter_app, app_length. cbn. destruct (free i); reflexivity.
  Qed.
  Lemma rank_le i j : i <= j -> rank i <= rank j.
  Proof. induction 1; [lia|]. rewrite rank_S. lia. Qed.
  Lemma rank_lt i j : i < j -> free i = true -> rank i < rank j.
  Proof.
    intros H F. assert (H1 := rank_le (i := S i) (j := j)). rewrite rank_S, F in H1. lia.
  Qed.
  Lemma rank_inj i j : free i = true -> free j = true -> rank i = rank j -> i = j.
  Proof.
    intros Hi Hj E. destruct (Nat.lt_trichotomy i j) as [H|[H|H]]; [|exact H|].
    - apply (rank_lt H) in Hi. lia.
    - apply (rank_lt H) in Hj. lia.
  Qed.
  Lemma rank_surj N c : c < rank N -> exists i, i < N /\ free i = true /\ rank i = c.
  Proof.
    induction N as [|N IH]; intros H; [cbn in H; lia|].
    destruct (Nat.lt_ge_cases c (rank N)) as [Hc|Hc].
    - destruct (IH Hc) as (i & ? & ? & ?). exists i. auto with arith.
    - exists N. rewrite rank_S in H. destruct (free N) eqn:F; [|lia]. repeat split; auto; lia.
  Qed.
End Rank.

Lemma nth_scatter_set_some A (iv : list (nat * A)) base i d :
  i < length base -> In i (map fst iv) ->
  exists v, In (i, v) iv /\ nth i (scatter_set base iv) d = v.
Proof.
  revert base. induction iv as [|[k v] t IH]; intros base Hi Hin; [destruct Hin|].
  change (scatter_set base ((k, v) :: t)) with (scatter_set (upd base k v) t).
  destruct (in_dec Nat.eq_dec i (map fst t)) as [H|H].
  - destruct (IH (upd base k v)) as (w & Hw & E); [rewrite upd_length; exact Hi | exact H|].
    exists w. split; [right; exact Hw | exact E].
  - destruct Hin as [E|Hin]; [|contradiction]. cbn in E. subst k. exists v. split; [left; reflexivity|].
    rewrite nth_scatter_set_notin by exact H. rewrite nth_upd, Nat.eqb_refl. cbn.
    destruct (Nat.ltb_spec i (length base)); [reflexivity|lia].
Qed.

Lemma NoDup_app_iff A (l1 l2 : list A) :
  NoDup (l1 ++ l2) <-> NoDup l1 /\ NoDup l2 /\ (forall x, In x l1 -> ~ In x l2).
Proof.
  induction l1 as [|a l1 IH]; cbn.
  - split; [intros H; repeat split; auto; constructor | tauto].
  - split.
    + intros H. inversion H as [|? ? Hn Hd]; subst. apply IH in Hd. destruct Hd as (H1 & H2 & H3).
      rewrite in_app_iff in Hn. repeat split; auto.
      * constructor; tauto.
      * intros x [<-|Hx]; [tauto|auto].
    + intros (H1 & H2 & H3). inversion H1 as [|? ? Hn Hd]; subst. constructor.
      * rewrite in_app_iff. intros [H|H]; [tauto|]. apply (H3 a); auto.
      * apply IH. repeat split; auto.
Qed.

Lemma NoDup_flat_map_iff X (f : X -> list nat) l :
  NoDup (flat_map f l) <->
  (forall x, In x l -> NoDup (f x)) /\
  (forall i j x y v, nth_error l i = Some x -> nth_error l j = Some y -> In v (f x) -> In v (f y) -> i = j).
Proof.
  induction l as [|a l IH]; cbn.
  - split; [|constructor]. intros _. split; [tauto|]. intros [|i] j x y v; discriminate.
  - rewrite NoDup_app_iff, IH. split.
    + intros (H1 & (H2 & H3) & H4). split.
      * intros x [<-|Hx]; auto.
      * intros [|i] [|j] x y v E1 E2 V1 V2; cbn in *; auto.
        -- inversion E1; subst. exfalso. apply (H4 v V1). apply in_flat_map.
           exists y. split; [apply nth_error_In with j; exact E2 | exact V2].
        -- inversion E2; subst. exfalso. apply (H4 v V2). apply in_flat_map.
           exists x. split; [apply nth_error_In with i; exact E1 | exact V1].
        -- f_equal. apply (H3 i j x y v); assumption.
    + intros (H1 & H2). repeat split; auto.
      * intros i j x y v E1 E2 V1 V2. assert (S i = S j); [|lia]. apply (H2 (S i) (S j) x y v); assumption.
      * intros v V1 V2. apply in_flat_map in V2. destruct V2 as (y & Hy & V2).
        apply In_nth_error in Hy. destruct Hy as [j Hj].
        assert (0 = S j); [|lia]. apply (H2 0 (S j) a y v); auto.
Qed.

Lemma all_some_map X Y (f : X -> option Y) (g : X -> Y) l :
  (forall x, In x l -> f x = Some (g x)) -> all_some (map f l) = Some (map g l).
Proof.
  induction l as [|a l IH]; intros H; cbn; [reflexivity|].
  rewrite H by (left; reflexivity). rewrite IH; [reflexivity|]. intros x Hx. apply H. right. exact Hx.
Qed.
Lemma all_some_inv X Y (f : X -> option Y) l r :
  all_some (map f l) = Some r -> forall x, In x l -> f x <> None.
Proof.
  revert r. induction l as [|a l IH]; intros r H x Hx; [destruct Hx|]. cbn in H.
  destruct (f a) eqn:E; [|discriminate]. destruct (all_some (map f l)) eqn:E2; [|discriminate].
  destruct Hx as [<-|Hx]; [congruence|]. apply (IH l0 eq_refl x Hx).
Qed.
Lemma all_some_length X (l : list (option X)) r : all_some l = Some r -> length r = length l.
Proof.
  revert r. induction l as [|[a|] l IH]; intros r H; cbn in H; [inversion H; reflexivity| |discriminate].
  destruct (all_some l); [|discriminate]. inversion H. cbn. f_equal. apply IH. reflexivity.
Qed.
Lemma all_some_nth X (l : list (option X)) r i d : all_some l = Some r -> i < length l ->
  nth_error l i = Some (Some (nth i r d)).
Proof.
  revert r i. induction l as [|[a|] l IH]; intros r i H Hi; cbn in H; [cbn in Hi; lia| |discriminate].
  destruct (all_some l) eqn:E; [|discriminate]. inversion H; subst.
  destruct i as [|i]; [reflexivity|]. cbn. apply IH; [reflexivity|cbn in Hi; lia].
Qed.

(** ** The reduction map *)
Section Map.
  Variable N : nat.
  Variable ab : list (nat * nat).
  Hypothesis Ha : forall p, In p ab -> fst p < N.
  Hypothesis Hb : forall p, In p ab -> snd p < N.
  Local Notation m := (slave_map N ab).
  Definition free (i : nat) : bool := negb (existsb (Nat.eqb i) (map snd ab)).

  Lemma free_iff i : free i = true <-> ~ In i (map snd ab).
  Proof.
    unfold free. rewrite negb_true_iff. split.
    - intros H Hin. assert (existsb (Nat.eqb i) (map snd ab) = true); [|congruence].
      apply existsb_exists. exists i. split; [exact Hin | apply Nat.eqb_refl].
    - intros H. destruct (existsb _ _) eqn:E; [|reflexivity]. apply existsb_exists in E.
      destruct E as (x & Hx & E). apply Nat.eqb_eq in E. subst. contradiction.
  Qed.

  Lemma slave_map_length : length m = N.
  Proof. unfold slave_map. rewrite scatter_set_length. apply repeat_length. Qed.

  Lemma map_fst_slave : map fst (map (fun p => (snd p, (- (Z.of_nat (fst p) + 1))%Z)) ab) = map snd ab.
  Proof. rewrite map_map. reflexivity. Qed.

  Lemma slave_map_free i d : i < N -> free i = true -> nth i m d = 1%Z.
  Proof.
    intros Hi H. apply free_iff in H. unfold slave_map.
    rewrite nth_scatter_set_notin by (rewrite map_fst_slave; exact H).
    rewrite nth_indep with (d' := 1%Z) by (rewrite repeat_length; exact Hi). apply nth_repeat.
  Qed.
  Lemma slave_map_slave i d : i < N -> free i = false ->
    exists a, In (a, i) ab /\ nth i m d = (- (Z.of_nat a + 1))%Z.
  Proof.
    intros Hi H. unfold slave_map.
    destruct (@nth_scatter_set_some Z (map (fun p => (snd p, (- (Z.of_nat (fst p) + 1))%Z)) ab) (repeat 1%Z N) i d)
      as (v & Hv & E).
    - rewrite repeat_length. exact Hi.
    - rewrite map_fst_slave. destruct (in_dec Nat.eq_dec i (map snd ab)) as [|Hn]; [assumption|].
      apply free_iff in Hn. congruence.
    - apply in_map_iff in Hv. destruct Hv as ([a b] & Hp & Hin). 
      assert (E1 := f_equal fst Hp). assert (E2 := f_equal snd Hp). cbn [fst snd] in E1, E2. subst b.
      exists a. split; [exact Hin|]. rewrite E. symmetry. exact E2.
  Qed.
  Lemma slave_map_eq1 i d : i < N -> (nth i m d =? 1)%Z = free i.
  Proof.
    intros Hi. destruct (free i) eqn:F.
    - rewrite (slave_map_free d Hi F). reflexivity.
    - destruct (slave_map_slave d Hi F) as (a & _ & ->). lia.
  Qed.

  Lemma number_free_nth l : forall c i, i < length l ->
    nth i (number_free c l) 0%Z =
    if (nth i l 0 =? 1)%Z then Z.of_nat (c + length (filter (fun x => (x =? 1)%Z) (firstn i l))) else nth i l 0%Z.
  Proof.
    induction l as [|x l IH]; intros c i Hi; [cbn in Hi; lia|]. cbn [number_free].
    destruct i as [|i].
    - cbn. destruct (x =? 1)%Z eqn:E; cbn; [|reflexivity]. rewrite Nat.add_0_r. reflexivity.
    - cbn [nth firstn filter]. destruct (x =? 1)%Z; cbn [nth length]; rewrite IH by (cbn in Hi; lia).
      + destruct (_ =? 1)%Z; [|reflexivity]. f_equal. lia.
      + reflexivity.
  Qed.
  Lemma number_free_length l c : length (number_free c l) = length l.
  Proof. revert c. induction l as [|x l IH]; intros c; cbn; [reflexivity|]. destruct (x =? 1)%Z; cbn; rewrite IH; reflexivity. Qed.

  Lemma firstn_count i : i <= N -> length (filter (fun x => (x =? 1)%Z) (firstn i m)) = rank free i.
  Proof.
    intros Hi. unfold rank.
    assert (E : firstn i m = map (fun k => nth k m 0%Z) (seq 0 i)).
    { apply nth_ext with (d := 0%Z) (d' := 0%Z).
      - rewrite firstn_length, map_length, seq_length, slave_map_length. lia.
      - intros k Hk. rewrite firstn_length, slave_map_length in Hk.
        rewrite nth_map_in with (d := 0) by (rewrite seq_length; lia). rewrite seq_nth by lia. cbn.
        rewrite <- (firstn_skipn i m) at 2. rewrite app_nth1; [reflexivity|]. rewrite firstn_length, slave_map_length. lia. }
    rewrite E. clear E.
    induction i as [|i IH]; [reflexivity|]. rewrite seq_S, map_app, !filter_app, !app_length, IH by lia. f_equal.
    cbn. rewrite slave_map_eq1 by lia. destruct (free i); reflexivity.
  Qed.
  Lemma count_free_eq : count_free m = rank free N.
  Proof.
    unfold count_free. rewrite <- (firstn_count (le_n N)).
    rewrite (@firstn_all2 _ N m) by (rewrite slave_map_length; lia). reflexivity.
  Qed.

  Lemma accept_iff : count_free m + length ab = N <-> NoDup (map snd ab).
  Proof.
    rewrite count_free_eq.
    set (S1 := filter (fun i => negb (free i)) (seq 0 N)).
    assert (Part : rank free N + length S1 = N).
    { unfold rank, S1. rewrite <- (seq_length N 0) at 3. generalize (seq 0 N). intros l.
      induction l as [|x l IH]; cbn; [reflexivity|]. destruct (free x); cbn; lia. }
    assert (ND : NoDup S1) by (apply NoDup_filter, seq_NoDup).
    assert (Inc : forall x, In x S1 <-> In x (map snd ab)).
    { intros x. unfold S1. rewrite filter_In, in_seq, negb_true_iff. split.
      - intros [_ H]. destruct (in_dec Nat.eq_dec x (map snd ab)) as [|Hn]; [assumption|].
        apply free_iff in Hn. congruence.
      - intros H. split.
        + apply in_map_iff in H. destruct H as (p & <- & Hp). apply Hb in Hp. lia.
        + destruct (free x) eqn:F; [|reflexivity]. apply free_iff in F. contradiction. }
    split.
    - intros H. apply (@NoDup_incl_NoDup nat S1).
      + exact ND.
      + rewrite map_length. lia.
      + intros x. apply Inc.
    - intros H. assert (length S1 = length ab); [|lia]. rewrite <- (map_length snd ab).
      apply Nat.le_antisymm; apply NoDup_incl_length; auto; intros x; apply Inc.
  Qed.

  Definition col_of : list Z :=
    let r := number_free 0 m in
    map (fun x => if (x <? 0)%Z then nth (Z.to_nat (- x - 1)) r 0%Z else x) r.

  Lemma red_nth i : i < N ->
    nth i (number_free 0 m) 0%Z = if free i then Z.of_nat (rank free i) else nth i m 0%Z.
  Proof.
    intros Hi. rewrite number_free_nth by (rewrite slave_map_length; exact Hi).
    rewrite slave_map_eq1 by exact Hi. rewrite firstn_count by lia. reflexivity.
  Qed.

  Lemma col_free i : i < N -> free i = true -> nth i col_of 0%Z = Z.of_nat (rank free i).
  Proof.
    intros Hi F. unfold col_of. rewrite nth_map_in with (d := 0%Z) by (rewrite number_free_length, slave_map_length; exact Hi).
    rewrite red_nth, F by exact Hi. destruct (Z.ltb_spec (Z.of_nat (rank free i)) 0); [lia|reflexivity].
  Qed.
  Lemma col_slave a i : NoDup (map snd ab) -> In (a, i) ab ->
    nth i col_of 0%Z = if free a then Z.of_nat (rank free a) else nth a m 0%Z.
  Proof.
    intros ND Hin. assert (Hi := Hb _ Hin). assert (Hai := Ha _ Hin). cbn in Hi, Hai.
    assert (F : free i = false).
    { destruct (free i) eqn:F; [|reflexivity]. apply free_iff in F. exfalso. apply F. apply in_map_iff. exists (a, i). auto. }
    unfold col_of. rewrite nth_map_in with (d := 0%Z) by (rewrite number_free_length, slave_map_length; exact Hi).
    rewrite red_nth, F by exact Hi.
    assert (E : nth i m 0%Z = (- (Z.of_nat a + 1))%Z).
    { unfold slave_map. apply nth_scatter_set_in.
      - rewrite map_fst_slave. exact ND.
      - rewrite repeat_length. exact Hi.
      - apply in_map_iff. exists (a, i). auto. }
    rewrite E. destruct (Z.ltb_spec (- (Z.of_nat a + 1)) 0); [|lia].
    replace (Z.to_nat (- - (Z.of_nat a + 1) - 1)) with a by lia. apply red_nth. exact Hai.
  Qed.
  Lemma col_of_length : length col_of = N.
  Proof. unfold col_of. rewrite map_length, number_free_length. apply slave_map_length. Qed.
End Map.

(** ** From the pairings to DOF pairs *)
Section Pairs.
  Variable Pt : Type.
  Variable close : Pt -> Pt -> bool.
  Variable points : list Pt.
  Variable pt0 : Pt.
  Variable vec : nat.
  Variable pairings : list (pairing Pt).
  Hypothesis Hv : forall p, In p pairings -> pp_vec p < vec.
  Local Notation pt := (point points pt0).
  Local Notation n := (length points).
  Local Notation nodes := (nodes_where points pt0).
  Local Notation mt := (matches close points pt0).

  Lemma nodes_where_In f i : In i (nodes f) <-> i < n /\ f (pt i) = true.
  Proof. unfold nodes_where. rewrite filter_In, in_seq. unfold num_nodes. intuition lia. Qed.
  Lemma matches_In p A B : A < n -> pp_master p (pt A) = true ->
    (In B (mt p A) <-> partner close points pt0 p A B).
  Proof. intros HA HM. unfold matches, partner. rewrite filter_In, nodes_where_In. tauto. Qed.
  Lemma matches_NoDup p A : NoDup (mt p A).
  Proof. apply NoDup_filter, NoDup_filter, seq_NoDup. Qed.

  Lemma single_iff (l : list nat) : NoDup l -> (length l = 1 <-> exists x, In x l /\ forall y, In y l -> y = x).
  Proof.
    intros ND. split.
    - destruct l as [|x [|]]; try discriminate. intros _. exists x. split; [left; reflexivity|].
      intros y [<-|[]]; reflexivity.
    - intros (x & Hx & Hy). destruct l as [|a [|b l]]; [destruct Hx | reflexivity|].
      exfalso. inversion ND as [|? ? Hn _]; subst. apply Hn. left.
      rewrite (Hy a), (Hy b); cbn; auto.
  Qed.

  Definition pairs_of (p : pairing Pt) : list (nat * nat) := map (fun a => (a, hd 0 (mt p a))) (nodes (pp_master p)).
  Definition dofs_of (p : pairing Pt) : list (nat * nat) :=
    map (fun ab => (fst ab * vec + pp_vec p, snd ab * vec + pp_vec p)) (pairs_of p).

  Lemma pair_nodes_some p : pair_nodes close points pt0 p <> None <->
    (forall A, A < n -> pp_master p (pt A) = true -> length (mt p A) = 1).
  Proof.
    unfold pair_nodes. destruct (forallb _ _) eqn:E.
    - split; [|congruence]. intros _ A HA HM. rewrite forallb_forall in E.
      apply Nat.eqb_eq. apply E. apply nodes_where_In. auto.
    - split; [congruence|]. intros H. exfalso. apply Bool.not_true_iff_false in E. apply E.
      apply forallb_forall. intros A HA. apply nodes_where_In in HA. apply Nat.eqb_eq. apply H; tauto.
  Qed.
  Lemma pair_nodes_eq p : pair_nodes close points pt0 p <> None -> pair_nodes close points pt0 p = Some (pairs_of p).
  Proof. unfold pair_nodes, pairs_of. destruct (forallb _ _); [reflexivity|congruence]. Qed.

  Lemma well_matched_iff : (forall p, In p pairings -> pair_nodes close points pt0 p <> None) <->
    well_matched close points pt0 pairings.
  Proof.
    unfold well_matched. split.
    - intros H p A Hp HA HM. specialize (H p Hp). rewrite pair_nodes_some in H. specialize (H A HA HM).
      apply (single_iff (matches_NoDup p A)) in H. destruct H as (B & HB & Hu). exists B.
      split; [apply (matches_In p B HA HM); exact HB|]. intros B' HB'. apply Hu. apply (matches_In p B' HA HM). exact HB'.
    - intros H p Hp. apply pair_nodes_some. intros A HA HM. apply (single_iff (matches_NoDup p A)).
      destruct (H p A Hp HA HM) as (B & HB & Hu). exists B.
      split; [apply (matches_In p B HA HM); exact HB|]. intros B' HB'. apply Hu. apply (matches_In p B' HA HM). exact HB'.
  Qed.

  Lemma pairs_of_In p A B : pair_nodes close points pt0 p <> None ->
    (In (A, B) (pairs_of p) <-> partner close points pt0 p A B).
  Proof.
    intros H. rewrite pair_nodes_some in H. unfold pairs_of. rewrite in_map_iff. split.
    - intros (a & E & Ha). inversion E; subst. apply nodes_where_In in Ha. destruct Ha as [HA HM].
      apply (matches_In p _ HA HM). specialize (H A HA HM). destruct (mt p A) as [|x l]; [discriminate|]. left. reflexivity.
    - intros HP. assert (HA := proj1 HP). assert (HM := proj1 (proj2 (proj2 HP))). exists A.
      split; [|apply nodes_where_In; auto]. f_equal. apply (matches_In p B HA HM) in HP. specialize (H A HA HM).
      destruct (mt p A) as [|x [|]]; try discriminate. destruct HP as [<-|[]]. reflexivity.
  Qed.

  Definition all_dofs : list (nat * nat) := flat_map dofs_of pairings.

  Lemma pair_dofs_some : pair_dofs close points pt0 vec pairings <> None <->
    pairings <> [] /\ well_matched close points pt0 pairings.
  Proof.
    rewrite <- well_matched_iff. unfold pair_dofs. destruct pairings as [|p0 ps] eqn:E; [split; [congruence|tauto]|].
    rewrite <- E in *. split.
    - intros H. split; [congruence|]. intros p Hp Hn.
      destruct (all_some _) eqn:ES; [|congruence].
      apply (@all_some_inv _ _ _ _ _ ES p Hp). rewrite Hn. reflexivity.
    - intros [_ H]. rewrite (@all_some_map _ _ _ dofs_of); [discriminate|].
      intros p Hp. rewrite (@pair_nodes_eq p (H p Hp)). reflexivity.
  Qed.
  Lemma pair_dofs_eq : pair_dofs close points pt0 vec pairings <> None ->
    pair_dofs close points pt0 vec pairings = Some all_dofs.
  Proof.
    intros H. assert (H' := H). apply pair_dofs_some in H'. destruct H' as [Hne HW]. rewrite <- well_matched_iff in HW.
    unfold pair_dofs. destruct pairings as [|p0 ps] eqn:E; [congruence|]. rewrite <- E in *.
    rewrite (@all_some_map _ _ _ dofs_of).
    - unfold all_dofs. rewrite flat_map_concat_map. rewrite E. reflexivity.
    - intros p Hp. rewrite (@pair_nodes_eq p (HW p Hp)). reflexivity.
  Qed.

  Lemma all_dofs_In a b : well_matched close points pt0 pairings ->
    (In (a, b) all_dofs <-> linked close points pt0 vec pairings a b).
  Proof.
    intros HW. rewrite <- well_matched_iff in HW. unfold all_dofs, linked. rewrite in_flat_map. split.
    - intros (p & Hp & H). unfold dofs_of in H. apply in_map_iff in H. destruct H as ([A B] & E & H).
      cbn in E. inversion E; subst. apply (@pairs_of_In p A B (HW p Hp)) in H. exists p, A, B. auto.
    - intros (p & A & B & Hp & HP & -> & ->). exists p. split; [exact Hp|]. unfold dofs_of. apply in_map_iff.
      exists (A, B). split; [reflexivity|]. apply (@pairs_of_In p A B (HW p Hp)). exact HP.
  Qed.

  Lemma linked_range a b : linked close points pt0 vec pairings a b -> a < n * vec /\ b < n * vec.
  Proof.
    intros (p & A & B & Hp & (HA & HB & _) & -> & ->). assert (V := Hv _ Hp). split; nia.
  Qed.

  Lemma NoDup_map_inv_in X (f : X -> nat) l : NoDup l -> (forall x y, In x l -> In y l -> f x = f y -> x = y) -> NoDup (map f l).
  Proof.
    induction l as [|a l IH]; intros ND H; cbn; constructor; inversion ND; subst.
    - intros Hin. apply in_map_iff in Hin. destruct Hin as (x & E & Hx).
      assert (x = a) by (apply H; cbn; auto). subst. contradiction.
    - apply IH; auto. intros x y Hx Hy. apply H; cbn; auto.
  Qed.
  Lemma NoDup_map_inj_in X (f : X -> nat) l x y : NoDup (map f l) -> In x l -> In y l -> f x = f y -> x = y.
  Proof.
    induction l as [|a l IH]; intros ND Hx Hy E; [destruct Hx|]. cbn in ND. inversion ND as [|? ? Hn ND']; subst.
    destruct Hx as [<-|Hx], Hy as [<-|Hy]; auto.
    - exfalso. apply Hn. rewrite E. apply in_map. exact Hy.
    - exfalso. apply Hn. rewrite <- E. apply in_map. exact Hx.
  Qed.

  Lemma single_master_iff : well_matched close points pt0 pairings ->
    (NoDup (map snd all_dofs) <-> single_master close points pt0 vec pairings).
  Proof.
    intros HW. assert (HP := HW). rewrite <- well_matched_iff in HP.
    unfold all_dofs. rewrite flat_map_concat_map, concat_map, map_map, <- flat_map_concat_map.
    rewrite NoDup_flat_map_iff. unfold single_master. split.
    - intros [H1 H2] i j p q A A' B B' Ei Ej PA PA' E.
      assert (Hp := nth_error_In _ _ Ei). assert (Hq := nth_error_In _ _ Ej).
      assert (I1 : In (A * vec + pp_vec p, B * vec + pp_vec p) (dofs_of p)).
      { unfold dofs_of. apply in_map_iff. exists (A, B). split; [reflexivity|]. apply pairs_of_In; auto. }
      assert (I2 : In (A' * vec + pp_vec q, B' * vec + pp_vec q) (dofs_of q)).
      { unfold dofs_of. apply in_map_iff. exists (A', B'). split; [reflexivity|]. apply pairs_of_In; auto. }
      assert (i = j).
      { apply (H2 i j p q (B * vec + pp_vec p) Ei Ej).
        - apply in_map_iff. exists (A * vec + pp_vec p, B * vec + pp_vec p). auto.
        - rewrite E. apply in_map_iff. exists (A' * vec + pp_vec q, B' * vec + pp_vec q). auto. }
      split; [assumption|]. subst j. rewrite Ei in Ej. inversion Ej; subst q.
      assert (X := NoDup_map_inj_in snd _ _ _ (H1 p Hp) I1 I2). cbn in X.
      apply X in E. inversion E as [[E1 E2]].
      assert (V := Hv _ Hp). nia.
    - intros H. split.
      + intros p Hp. unfold dofs_of, pairs_of. rewrite !map_map. cbn.
        apply NoDup_map_inv_in; [apply NoDup_filter, seq_NoDup|].
        intros x y Hx Hy E. apply In_nth_error in Hp. destruct Hp as [i Hi].
        assert (Hp := nth_error_In _ _ Hi).
        assert (PX : forall z, In z (nodes (pp_master p)) -> partner close points pt0 p z (hd 0 (mt p z))).
        { intros z Hz. apply pairs_of_In; [apply HP; exact Hp|]. unfold pairs_of. apply in_map_iff. exists z. auto. }
        apply (H i i p p x y _ _ Hi Hi (PX x Hx) (PX y Hy) E).
      + intros i j p q v Ei Ej Hv1 Hv2. unfold dofs_of in Hv1, Hv2.
        rewrite map_map in Hv1, Hv2. apply in_map_iff in Hv1. apply in_map_iff in Hv2.
        destruct Hv1 as ([A B] & E1 & I1). destruct Hv2 as ([A' B'] & E2 & I2). cbn in E1, E2.
        apply pairs_of_In in I1; [|apply HP, (nth_error_In _ _ Ei)].
        apply pairs_of_In in I2; [|apply HP, (nth_error_In _ _ Ej)].
        apply (H i j p q A A' B B' Ei Ej I1 I2). congruence.
  Qed.
End Pairs.
