(** Proofs about the compiled CSR structure and [CSRMatrix]. *)
From Verif Require Import Base Csr_Model.
From Coq Require Import ZifyBool ZifyNat.
Set Implicit Arguments.

(** ** Deduplication of a sorted key list *)

Lemma seg_from_shift a l :
  cumsum_from (S a) l = map S (cumsum_from a l).
Proof.
  revert a; induction l as [|x t IH]; intros a; cbn; [reflexivity|].
  f_equal. apply IH.
Qed.

Definition b2n (b : bool) : nat := if b then 1 else 0.

Lemma neq_prev_length x l : length (neq_prev x l) = length l.
Proof. revert x; induction l as [|y t IH]; intros x; cbn; auto. Qed.

Lemma is_new_length l : length (is_new l) = length l.
Proof. destruct l; cbn; [reflexivity|]. rewrite neq_prev_length. reflexivity. Qed.

Lemma seg_ids_length f : length (seg_ids_of f) = length f.
Proof.
  unfold seg_ids_of, cumsum. rewrite map_length, cumsum_from_length, map_length. reflexivity.
Qed.

(** Entries of a deduplicated run: the k-th flag count points back to the key. *)
Lemma dedup_nth t x k :
  k < length t ->
  let u := x :: mask_select t (neq_prev x t) in
  let c := nth k (cumsum_from 0 (map b2n (neq_prev x t))) 0 in
  c < length u /\ nth c u 0 = nth k t 0.
Proof.
  revert x k; induction t as [|y t IH]; intros x k Hk; cbn in Hk; [lia|].
  cbn [neq_prev map mask_select cumsum_from].
  destruct (Nat.eqb_spec y x) as [->|Hne]; cbn [negb b2n].
  - destruct k as [|k]; cbn [nth Nat.add]; [split; [cbn; lia | reflexivity]|].
    apply IH. lia.
  - rewrite Nat.add_1_r, seg_from_shift.
    destruct k as [|k]; cbn [nth]; [split; [cbn; lia | reflexivity]|].
    rewrite nth_map_in with (d := 0)
      by (rewrite cumsum_from_length, map_length, neq_prev_length; lia).
    destruct (IH y k ltac:(lia)) as [H1 H2]. cbn [length nth] in *.
    split; [lia | exact H2].
Qed.

Lemma seg_ids_nth l k :
  k < length l ->
  let u := mask_select l (is_new l) in
  let c := nth k (seg_ids_of (is_new l)) 0 in
  c < length u /\ nth c u 0 = nth k l 0.
Proof.
  destruct l as [|x t]; cbn [length]; intros Hk; [lia|].
  unfold seg_ids_of, cumsum. cbn [is_new map cumsum_from mask_select].
  rewrite Nat.add_0_l, seg_from_shift, map_map.
  destruct k as [|k]; [cbn; split; [lia|reflexivity]|].
  cbn [nth].
  rewrite nth_map_in with (d := 0)
    by (rewrite cumsum_from_length, map_length, neq_prev_length; lia).
  replace (S (nth k (cumsum_from 0 (map (fun b : bool => if b then 1 else 0) (neq_prev x t))) 0) - 1)
    with (nth k (cumsum_from 0 (map b2n (neq_prev x t))) 0)
    by (unfold b2n; lia).
  apply dedup_nth. lia.
Qed.

Lemma dedup_sorted t x :
  StronglySorted le (x :: t) ->
  StronglySorted lt (x :: mask_select t (neq_prev x t)).
Proof.
  revert x; induction t as [|y t IH]; intros x H; cbn [neq_prev mask_select].
  - constructor; constructor.
  - inversion H as [|? ? Hs Hf]; subst. inversion Hf as [|? ? Hxy Hf']; subst.
    specialize (IH y Hs).
    destruct (Nat.eqb_spec y x) as [->|Hne]; cbn [negb].
    + exact IH.
    + constructor; [exact IH|].
      inversion IH as [|? ? Hs2 Hf2]; subst.
      constructor; [lia|]. eapply Forall_impl; [|exact Hf2]. intros; cbn in *; lia.
Qed.

Lemma unique_sorted l :
  StronglySorted le l -> StronglySorted lt (mask_select l (is_new l)).
Proof. destruct l as [|x t]; cbn; [constructor | apply dedup_sorted]. Qed.

Lemma mask_select_incl A (l : list A) m x : In x (mask_select l m) -> In x l.
Proof.
  revert m; induction l as [|y t IH]; intros [|b m]; cbn; try tauto.
  destruct b; cbn; intros H; [destruct H as [->|H]; auto; right; eauto | right; eauto].
Qed.

Lemma unique_in l x : In x (mask_select l (is_new l)) <-> In x l.
Proof.
  split; [apply mask_select_incl|].
  intros H. apply (In_nth l x 0) in H. destruct H as [k [Hk E]].
  destruct (seg_ids_nth l Hk) as [H1 H2]. rewrite <- E, <- H2. apply nth_In. exact H1.
Qed.

(** ** Row pointers *)

Lemma count_rows_aux rows acc k :
  nth k (fold_left (fun acc r => upd acc (r + 1) (nth (r + 1) acc 0 + 1)) rows acc) 0 =
  nth k acc 0 + (if k <? length acc
                 then length (filter (fun r => r + 1 =? k) rows) else 0).
Proof.
  revert acc; induction rows as [|r t IH]; intros acc; cbn [fold_left filter length].
  - destruct (k <? length acc); lia.
  - rewrite IH, upd_length, nth_upd.
    destruct (Nat.eqb_spec (r + 1) k) as [->|Hne]; cbn [andb].
    + destruct (Nat.ltb_spec k (length acc)) as [Hl|Hl]; cbn [length].
      * lia.
      * rewrite (nth_overflow acc) by lia. lia.
    + reflexivity.
Qed.

Lemma count_rows_length n rows : length (count_rows n rows) = n + 1.
Proof.
  unfold count_rows.
  assert (H : forall acc, length (fold_left
     (fun acc r => upd acc (r + 1) (nth (r + 1) acc 0 + 1)) rows acc) = length acc).
  { induction rows as [|r t IH]; intros acc; cbn; [reflexivity|].
    rewrite IH. apply upd_length. }
  rewrite H. apply repeat_length.
Qed.

Definition count (r : nat) (rows : list nat) : nat :=
  length (filter (fun x => x =? r) rows).

Lemma nth_repeat0 n k : nth k (repeat 0 n) 0 = 0.
Proof. revert k; induction n; intros [|k]; cbn; auto. Qed.

Lemma nth_count_rows n rows k :
  nth k (count_rows n rows) 0 =
  match k with O => 0 | S r => if r <? n then count r rows else 0 end.
Proof.
  unfold count_rows. rewrite count_rows_aux, repeat_length, nth_repeat0.
  destruct k as [|r].
  - replace (filter (fun r => r + 1 =? 0) rows) with (@nil nat).
    + cbn. destruct (0 <? n + 1); reflexivity.
    + induction rows as [|x t IH]; cbn; [reflexivity|].
      destruct (Nat.eqb_spec (x + 1) 0); [lia | exact IH].
  - cbn [Nat.add]. replace (S r <? n + 1) with (r <? n) by lia.
    destruct (r <? n); [|reflexivity].
    unfold count. f_equal.
    induction rows as [|x t IH]; cbn; [reflexivity|].
    rewrite IH. replace (x + 1 =? S r) with (x =? r) by lia. reflexivity.
Qed.

Lemma indptr_length n rows : length (indptr_of n rows) = n + 1.
Proof. unfold indptr_of, cumsum. rewrite cumsum_from_length. apply count_rows_length. Qed.

Definition count_below (r : nat) (rows : list nat) : nat :=
  length (filter (fun x => x <? r) rows).

Lemma count_below_S r rows : count_below (S r) rows = count_below r rows + count r rows.
Proof.
  unfold count_below, count. induction rows as [|x t IH]; cbn; [reflexivity|].
  destruct (Nat.ltb_spec x (S r)), (Nat.ltb_spec x r), (Nat.eqb_spec x r); cbn; lia.
Qed.

Lemma sum_firstn_S l k :
  sum_nat (firstn (S k) l) = sum_nat (firstn k l) + nth k l 0.
Proof.
  revert k; induction l as [|x t IH]; intros [|k]; try reflexivity.
  - cbn. lia.
  - change (firstn (S (S k)) (x :: t)) with (x :: firstn (S k) t).
    change (firstn (S k) (x :: t)) with (x :: firstn k t).
    cbn [sum_nat nth]. rewrite IH. lia.
Qed.

(** [indptr[r]] is the number of stored slots in rows before [r]. *)
Lemma nth_indptr n rows r :
  r <= n -> nth r (indptr_of n rows) 0 = count_below r rows.
Proof.
  intros Hr. unfold indptr_of, cumsum.
  rewrite nth_cumsum_from by (rewrite count_rows_length; lia).
  rewrite Nat.add_0_l.
  induction r as [|r IH].
  - rewrite sum_firstn_S. cbn [firstn sum_nat].
    rewrite nth_count_rows. unfold count_below.
    induction rows as [|x t IHt]; cbn; [reflexivity|].
    destruct (Nat.ltb_spec x 0); [lia | exact IHt].
  - rewrite sum_firstn_S, IH by lia. rewrite nth_count_rows, count_below_S.
    destruct (Nat.ltb_spec r n); lia.
Qed.

Lemma count_below_mono r r' rows : r <= r' -> count_below r rows <= count_below r' rows.
Proof.
  intros H. induction H; [lia|]. rewrite count_below_S. lia.
Qed.

Lemma nth_diff l k : S k < length l -> nth k (diff l) 0 = nth (S k) l 0 - nth k l 0.
Proof.
  revert k; induction l as [|x t IH]; intros k H; cbn in H; [lia|].
  destruct t as [|y t']; cbn in H; [lia|].
  destruct k as [|k]; [reflexivity|].
  change (nth (S k) (diff (x :: y :: t')) 0) with (nth k (diff (y :: t')) 0).
  rewrite IH by (cbn; lia). reflexivity.
Qed.

Lemma diff_length l : length (diff l) = length l - 1.
Proof.
  induction l as [|x t IH]; [reflexivity|]. destruct t as [|y t']; [reflexivity|].
  change (diff (x :: y :: t')) with ((y - x) :: diff (y :: t')).
  cbn [length] in *. rewrite IH. lia.
Qed.

Lemma diff_indptr n rows :
  diff (indptr_of n rows) = map (fun r => count r rows) (seq 0 n).
Proof.
  apply nth_ext with (d := 0) (d' := 0).
  - rewrite diff_length, indptr_length, map_length, seq_length. lia.
  - intros k Hk. rewrite diff_length, indptr_length in Hk.
    rewrite nth_diff by (rewrite indptr_length; lia).
    rewrite !nth_indptr by lia.
    rewrite nth_map_in with (d := 0) by (rewrite seq_length; lia).
    rewrite seq_nth by lia. rewrite count_below_S. cbn [Nat.add]. lia.
Qed.

(** A sorted list is the concatenation of its runs. *)
Lemma filter_le_split rows a :
  StronglySorted le rows -> (forall x, In x rows -> a <= x) ->
  rows = repeat a (count a rows) ++ filter (fun x => negb (x =? a)) rows.
Proof.
  intros Hs Hge. induction Hs as [|x t Hs IH Hf]; cbn; [reflexivity|].
  unfold count in *. cbn. destruct (Nat.eqb_spec x a) as [->|Hne]; cbn.
  - f_equal. apply IH. intros y Hy. apply Hge. right; exact Hy.
  - assert (Hno : forall y, In y t -> (y =? a) = false).
    { intros y Hy. rewrite Forall_forall in Hf. specialize (Hf _ Hy).
      specialize (Hge x (or_introl eq_refl)). lia. }
    replace (filter (fun x0 => x0 =? a) t) with (@nil nat).
    + cbn. f_equal. symmetry.
      clear -Hno. induction t as [|y t IH]; cbn; [reflexivity|].
      rewrite Hno by (left; reflexivity). cbn. f_equal.
      apply IH. intros z Hz. apply Hno. right; exact Hz.
    + clear -Hno. induction t as [|y t IH]; cbn; [reflexivity|].
      rewrite Hno by (left; reflexivity). apply IH.
      intros z Hz. apply Hno. right; exact Hz.
Qed.

Lemma count_filter_neq a r rows :
  r <> a -> count r (filter (fun x => negb (x =? a)) rows) = count r rows.
Proof.
  intros Hne. unfold count. induction rows as [|x t IH]; cbn; [reflexivity|].
  destruct (Nat.eqb_spec x a) as [->|Hx]; cbn.
  - rewrite IH. destruct (Nat.eqb_spec a r); [lia | reflexivity].
  - destruct (Nat.eqb_spec x r); cbn; rewrite IH; reflexivity.
Qed.

Lemma runs_sorted m : forall a rows,
  StronglySorted le rows -> (forall x, In x rows -> a <= x < a + m) ->
  flat_map (fun r => repeat r (count r rows)) (seq a m) = rows.
Proof.
  induction m as [|m IH]; intros a rows Hs Hb; cbn [seq flat_map].
  - destruct rows as [|x t]; [reflexivity|]. specialize (Hb x (or_introl eq_refl)). lia.
  - transitivity (repeat a (count a rows) ++ filter (fun x => negb (x =? a)) rows);
      [|symmetry; apply filter_le_split; [exact Hs | intros x Hx; apply Hb in Hx; lia]].
    f_equal.
    rewrite <- (IH (S a) (filter (fun x => negb (x =? a)) rows)).
    + rewrite !flat_map_concat_map. f_equal. apply map_ext_in.
      intros r Hr. apply in_seq in Hr. rewrite count_filter_neq by lia. reflexivity.
    + apply StronglySorted_filter. exact Hs.
    + intros x Hx. apply filter_In in Hx. destruct Hx as [Hx Hne].
      apply Hb in Hx. destruct (Nat.eqb_spec x a); cbn in Hne; [discriminate | lia].
Qed.

Lemma combine_seq_map A (f : nat -> A) a n :
  combine (seq a n) (map f (seq a n)) = map (fun r => (r, f r)) (seq a n).
Proof. revert a; induction n as [|n IH]; intros a; cbn; [reflexivity|]. f_equal. apply IH. Qed.

(** Expanding the row pointer of sorted rows gives the rows back. *)
Lemma row_of_slot_indptr (K : CRing) (A : csr K) rows :
  m_indptr A = indptr_of (m_nrows A) rows ->
  StronglySorted le rows -> (forall x, In x rows -> x < m_nrows A) ->
  row_of_slot A = rows.
Proof.
  intros Hp Hs Hb. unfold row_of_slot. rewrite Hp, diff_indptr, combine_seq_map.
  rewrite flat_map_concat_map, map_map. cbn.
  rewrite <- flat_map_concat_map. apply runs_sorted; auto.
  intros x Hx. apply Hb in Hx. lia.
Qed.

(** ** Keys *)
Lemma key_div n p : snd p < n -> key_of n p / n = fst p.
Proof.
  intros H. unfold key_of. rewrite Nat.add_comm, Nat.div_add by lia.
  rewrite Nat.div_small by lia. lia.
Qed.

Lemma key_mod n p : snd p < n -> key_of n p mod n = snd p.
Proof.
  intros H. unfold key_of. rewrite Nat.add_comm, Nat.mod_add by lia.
  apply Nat.mod_small. exact H.
Qed.

Lemma key_inj n p q : snd p < n -> snd q < n -> key_of n p = key_of n q -> p = q.
Proof.
  intros Hp Hq H. destruct p as [a b], q as [c d].
  pose proof (key_div (n := n) (a, b) Hp) as E1. pose proof (key_div (n := n) (c, d) Hq) as E2.
  pose proof (key_mod (n := n) (a, b) Hp) as E3. pose proof (key_mod (n := n) (c, d) Hq) as E4.
  rewrite H in E1, E3. cbn in *. congruence.
Qed.

(** Lexicographic order on (row, col). *)
Definition lex_lt (p q : nat * nat) : Prop :=
  fst p < fst q \/ (fst p = fst q /\ snd p < snd q).

Lemma key_lt_lex n p q :
  snd p < n -> snd q < n -> key_of n p < key_of n q -> lex_lt p q.
Proof.
  unfold key_of, lex_lt. intros Hp Hq H.
  destruct (Nat.lt_trichotomy (fst p) (fst q)) as [Hl|[He|Hg]]; [auto| |exfalso; nia].
  rewrite He in H. right. split; [exact He | lia].
Qed.

(** ** The compiled pattern *)
Section Built.
  Variables (n : nat) (v : view) (all : list (nat * nat)).
  Hypothesis Hrange : forall p, In p all -> fst p < n /\ snd p < n.

  Let P := build_csr n v all.
  Let filtered := filter (in_view v) all.
  Let keys := map (key_of n) filtered.
  Let sk := gather 0 keys (argsort keys).
  Let uk := mask_select sk (is_new sk).

  (** The slots of the pattern as (row, col) pairs. *)
  Definition slots (P : pattern) : list (nat * nat) := combine (p_rows P) (p_indices P).

  Lemma sk_perm : Permutation keys sk.
  Proof. apply argsort_gather_perm. Qed.

  Lemma uk_sorted : StronglySorted lt uk.
  Proof. apply unique_sorted, argsort_sorted. Qed.

  Lemma uk_in k : In k uk <-> In k keys.
  Proof.
    unfold uk. rewrite unique_in.
    split; apply Permutation_in; [symmetry|]; apply sk_perm.
  Qed.

  Lemma uk_pair k : In k uk -> exists p, In p filtered /\ key_of n p = k /\ fst p < n /\ snd p < n.
  Proof.
    intros H. apply uk_in in H. apply in_map_iff in H. destruct H as [p [E Hp]].
    exists p. split; [exact Hp|]. split; [exact E|].
    apply Hrange. unfold filtered in Hp. apply filter_In in Hp. tauto.
  Qed.

  Lemma P_rows : p_rows P = map (fun k => k / n) uk. Proof. reflexivity. Qed.
  Lemma P_cols : p_indices P = map (fun k => k mod n) uk. Proof. reflexivity. Qed.
  Lemma P_nse : p_nse P = length uk. Proof. reflexivity. Qed.

  Lemma slots_eq : slots P = map (fun k => (k / n, k mod n)) uk.
  Proof.
    unfold slots. rewrite P_rows, P_cols. generalize uk as l.
    induction l as [|x t IH]; cbn; [reflexivity|]. f_equal. exact IH.
  Qed.

  Lemma slots_length : length (slots P) = p_nse P.
  Proof. rewrite slots_eq, map_length. reflexivity. Qed.

  Lemma slots_key : map (key_of n) (slots P) = uk.
  Proof.
    rewrite slots_eq, map_map. rewrite <- (map_id uk) at 2.
    apply map_ext_in. intros k Hk. destruct (uk_pair _ Hk) as [p [_ [E [H1 H2]]]].
    rewrite <- E. rewrite key_div, key_mod by exact H2. destruct p; reflexivity.
  Qed.

  Lemma slots_in p : In p (slots P) <-> In p filtered.
  Proof.
    rewrite slots_eq, in_map_iff. split.
    - intros [k [E Hk]]. destruct (uk_pair _ Hk) as [q [Hq [E2 [H1 H2]]]].
      rewrite <- E2, key_div, key_mod in E by exact H2. destruct q; cbn in E. congruence.
    - intros Hp. exists (key_of n p).
      assert (Hn : snd p < n). { apply Hrange. apply filter_In in Hp. tauto. }
      split; [rewrite key_div, key_mod by exact Hn; destruct p; reflexivity|].
      apply uk_in. apply in_map. exact Hp.
  Qed.

  Lemma slots_range p : In p (slots P) -> fst p < n /\ snd p < n.
  Proof. intros H. apply slots_in in H. apply filter_In in H. apply Hrange. tauto. Qed.

  Lemma StronglySorted_map_inv A B (R : B -> B -> Prop) (f : A -> B) l :
    StronglySorted R (map f l) -> StronglySorted (fun x y => R (f x) (f y)) l.
  Proof.
    induction l as [|x t IH]; cbn; intros H; [constructor|].
    inversion H as [|? ? Hs Hf]; subst. constructor; auto.
    rewrite Forall_map in Hf. exact Hf.
  Qed.

  Lemma slots_sorted : StronglySorted lex_lt (slots P).
  Proof.
    pose proof uk_sorted as Hs. rewrite <- slots_key in Hs.
    apply StronglySorted_map_inv in Hs.
    assert (Hr : forall p, In p (slots P) -> snd p < n) by (intros p Hp; apply slots_range; auto).
    revert Hs Hr. generalize (slots P) as l.
    induction l as [|x t IH]; intros Hs Hr; [constructor|].
    inversion Hs as [|? ? Hs' Hf]; subst. constructor.
    - apply IH; auto. intros p Hp. apply Hr. right; exact Hp.
    - rewrite Forall_forall in *. intros y Hy. apply key_lt_lex with (n := n); auto.
      + apply Hr. left; reflexivity.
      + apply Hr. right; exact Hy.
  Qed.

  Lemma lex_lt_irrefl p : ~ lex_lt p p.
  Proof. unfold lex_lt. lia. Qed.

  Lemma slots_NoDup : NoDup (slots P).
  Proof.
    pose proof slots_sorted as H. induction H as [|x t Hs IH Hf]; constructor; auto.
    rewrite Forall_forall in Hf. intros Hin. apply (lex_lt_irrefl (Hf _ Hin)).
  Qed.

  Lemma rows_len : length (p_rows P) = p_nse P.
  Proof. rewrite P_rows, map_length. reflexivity. Qed.
  Lemma cols_len : length (p_indices P) = p_nse P.
  Proof. rewrite P_cols, map_length. reflexivity. Qed.

  Lemma rows_slots : p_rows P = map fst (slots P).
  Proof. unfold slots. rewrite combine_map_fst; [reflexivity|]. rewrite rows_len, cols_len. reflexivity. Qed.
  Lemma cols_slots : p_indices P = map snd (slots P).
  Proof. unfold slots. rewrite combine_map_snd; [reflexivity|]. rewrite rows_len, cols_len. reflexivity. Qed.

  Lemma rows_sorted : StronglySorted le (p_rows P).
  Proof.
    rewrite rows_slots. apply StronglySorted_map.
    pose proof slots_sorted as H. induction H as [|x t Hs IH Hf]; constructor; auto.
    eapply Forall_impl; [|exact Hf]. unfold lex_lt. intros a Ha. lia.
  Qed.

  Lemma rows_lt r : In r (p_rows P) -> r < n.
  Proof.
    rewrite rows_slots, in_map_iff. intros [p [<- Hp]]. apply slots_range in Hp. tauto.
  Qed.
  Lemma cols_lt c : In c (p_indices P) -> c < n.
  Proof.
    rewrite cols_slots, in_map_iff. intros [p [<- Hp]]. apply slots_range in Hp. tauto.
  Qed.

  Lemma built_row_of_slot (K : CRing) (data : list K) :
    row_of_slot (csr_of P data) = p_rows P.
  Proof.
    apply row_of_slot_indptr; [reflexivity | apply rows_sorted | apply rows_lt].
  Qed.

  (** Slot map: every raw (filtered) entry points at its own (row, col). *)
  Lemma scatter_perm_nth (order seg : list nat) m k :
    NoDup order -> length order = length seg -> (forall x, In x order -> x < m) ->
    k < length order ->
    nth (nth k order 0) (scatter_set (repeat 0 m) (combine order seg)) 0 = nth k seg 0.
  Proof.
    intros ND Hl Hb Hk.
    apply nth_scatter_set_in.
    - rewrite combine_map_fst; auto.
    - rewrite repeat_length. apply Hb, nth_In. exact Hk.
    - rewrite <- (@combine_nth _ _ order seg k 0 0 Hl). apply nth_In.
      rewrite combine_length. lia.
  Qed.

  Lemma keys_length : length keys = length filtered.
  Proof. apply map_length. Qed.

  Lemma slot_correct k :
    k < length filtered ->
    nth k (p_slot P) 0 < p_nse P /\
    nth (nth k (p_slot P) 0) (slots P) (0, 0) = nth k filtered (0, 0).
  Proof.
    intros Hk. rewrite <- keys_length in Hk.
    assert (Hin : In k (argsort keys)).
    { eapply Permutation_in; [apply argsort_perm | apply in_seq; lia]. }
    apply (In_nth _ _ 0) in Hin. destruct Hin as [r [Hr Er]].
    assert (Hsk : length sk = length keys) by (unfold sk; rewrite gather_length; apply argsort_length).
    assert (E : nth k (p_slot P) 0 = nth r (seg_ids_of (is_new sk)) 0).
    { change (p_slot P) with
        (scatter_set (repeat 0 (length keys)) (combine (argsort keys) (seg_ids_of (is_new sk)))).
      rewrite <- Er. apply scatter_perm_nth.
      - apply argsort_NoDup.
      - rewrite argsort_length, seg_ids_length, is_new_length. lia.
      - apply argsort_lt.
      - exact Hr. }
    assert (Hr' : r < length sk) by (rewrite argsort_length in Hr; lia).
    destruct (seg_ids_nth sk Hr') as [H1 H2].
    rewrite E. split; [exact H1|].
    assert (Hkey : key_of n (nth (nth r (seg_ids_of (is_new sk)) 0) (slots P) (0, 0)) =
                   key_of n (nth k filtered (0, 0))).
    { rewrite <- (nth_map_in (key_of n) (slots P) (0,0) 0) by (rewrite slots_length; exact H1).
      rewrite slots_key. unfold uk. rewrite H2. unfold sk.
      rewrite nth_gather by exact Hr. rewrite Er. unfold keys.
      rewrite nth_map_in with (d := (0, 0)) by (rewrite <- keys_length; exact Hk).
      reflexivity. }
    apply key_inj with (n := n) in Hkey; [exact Hkey| |].
    - apply slots_range. apply nth_In. rewrite slots_length. exact H1.
    - assert (Hin : In (nth k filtered (0, 0)) filtered)
        by (apply nth_In; rewrite <- keys_length; exact Hk).
      apply filter_In in Hin. apply Hrange. tauto.
  Qed.

  Lemma slot_length : length (p_slot P) = length filtered.
  Proof.
    change (p_slot P) with
        (scatter_set (repeat 0 (length keys)) (combine (argsort keys) (seg_ids_of (is_new sk)))).
    rewrite scatter_set_length, repeat_length. apply keys_length.
  Qed.

  (** Unfiltered map: kept entries point at their slot, dropped ones at [nse]. *)
  Lemma full_slot_hit p :
    In p filtered ->
    full_slot_of uk (key_of n p) < length uk /\
    nth (full_slot_of uk (key_of n p)) (slots P) (0, 0) = p.
  Proof.
    intros Hp.
    assert (Hu : In (key_of n p) uk) by (apply uk_in, in_map; exact Hp).
    destruct (searchsorted_hit _ uk_sorted Hu) as [H1 H2].
    unfold full_slot_of. destruct (Nat.eqb_spec (length uk) 0) as [E0|_]; [lia|].
    replace (Nat.min (searchsorted uk (key_of n p)) (length uk - 1))
      with (searchsorted uk (key_of n p)) by lia.
    rewrite H2, Nat.eqb_refl. split; [exact H1|].
    apply key_inj with (n := n).
    - apply slots_range, nth_In. rewrite slots_length. exact H1.
    - apply filter_In in Hp. apply Hrange. tauto.
    - rewrite <- (nth_map_in (key_of n) (slots P) (0,0) 0) by (rewrite slots_length; exact H1).
      rewrite slots_key. exact H2.
  Qed.

  Lemma full_slot_miss p :
    In p all -> in_view v p = false -> full_slot_of uk (key_of n p) = length uk.
  Proof.
    intros Hp Hv.
    unfold full_slot_of. destruct (Nat.eqb_spec (length uk) 0) as [E0|Hne]; [lia|].
    destruct (Nat.eqb_spec (nth (Nat.min (searchsorted uk (key_of n p)) (length uk - 1)) uk 0)
                (key_of n p)) as [E|_]; [|reflexivity].
    exfalso. assert (Hu : In (key_of n p) uk).
    { rewrite <- E. apply nth_In. lia. }
    destruct (uk_pair _ Hu) as [q [Hq [E2 [H1 H2]]]].
    assert (q = p).
    { apply key_inj with (n := n); auto. apply Hrange; exact Hp. }
    subst q. unfold filtered in Hq. apply filter_In in Hq. destruct Hq. congruence.
  Qed.

  (** Diagonal slots. *)
  Lemma diag_list_in s r :
    In (r, Some s)
       (flat_map (fun s => if nth s (p_rows P) 0 =? nth s (p_indices P) 0
                           then [(nth s (p_rows P) 0, Some s)] else [])
                 (seq 0 (length (p_rows P)))) <->
    s < p_nse P /\ nth s (slots P) (0,0) = (r, r).
  Proof.
    rewrite in_flat_map. rewrite rows_len. unfold slots.
    split.
    - intros [s' [Hs' Hin]]. apply in_seq in Hs'.
      destruct (Nat.eqb_spec (nth s' (p_rows P) 0) (nth s' (p_indices P) 0)) as [E|]; [|destruct Hin].
      destruct Hin as [Hin|[]]. pose proof (f_equal fst Hin) as E1.
      pose proof (f_equal snd Hin) as E2. unfold fst, snd in E1, E2. injection E2 as E2. subst s'.
      split; [lia|]. rewrite combine_nth by (rewrite rows_len, cols_len; reflexivity).
      rewrite <- E, E1. reflexivity.
    - intros [Hs E]. exists s. split; [apply in_seq; lia|].
      rewrite combine_nth in E by (rewrite rows_len, cols_len; reflexivity).
      pose proof (f_equal fst E) as E1. pose proof (f_equal snd E) as E2.
      unfold fst, snd in E1, E2. rewrite E1, E2, Nat.eqb_refl. left. reflexivity.
  Qed.

  Lemma diag_list_fst_in r :
    In r (map fst (flat_map (fun s => if nth s (p_rows P) 0 =? nth s (p_indices P) 0
                           then [(nth s (p_rows P) 0, Some s)] else [])
                 (seq 0 (length (p_rows P))))) -> In (r, r) (slots P).
  Proof.
    rewrite in_map_iff. intros [[r' o] [E Hin]]. cbn in E. subst r'.
    apply in_flat_map in Hin as Hin2. destruct Hin2 as [s' [Hs' Hin']].
    destruct (nth s' (p_rows P) 0 =? nth s' (p_indices P) 0); [|destruct Hin'].
    destruct Hin' as [Hin'|[]]. injection Hin' as E1 E2. subst o.
    apply diag_list_in in Hin. destruct Hin as [Hs E]. rewrite <- E.
    apply nth_In. rewrite slots_length. exact Hs.
  Qed.

  Lemma diag_list_NoDup :
    NoDup (map fst (flat_map (fun s => if nth s (p_rows P) 0 =? nth s (p_indices P) 0
                           then [(nth s (p_rows P) 0, Some s)] else [])
                 (seq 0 (length (p_rows P))))).
  Proof.
    rewrite rows_len.
    assert (H : forall a m, a + m <= p_nse P ->
      NoDup (map fst (flat_map (fun s => if nth s (p_rows P) 0 =? nth s (p_indices P) 0
                           then [(nth s (p_rows P) 0, Some s)] else []) (seq a m))) /\
      forall r, In r (map fst (flat_map (fun s => if nth s (p_rows P) 0 =? nth s (p_indices P) 0
                           then [(nth s (p_rows P) 0, Some s)] else []) (seq a m))) ->
                exists s, a <= s < a + m /\ nth s (slots P) (0,0) = (r, r)).
    { intros a m; revert a; induction m as [|m IH]; intros a Hm; cbn [seq flat_map].
      - split; [constructor | intros r []].
      - destruct (IH (S a) ltac:(lia)) as [ND Hex].
        assert (Hsl : nth a (slots P) (0,0) = (nth a (p_rows P) 0, nth a (p_indices P) 0)).
        { unfold slots. apply combine_nth. rewrite rows_len, cols_len. reflexivity. }
        destruct (Nat.eqb_spec (nth a (p_rows P) 0) (nth a (p_indices P) 0)) as [E|E]; cbn [app map fst].
        + split.
          * constructor; [|exact ND]. intros Hin. destruct (Hex _ Hin) as [s [Hs Es]].
            assert (a = s); [|lia].
            apply (proj1 (NoDup_nth (slots P) (0,0)) slots_NoDup).
            -- rewrite slots_length. lia.
            -- rewrite slots_length. lia.
            -- rewrite Hsl, Es, <- E. reflexivity.
          * intros r [<-|Hin].
            -- exists a. split; [lia|]. rewrite Hsl, <- E. reflexivity.
            -- destruct (Hex _ Hin) as [s [Hs Es]]. exists s. split; [lia|exact Es].
        + split; [exact ND|]. intros r Hin. destruct (Hex _ Hin) as [s [Hs Es]].
          exists s. split; [lia|exact Es]. }
    apply (H 0 (p_nse P)). lia.
  Qed.

  Lemma diag_length : length (p_diag P) = n.
  Proof.
    change (p_diag P) with (diag_slots_of n (p_rows P) (p_indices P)).
    unfold diag_slots_of. rewrite scatter_set_length. apply repeat_length.
  Qed.

  Lemma diag_some r s :
    r < n ->
    (nth r (p_diag P) None = Some s <-> s < p_nse P /\ nth s (slots P) (0,0) = (r, r)).
  Proof.
    intros Hr.
    change (p_diag P) with (diag_slots_of n (p_rows P) (p_indices P)).
    unfold diag_slots_of.
    set (dl := flat_map _ _).
    destruct (in_dec Nat.eq_dec r (map fst dl)) as [Hin|Hnin].
    - pose proof Hin as Hin0. apply in_map_iff in Hin. destruct Hin as [[r' o] [E Hin]]. cbn in E. subst r'.
      rewrite (@nth_scatter_set_in _ dl (repeat None n) r o None).
      + pose proof Hin as Hin1.
        apply in_flat_map in Hin1. destruct Hin1 as [s' [Hs' Hin']].
        destruct (nth s' (p_rows P) 0 =? nth s' (p_indices P) 0); [|destruct Hin'].
        destruct Hin' as [Hin'|[]]. injection Hin' as E1 E2. subst o.
        apply diag_list_in in Hin. split.
        * intros Hs. injection Hs as <-. exact Hin.
        * intros [Hs E]. f_equal. destruct Hin as [Hs2 E2].
          apply (proj1 (NoDup_nth (slots P) (0,0)) slots_NoDup);
            rewrite ?slots_length; auto. congruence.
      + apply diag_list_NoDup.
      + rewrite repeat_length. exact Hr.
      + exact Hin.
    - rewrite nth_scatter_set_notin by exact Hnin.
      replace (nth r (repeat (@None nat) n) None) with (@None nat).
      + split; [discriminate|]. intros [Hs E]. exfalso. apply Hnin.
        assert (Hin : In (r, Some s) dl) by (apply diag_list_in; auto).
        apply in_map with (f := fst) in Hin. exact Hin.
      + clear. revert r; induction n as [|m IH]; intros [|r]; cbn; auto.
  Qed.

  Lemma diag_none r :
    r < n -> (nth r (p_diag P) None = None <-> ~ In (r, r) (slots P)).
  Proof.
    intros Hr. split.
    - intros E Hin. apply (In_nth _ _ (0,0)) in Hin. destruct Hin as [s [Hs Es]].
      rewrite slots_length in Hs.
      assert (H : nth r (p_diag P) None = Some s) by (apply diag_some; auto). congruence.
    - intros Hn. destruct (nth r (p_diag P) None) as [s|] eqn:E; [|reflexivity].
      exfalso. apply diag_some in E; auto. destruct E as [Hs E]. apply Hn.
      rewrite <- E. apply nth_In. rewrite slots_length. exact Hs.
  Qed.

  (** ** Transpose maps *)
  Definition flip (p : nat * nat) : nat * nat := (snd p, fst p).

  Lemma T_keys_eq :
    map (fun p => snd p * n + fst p) (combine (p_rows P) (p_indices P)) =
    map (fun p => key_of n (flip p)) (slots P).
  Proof. reflexivity. Qed.

  Lemma T_perm_eq : p_T_perm P = argsort (map (fun p => key_of n (flip p)) (slots P)).
  Proof. reflexivity. Qed.

  Lemma T_perm_perm : Permutation (seq 0 (p_nse P)) (p_T_perm P).
  Proof.
    rewrite T_perm_eq. rewrite <- slots_length.
    rewrite <- (map_length (fun p => key_of n (flip p)) (slots P)). apply argsort_perm.
  Qed.

  Lemma T_perm_length : length (p_T_perm P) = p_nse P.
  Proof. rewrite <- (Permutation_length T_perm_perm). apply seq_length. Qed.

  Lemma T_slots_eq :
    combine (gather 0 (p_indices P) (p_T_perm P)) (p_T_indices P) =
    map flip (gather (0,0) (slots P) (p_T_perm P)).
  Proof.
    change (p_T_indices P) with (gather 0 (p_rows P) (p_T_perm P)).
    unfold gather. rewrite map_map.
    assert (E : forall s, flip (nth s (slots P) (0,0)) = (nth s (p_indices P) 0, nth s (p_rows P) 0)).
    { intros s. unfold slots, flip.
      rewrite combine_nth by (rewrite rows_len, cols_len; reflexivity). reflexivity. }
    induction (p_T_perm P) as [|s t IH]; cbn; [reflexivity|].
    rewrite E. f_equal. exact IH.
  Qed.

  Lemma T_rows_sorted : StronglySorted le (gather 0 (p_indices P) (p_T_perm P)).
  Proof.
    pose proof (argsort_sorted (map (fun p => key_of n (flip p)) (slots P))) as H.
    rewrite <- T_perm_eq in H. unfold gather in *.
    apply StronglySorted_map. apply StronglySorted_map_inv in H.
    assert (Hb : forall s, In s (p_T_perm P) -> s < p_nse P).
    { intros s Hs. eapply Permutation_in in Hs; [|symmetry; apply T_perm_perm].
      apply in_seq in Hs. lia. }
    revert H Hb. generalize (p_T_perm P) as l.
    induction l as [|x t IH]; intros H Hb; [constructor|].
    inversion H as [|? ? Hs Hf]; subst. constructor.
    - apply IH; auto. intros s Hs'. apply Hb. right; exact Hs'.
    - rewrite Forall_forall in *. intros y Hy. specialize (Hf y Hy). cbn beta in Hf.
      assert (Hx : x < p_nse P) by (apply Hb; left; reflexivity).
      assert (Hy' : y < p_nse P) by (apply Hb; right; exact Hy).
      rewrite !nth_map_in with (d := (0,0)) in Hf by (rewrite slots_length; auto).
      pose proof (slots_range _ (nth_In (slots P) (0,0) (eq_ind_r (fun m => x < m) Hx slots_length))) as [R1 R2].
      pose proof (slots_range _ (nth_In (slots P) (0,0) (eq_ind_r (fun m => y < m) Hy' slots_length))) as [R3 R4].
      assert (Ec : forall s, nth s (p_indices P) 0 = snd (nth s (slots P) (0,0))).
      { intros s. unfold slots. rewrite combine_nth by (rewrite rows_len, cols_len; reflexivity). reflexivity. }
      rewrite !Ec. unfold key_of, flip in Hf. cbn [fst snd] in Hf. nia.
  Qed.

  Lemma T_rows_lt c : In c (gather 0 (p_indices P) (p_T_perm P)) -> c < n.
  Proof.
    unfold gather. rewrite in_map_iff. intros [s [<- Hs]].
    eapply Permutation_in in Hs; [|symmetry; apply T_perm_perm]. apply in_seq in Hs.
    apply cols_lt. apply nth_In. rewrite cols_len. lia.
  Qed.
End Built.
