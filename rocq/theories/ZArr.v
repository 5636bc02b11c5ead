(** Integer arrays: [onp.unique] and [onp.searchsorted] on lists of Z. *)
From Coq Require Import ZArith List Sorting.Sorted Lia.
Import ListNotations.
Local Open Scope Z_scope.

(** [onp.unique]: the distinct values in increasing order. *)
Fixpoint insertZ (x : Z) (l : list Z) : list Z :=
  match l with
  | [] => [x]
  | y :: t => if x <? y then x :: l else if x =? y then l else y :: insertZ x t
  end.
Definition uniqueZ (l : list Z) : list Z := fold_right insertZ [] l.

(** [onp.searchsorted(a, v)] (side='left'): first position whose entry is >= v. *)
Fixpoint searchsortedZ (a : list Z) (v : Z) : nat :=
  match a with
  | [] => O
  | x :: t => if x <? v then S (searchsortedZ t v) else O
  end.

Lemma insertZ_in x l y : In y (insertZ x l) <-> y = x \/ In y l.
Proof.
  induction l as [|z t IH]; cbn; [intuition|].
  destruct (Z.ltb_spec x z); cbn; [intuition|]. destruct (Z.eqb_spec x z); cbn; [subst; intuition|].
  rewrite IH. intuition.
Qed.
Lemma uniqueZ_in l y : In y (uniqueZ l) <-> In y l.
Proof.
  induction l as [|x t IH]; cbn; [tauto|]. rewrite insertZ_in, IH. intuition.
Qed.
Lemma insertZ_sorted x l : StronglySorted Z.lt l -> StronglySorted Z.lt (insertZ x l).
Proof.
  induction l as [|z t IH]; cbn; intros H; [repeat constructor|].
  inversion H as [|? ? Hs Hf]; subst. destruct (Z.ltb_spec x z).
  - constructor; [exact H|]. constructor; [assumption|]. rewrite Forall_forall in *. intros y Hy. specialize (Hf y Hy). lia.
  - destruct (Z.eqb_spec x z); [exact H|]. constructor; [apply IH; exact Hs|].
    rewrite Forall_forall in *. intros y Hy. apply insertZ_in in Hy. destruct Hy as [->|Hy]; [lia|auto].
Qed.
Lemma uniqueZ_sorted l : StronglySorted Z.lt (uniqueZ l).
Proof. induction l as [|x t IH]; cbn; [constructor|]. apply insertZ_sorted, IH. Qed.
Lemma StronglySortedZ_NoDup l : StronglySorted Z.lt l -> NoDup l.
Proof.
  induction 1 as [|x t Hs IH Hf]; constructor; [|exact IH]. intros Hx. rewrite Forall_forall in Hf. specialize (Hf x Hx). lia.
Qed.
Lemma uniqueZ_NoDup l : NoDup (uniqueZ l).
Proof. apply StronglySortedZ_NoDup, uniqueZ_sorted. Qed.

(** A strictly sorted list is determined by its elements. *)
Lemma sortedZ_ext l1 l2 : StronglySorted Z.lt l1 -> StronglySorted Z.lt l2 ->
  (forall x, In x l1 <-> In x l2) -> l1 = l2.
Proof.
  intros H1. revert l2. induction H1 as [|x t Hs IH Hf]; intros l2 H2 E.
  - destruct l2 as [|y l2]; [reflexivity|]. destruct (proj2 (E y)); left; reflexivity.
  - destruct H2 as [|y u Hu Hg]; [destruct (proj1 (E x)); left; reflexivity|].
    rewrite Forall_forall in *.
    assert (x = y).
    { destruct (proj1 (E x) (or_introl eq_refl)) as [|Hx]; [congruence|].
      destruct (proj2 (E y) (or_introl eq_refl)) as [|Hy]; [congruence|].
      specialize (Hf y Hy). specialize (Hg x Hx). lia. }
    subst y. f_equal. apply IH; [exact Hu|]. intros z. split; intros Hz.
    + destruct (proj1 (E z) (or_intror Hz)) as [<-|]; [|assumption]. specialize (Hf x Hz). lia.
    + destruct (proj2 (E z) (or_intror Hz)) as [<-|]; [|assumption]. specialize (Hg x Hz). lia.
Qed.

Lemma searchsortedZ_le a v : (searchsortedZ a v <= length a)%nat.
Proof. induction a as [|x t IH]; cbn; [lia|]. destruct (x <? v); lia. Qed.
Lemma searchsortedZ_hit a v : StronglySorted Z.lt a -> In v a ->
  (searchsortedZ a v < length a)%nat /\ forall d, nth (searchsortedZ a v) a d = v.
Proof.
  induction a as [|x t IH]; cbn; intros Hs Hin; [tauto|].
  inversion Hs as [|? ? Hs' Hf]; subst. rewrite Forall_forall in Hf.
  destruct Hin as [->|Hin].
  - rewrite Z.ltb_irrefl. split; [lia|reflexivity].
  - specialize (Hf _ Hin). destruct (Z.ltb_spec x v); [|lia].
    destruct (IH Hs' Hin) as [H1 H2]. split; [lia | exact H2].
Qed.
Lemma searchsortedZ_nth a i d : StronglySorted Z.lt a -> (i < length a)%nat -> searchsortedZ a (nth i a d) = i.
Proof.
  intros Hs Hi. assert (Hin : In (nth i a d) a) by (apply nth_In; exact Hi).
  destruct (searchsortedZ_hit a _ Hs Hin) as [H1 H2]. specialize (H2 d).
  apply (proj1 (NoDup_nth a d) (StronglySortedZ_NoDup a Hs) _ _ H1 Hi H2).
Qed.
(** With entries before all smaller and after none smaller. *)
Lemma searchsortedZ_spec a v : StronglySorted Z.le a ->
  (forall i d, (i < searchsortedZ a v)%nat -> nth i a d < v) /\
  (forall i d, (searchsortedZ a v <= i < length a)%nat -> v <= nth i a d).
Proof.
  induction a as [|x t IH]; intros Hs; cbn; [split; intros; lia|].
  inversion Hs as [|? ? Hs' Hf]; subst. destruct (IH Hs') as [A B]. destruct (Z.ltb_spec x v).
  - split; intros [|i] d Hi; cbn; try lia; [apply A; lia|apply B; lia].
  - split; intros i d Hi; [lia|]. destruct i as [|i]; cbn; [lia|].
    assert (In (nth i t d) t) by (apply nth_In; lia). rewrite Forall_forall in Hf. specialize (Hf _ H0). lia.
Qed.

(** [onp.arange(n)]. *)
Definition arangeZ (n : Z) : list Z := map Z.of_nat (seq 0 (Z.to_nat n)).
Lemma arangeZ_in n x : In x (arangeZ n) <-> 0 <= x < n.
Proof.
  unfold arangeZ. rewrite in_map_iff. split.
  - intros (k & <- & Hk). apply in_seq in Hk. lia.
  - intros H. exists (Z.to_nat x). split; [lia|]. apply in_seq. lia.
Qed.
Lemma arangeZ_length n : length (arangeZ n) = Z.to_nat n.
Proof. unfold arangeZ. rewrite map_length, seq_length. reflexivity. Qed.
Lemma arangeZ_nth n i d : (i < Z.to_nat n)%nat -> nth i (arangeZ n) d = Z.of_nat i.
Proof.
  intros H. unfold arangeZ. rewrite nth_indep with (d' := Z.of_nat 0) by (rewrite map_length, seq_length; exact H).
  rewrite map_nth, seq_nth by exact H. reflexivity.
Qed.
Lemma arangeZ_sorted n : StronglySorted Z.lt (arangeZ n).
Proof.
  unfold arangeZ. assert (G : forall k s, StronglySorted Z.lt (map Z.of_nat (seq s k))).
  { induction k as [|k IH]; intros s; cbn; constructor; [apply IH|]. rewrite Forall_forall. intros y Hy.
    apply in_map_iff in Hy. destruct Hy as (j & <- & Hj). apply in_seq in Hj. lia. }
  apply G.
Qed.
(** Integer range [range(a, b)]. *)
Definition rangeZ (a b : Z) : list Z := map (fun k => a + k) (arangeZ (b - a)).
Lemma rangeZ_in a b x : In x (rangeZ a b) <-> a <= x < b.
Proof.
  unfold rangeZ. rewrite in_map_iff. split.
  - intros (k & <- & Hk). apply arangeZ_in in Hk. lia.
  - intros H. exists (x - a). split; [lia|]. apply arangeZ_in. lia.
Qed.
