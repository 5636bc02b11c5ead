(** Reference paths of the value array, row pointers and triangular views. *)
From Verif Require Import Base Csr_Model Csr_Proofs Ops_Proofs Assembly_Model Assembly_Spec
     Assembly_Proofs AssemblyMain_Proofs.
From Coq Require Import ZifyBool ZifyNat.
Set Implicit Arguments.

(** ** Row pointers delimit rows *)
Lemma sorted_count_below rows r s :
  StronglySorted le rows -> s < length rows ->
  (nth s rows 0 < r <-> s < count_below r rows).
Proof.
  intros Hs. revert s. induction Hs as [|x t Hs IH Hf]; cbn; intros s Hl; [lia|].
  unfold count_below in *. cbn. destruct (Nat.ltb_spec x r) as [Hx|Hx]; cbn.
  - destruct s as [|s]; [lia|]. rewrite IH by lia. lia.
  - assert (E : filter (fun x => x <? r) t = []).
    { rewrite Forall_forall in Hf. clear -Hf Hx. induction t as [|y t IH]; cbn; [reflexivity|].
      pose proof (Hf y (or_introl eq_refl)). destruct (Nat.ltb_spec y r); [lia|].
      apply IH. intros z Hz. apply Hf. right; exact Hz. }
    rewrite E. cbn. destruct s as [|s]; [lia|].
    rewrite Forall_forall in Hf. assert (In (nth s t 0) t) by (apply nth_In; lia).
    specialize (Hf _ H). lia.
Qed.

Lemma built_slot_iff n v all s i j :
  (forall p, In p all -> fst p < n /\ snd p < n) -> i < n ->
  let P := build_csr n v all in
  s < p_nse P ->
  (nth s (slots P) (0, 0) = (i, j) <->
   nth i (p_indptr P) 0 <= s < nth (S i) (p_indptr P) 0 /\ nth s (p_indices P) 0 = j).
Proof.
  intros Hr Hi P Hs. unfold P in *. rewrite !built_indptr by lia.
  assert (Hl : s < length (p_rows (build_csr n v all))) by (rewrite rows_len; exact Hs).
  pose proof (@sorted_count_below _ i s (@rows_sorted n v all Hr) Hl) as A.
  pose proof (@sorted_count_below _ (S i) s (@rows_sorted n v all Hr) Hl) as B.
  unfold slots. rewrite combine_nth by (rewrite rows_len, cols_len; reflexivity).
  split.
  - intros E. pose proof (f_equal fst E) as E1. pose proof (f_equal snd E) as E2. unfold fst, snd in E1, E2.
    split; [|exact E2]. lia.
  - intros [H1 H2]. f_equal; [lia | exact H2].
Qed.

Section Values.
  Variable K : CRing.
  Local Open Scope ring_K.
  Add Ring KringV : (cth K).

  (** ** The reference value paths *)
  Section Ref.
    Variables (n : nat) (v : view) (all : list (nat * nat)) (V : list K).
    Hypothesis Hrange : forall p, In p all -> fst p < n /\ snd p < n.
    Hypothesis HV : length V = length all.
    Local Notation P := (build_csr n v all).

    Lemma filter_combine_fst : forall (l : list (nat * nat)) (W : list K), length W = length l ->
      map fst (filter (fun q => in_view v (fst q)) (combine l W)) = filter (in_view v) l.
    Proof.
      induction l as [|p t IH]; intros [|x W] H; cbn in *; try discriminate; [reflexivity|].
      destruct (in_view v p); cbn; rewrite IH by lia; reflexivity.
    Qed.

    Lemma phits_filter q : in_view v q = true -> forall (l : list (nat * nat)) (W : list K),
      sumf (fun p => if pair_eqb (fst p) q then snd p else 0)
           (filter (fun q => in_view v (fst q)) (combine l W)) = phits K q l W.
    Proof.
      intros Hq l. induction l as [|p t IH]; intros [|x W]; cbn; try reflexivity.
      unfold phits in *. cbn [combine sumf fst snd].
      destruct (in_view v p) eqn:E; cbn [sumf fst snd].
      - rewrite IH. reflexivity.
      - rewrite IH. destruct (pair_eqb p q) eqn:E2; [|ring].
        apply pair_eqb_eq in E2. subst. congruence.
    Qed.

    Lemma csr_data_from_values_slot s : s < p_nse P ->
      get (csr_data_from_values P v all V) s = phits K (nth s (slots P) (0%nat,0%nat)) all V.
    Proof.
      intros Hs. unfold csr_data_from_values. rewrite get_segment_sum by exact Hs.
      set (F := filter (fun q => in_view v (fst q)) (combine all V)).
      set (Vf := map snd F).
      assert (LF : length F = length (filter (in_view v) all)).
      { rewrite <- (filter_combine_fst all V HV), map_length. reflexivity. }
      assert (Lorder : length (p_perm P) = length (filter (in_view v) all)).
      { change (p_perm P) with (argsort (map (key_of n) (filter (in_view v) all))).
        rewrite argsort_length, map_length. reflexivity. }
      assert (Lseg : length (p_seg_ids P) = length (p_perm P)).
      { change (p_seg_ids P) with (seg_ids_of (is_new (gather 0%nat (map (key_of n) (filter (in_view v) all))
          (argsort (map (key_of n) (filter (in_view v) all)))))).
        rewrite seg_ids_length, is_new_length, gather_length. reflexivity. }
      rewrite (sumf_combine K (fun r x => if r =? s then x else 0) (p_seg_ids P) _ 0%nat 0)
        by (rewrite gather_length; exact Lseg).
      set (g := fun k => if nth k (p_slot P) 0%nat =? s then get Vf k else 0).
      rewrite sumf_ext with (g := fun r => g (nth r (p_perm P) 0%nat)).
      2:{ intros r Hr. apply in_seq in Hr. unfold g.
          assert (E : nth (nth r (p_perm P) 0%nat) (p_slot P) 0%nat = nth r (p_seg_ids P) 0%nat).
          { change (p_slot P) with (scatter_set (repeat 0%nat (length (map (key_of n) (filter (in_view v) all))))
               (combine (p_perm P) (p_seg_ids P))).
            apply scatter_perm_nth.
            - apply argsort_NoDup.
            - symmetry; exact Lseg.
            - apply argsort_lt.
            - lia. }
          rewrite E. rewrite nth_gather by lia. reflexivity. }
      rewrite Lseg.
      rewrite <- (sumf_map K (fun r => nth r (p_perm P) 0%nat) g), map_nth_seq.
      rewrite <- (@sumf_perm K _ g (seq 0 (length (filter (in_view v) all))) (p_perm P)).
      2:{ rewrite <- (map_length (key_of n)). apply argsort_perm. }
      rewrite <- phits_filter.
      2:{ assert (Hin : In (nth s (slots P) (0%nat,0%nat)) (slots P))
            by (apply nth_In; rewrite slots_length; exact Hs).
          apply (slots_in v all Hrange) in Hin. apply filter_In in Hin. tauto. }
      fold F.
      assert (Hsum : sumf (fun p => if pair_eqb (fst p) (nth s (slots P) (0%nat, 0%nat)) then snd p else 0) F =
                     sumf (fun k => if pair_eqb (fst (nth k F ((0%nat,0%nat),0))) (nth s (slots P) (0%nat, 0%nat))
                                    then snd (nth k F ((0%nat,0%nat),0)) else 0) (seq 0 (length F))).
      { rewrite <- (map_nth_seq ((0%nat,0%nat),0) F) at 1. rewrite sumf_map. reflexivity. }
      rewrite Hsum, LF. apply sumf_ext. intros k Hk. apply in_seq in Hk. unfold g.
      assert (Hk' : k < length (filter (in_view v) all)) by lia.
      destruct (slot_correct v all Hrange Hk') as [S1 S2].
      assert (E1 : fst (nth k F (0%nat, 0%nat, 0)) = nth k (filter (in_view v) all) (0%nat,0%nat)).
      { rewrite <- (filter_combine_fst all V HV). fold F.
        rewrite nth_map_in with (d := ((0%nat,0%nat),0)) by lia. reflexivity. }
      assert (E2 : snd (nth k F (0%nat, 0%nat, 0)) = get Vf k).
      { unfold get, Vf. rewrite nth_map_in with (d := ((0%nat,0%nat),0)) by lia. reflexivity. }
      rewrite E1, E2, <- S2.
      destruct (Nat.eqb_spec (nth k (p_slot P) 0%nat) s) as [->|Hne].
      - replace (pair_eqb _ _) with true; [reflexivity|]. symmetry. apply pair_eqb_eq. reflexivity.
      - destruct (pair_eqb _ _) eqn:E; [|reflexivity]. exfalso. apply Hne. apply pair_eqb_eq in E.
        apply (proj1 (NoDup_nth (slots P) (0%nat,0%nat)) (slots_NoDup v all Hrange));
          rewrite ?slots_length; auto.
    Qed.

    Lemma csr_data_from_values_length : length (csr_data_from_values P v all V) = p_nse P.
    Proof. apply segment_sum_length. Qed.
  End Ref.

  (** ** Views *)
  Lemma get_map_seq (f : nat -> K) n i : i < n -> get (map f (seq 0 n)) i = f i.
  Proof.
    intros H. unfold get. rewrite nth_map_in with (d := 0%nat) by (rewrite seq_length; exact H).
    rewrite seq_nth by exact H. reflexivity.
  Qed.

  Lemma matvec_view_spec v (A : csr K) x i :
    valid_csr A -> m_ncols A = m_nrows A -> i < m_nrows A ->
    get (matvec_with_view v A x) i =
    match v with
    | FULL => sumf (fun j => entry A i j * get x j) (seq 0 (m_nrows A))
    | _ => sumf (fun j => (entry A i j + entry A j i - (if j =? i then entry A i i else 0)) * get x j)
                (seq 0 (m_nrows A))
    end.
  Proof.
    intros V Hsq Hi.
    assert (Hgen : get (matvec A x) i + get (rmatvec A x) i - get (diagonal A) i * get x i =
       sumf (fun j => (entry A i j + entry A j i - (if j =? i then entry A i i else 0)) * get x j)
                (seq 0 (m_nrows A))).
    { rewrite matvec_dense, rmatvec_dense, diagonal_dense by (auto; lia). rewrite Hsq.
      rewrite <- (sumf_single_nat K (fun j => entry A i i * get x j) Hi).
      rewrite <- sumf_add, <- sumf_sub. apply sumf_ext. intros j _.
      destruct (j =? i); ring. }
    destruct v; cbn [matvec_with_view].
    - rewrite matvec_dense, Hsq by auto. reflexivity.
    - rewrite get_map_seq by exact Hi. exact Hgen.
    - rewrite get_map_seq by exact Hi. exact Hgen.
  Qed.
End Values.

(** ** Structural symmetry flag *)
Lemma list_eqb_eq a : forall b, list_eqb a b = true <-> a = b.
Proof.
  unfold list_eqb. induction a as [|x a IH]; intros [|y b]; cbn.
  - split; intros; reflexivity.
  - split; discriminate.
  - split; discriminate.
  - specialize (IH b). rewrite andb_true_iff in *. cbn in *. rewrite andb_true_iff, !Nat.eqb_eq in *.
    split.
    + intros (H1 & -> & H2). f_equal. apply IH. auto.
    + intros E. pose proof (f_equal (hd 0) E) as E1. pose proof (f_equal (@tl nat) E) as E2. cbn in E1, E2.
      apply IH in E2. tauto.
Qed.

Lemma sorted_perm_eq (a b : list nat) :
  StronglySorted le a -> StronglySorted le b -> Permutation a b -> a = b.
Proof.
  intros Ha. revert b. induction Ha as [|x a Ha IH Hf]; intros b Hb Hp.
  - apply Permutation_nil in Hp. auto.
  - destruct Hb as [|y b Hb Hfb]; [symmetry in Hp; apply Permutation_nil in Hp; discriminate|].
    rewrite Forall_forall in Hf, Hfb.
    assert (x = y).
    { assert (H1 : In x (y :: b)) by (eapply Permutation_in; [exact Hp | left; reflexivity]).
      assert (H2 : In y (x :: a)) by (eapply Permutation_in; [symmetry; exact Hp | left; reflexivity]).
      destruct H1 as [H1|H1]; [auto|]. destruct H2 as [H2|H2]; [auto|].
      specialize (Hf _ H2). specialize (Hfb _ H1). lia. }
    subst y. f_equal. apply IH; [exact Hb|]. eapply Permutation_cons_inv. exact Hp.
Qed.

Section StructSym.
  Variables (n : nat) (v : view) (all : list (nat * nat)).
  Hypothesis Hr : forall p, In p all -> fst p < n /\ snd p < n.
  Local Notation P := (build_csr n v all).

  Lemma struct_sym_iff :
    p_struct_sym P = true <-> (forall i j, In (i, j) (slots P) -> In (j, i) (slots P)).
  Proof.
    change (p_struct_sym P) with (list_eqb (p_indices P) (p_T_indices P) && list_eqb (p_indptr P) (p_T_indptr P)).
    rewrite andb_true_iff, !list_eqb_eq.
    assert (TR : p_T_indptr P = indptr_of n (gather 0 (p_indices P) (p_T_perm P))) by reflexivity.
    pose proof (T_perm_perm n v all) as TP.
    split.
    - intros [E1 E2] i j Hin.
      assert (Erows : gather 0 (p_indices P) (p_T_perm P) = p_rows P).
      { pose proof (@row_of_slot_indptr ZK (Build_csr [] (p_T_indptr P) [] n n) _ TR
                     (T_rows_sorted v all Hr) (T_rows_lt v all Hr)) as A.
        pose proof (@row_of_slot_indptr ZK (Build_csr [] (p_indptr P) [] n n) (p_rows P) eq_refl
                     (rows_sorted v all Hr) (rows_lt v all Hr)) as B.
        rewrite <- A, <- B, E2. reflexivity. }
      pose proof (T_slots_eq n v all) as TS. rewrite Erows, <- E1 in TS. fold (slots P) in TS.
      rewrite TS. apply in_map_iff. exists (i, j). split; [reflexivity|].
      unfold gather. apply (In_nth _ _ (0,0)) in Hin. destruct Hin as [s [Hs <-]].
      rewrite slots_length in Hs.
      apply in_map_iff. exists s. split; [reflexivity|].
      eapply Permutation_in; [exact TP|]. apply in_seq. lia.
    - intros Hsym.
      set (tk := map (fun p => key_of n (flip p)) (slots P)).
      assert (Etk : gather 0 tk (p_T_perm P) = map (key_of n) (slots P)).
      { apply sorted_perm_eq.
        - apply argsort_sorted.
        - rewrite slots_key by exact Hr.
          pose proof (uk_sorted n v all) as Hu. clear -Hu.
          induction Hu as [|x t Hs IH Hf]; constructor; auto.
          rewrite Forall_forall in *. intros y Hy. specialize (Hf y Hy). lia.
        - etransitivity; [symmetry; exact (argsort_gather_perm tk)|]. unfold tk. rewrite <- (map_map flip (key_of n)).
          apply Permutation_map. apply NoDup_Permutation.
          + apply FinFun.Injective_map_NoDup; [|apply slots_NoDup; exact Hr].
            intros [a b] [c d] E. unfold flip in E. cbn in E. congruence.
          + apply slots_NoDup; exact Hr.
          + intros [a b]. rewrite in_map_iff. split.
            * intros [[c d] [E H]]. unfold flip in E. cbn in E.
              assert (c = b /\ d = a) as [-> ->] by (split; congruence). apply Hsym. exact H.
            * intros H. exists (b, a). split; [reflexivity | apply Hsym; exact H]. }
      assert (Hb : forall s, In s (p_T_perm P) -> s < length (slots P)).
      { intros s Hs. eapply Permutation_in in Hs; [|symmetry; exact TP]. apply in_seq in Hs.
        rewrite slots_length. lia. }
      assert (ES : map flip (gather (0,0) (slots P) (p_T_perm P)) = slots P).
      { assert (EK : map (key_of n) (map flip (gather (0,0) (slots P) (p_T_perm P))) = map (key_of n) (slots P)).
        { rewrite <- Etk. unfold gather. rewrite !map_map. apply map_ext_in. intros s Hs. unfold tk.
          rewrite nth_map_in with (d := (0,0)) by (apply Hb; exact Hs). reflexivity. }
        assert (Hinj : forall a b, (forall p, In p a -> snd p < n) -> (forall p, In p b -> snd p < n) ->
                  map (key_of n) a = map (key_of n) b -> a = b).
        { induction a as [|p a IH]; intros [|q b] Ha Hb' E; cbn [map] in E; try discriminate; [reflexivity|].
          pose proof (f_equal (hd 0) E) as E1. pose proof (f_equal (@tl nat) E) as E2. cbn [hd tl] in E1, E2.
          f_equal.
          - apply (key_inj (n := n)); [apply Ha; left; reflexivity | apply Hb'; left; reflexivity | exact E1].
          - apply IH; [intros; apply Ha; right; assumption | intros; apply Hb'; right; assumption | exact E2]. }
        apply Hinj; [| |exact EK].
        - intros p Hp. apply in_map_iff in Hp. destruct Hp as [q [<- Hq]].
          unfold gather in Hq. apply in_map_iff in Hq. destruct Hq as [s [<- Hs]].
          destruct (slots_range v all Hr (nth s (slots P) (0,0))) as [H1 H2];
            [apply nth_In; apply Hb; exact Hs | exact H1].
        - intros p Hp. destruct (slots_range v all Hr p Hp); assumption. }
      pose proof (T_slots_eq n v all) as TS. rewrite ES in TS.
      assert (L1 : length (gather 0 (p_indices P) (p_T_perm P)) = length (p_T_indices P)).
      { change (p_T_indices P) with (gather 0 (p_rows P) (p_T_perm P)). rewrite !gather_length. reflexivity. }
      split.
      + rewrite cols_slots, <- TS, combine_map_snd by exact L1. reflexivity.
      + rewrite TR. change (p_indptr P) with (indptr_of n (p_rows P)). f_equal.
        rewrite rows_slots, <- TS, combine_map_fst by exact L1. reflexivity.
  Qed.
End StructSym.
