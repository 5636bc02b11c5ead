(** C34: merging CSR sparsity patterns (/repo/feax/asd.py), and the assembled
    extra-residual Jacobian built on it. *)
From Verif Require Import Base Csr_Model Csr_Proofs Ops_Proofs Csr_Props Merge_Model Merge_Proofs.

(** ** Specification *)

(** Well-formed input patterns. *)
Definition wf_in (p : pat_in) : Prop :=
  match p with
  | PCoo nr nc rows cols => length rows = length cols /\
      (forall r, In r rows -> r < nr) /\ (forall c, In c cols -> c < nc)
  | PCsr nr nc ip ix => ptr_ok nr ip (length ix) /\ (forall c, In c ix -> c < nc)
  | PScipy nr nc es => forall i j b, In (i, j, b) es -> i < nr /\ j < nc
  | PDense _ _ _ => True
  end.

(** Position (i, j) belongs to the pattern. *)
Definition holds (p : pat_in) (i j : nat) : Prop :=
  match p with
  | PCoo _ _ rows cols => exists k, k < length rows /\ nth k rows 0 = i /\ nth k cols 0 = j
  | PCsr nr _ ip ix => i < nr /\ exists s, at_slot ip ix i j s
  | PScipy _ _ es => In (i, j, true) es
  | PDense nr nc mask => i < nr /\ j < nc /\ nth j (nth i mask []) false = true
  end.

(** Position (i, j) is stored, possibly as an explicit zero. *)
Definition stores (p : pat_in) (i j : nat) : Prop :=
  match p with
  | PScipy _ _ es => exists b, In (i, j, b) es
  | _ => holds p i j
  end.

Lemma entries_true p i j : wf_in p -> (In (i, j, true) (in_entries p) <-> holds p i j).
Proof.
  destruct p as [nr nc rows cols|nr nc ip ix|nr nc es|nr nc mask]; intros W; cbn [in_entries holds].
  - destruct W as (L & _). rewrite in_map_iff. split.
    + intros [q [E H]]. injection E as ->. apply (In_nth _ _ (0, 0)) in H. destruct H as [k [Hk E]].
      rewrite combine_length, <- L, Nat.min_id in Hk. rewrite combine_nth in E by exact L.
      injection E as E1 E2. exists k. auto.
    + intros [k (Hk & <- & <-)]. eexists. split; [reflexivity|].
      rewrite <- combine_nth by exact L. apply nth_In. rewrite combine_length, <- L, Nat.min_id. exact Hk.
  - destruct W as [P C]. rewrite in_map_iff. split.
    + intros [q [E H]]. injection E as ->. apply (in_pairs nr) in H; assumption.
    + intros H. apply (in_pairs nr) in H; [|exact P]. eexists. split; [reflexivity|exact H].
  - reflexivity.
  - rewrite in_flat_map. split.
    + intros [a [Ha H]]. apply in_flat_map in H. destruct H as [b [Hb H]]. apply in_seq in Ha, Hb.
      destruct (nth b (nth a mask []) false) eqn:E; [|destruct H]. destruct H as [H|[]].
      injection H as <- <-. repeat split; try lia. exact E.
    + intros (Hi & Hj & E). exists i. split; [apply in_seq; lia|]. apply in_flat_map.
      exists j. split; [apply in_seq; lia|]. rewrite E. left; reflexivity.
Qed.

Lemma entries_any p i j : wf_in p -> ((exists b, In (i, j, b) (in_entries p)) <-> stores p i j).
Proof.
  intros W. destruct p as [nr nc rows cols|nr nc ip ix|nr nc es|nr nc mask]; cbn [stores].
  - rewrite <- (entries_true _ _ _ W). split; [|eauto]. intros [b H]. cbn in H |- *.
    apply in_map_iff in H. destruct H as [q [E H]]. injection E as -> <-. apply in_map_iff. eauto.
  - rewrite <- (entries_true _ _ _ W). split; [|eauto]. intros [b H]. cbn in H |- *.
    apply in_map_iff in H. destruct H as [q [E H]]. injection E as -> <-. apply in_map_iff. eauto.
  - reflexivity.
  - rewrite <- (entries_true _ _ _ W). split; [|eauto]. intros [b H]. cbn [in_entries] in H |- *.
    apply in_flat_map in H. destruct H as [a [Ha H]]. apply in_flat_map. exists a. split; [exact Ha|].
    apply in_flat_map in H. destruct H as [c [Hc H]]. apply in_flat_map. exists c. split; [exact Hc|].
    destruct (nth c (nth a mask []) false); [|destruct H]. destruct H as [H|[]]. injection H as <- <- <-.
    left; reflexivity.
Qed.

Lemma entries_range p : wf_in p -> forall e, In e (in_entries p) -> fst (fst e) < in_nr p /\ snd (fst e) < in_nc p.
Proof.
  intros W [[i j] b] H. cbn [fst snd].
  assert (S : stores p i j) by (apply entries_any; eauto).
  destruct p as [nr nc rows cols|nr nc ip ix|nr nc es|nr nc mask]; cbn in W, S |- *.
  - destruct W as (L & R & C). destruct S as [k (Hk & <- & <-)]. split; [apply R|apply C]; apply nth_In; lia.
  - destruct W as (P & C). destruct S as [Hi [s Q]]. split; [exact Hi|].
    apply (at_slot_pairs nr) in Q; auto. destruct Q as [Hs Q].
    apply C. pose proof (expand_length _ _ _ P) as EL. rewrite (combine_nth _ _ _ 0 0 EL) in Q.
    injection Q as _ <-. apply nth_In. exact Hs.
  - destruct S as [b' Hb]. apply (W _ _ _ Hb).
  - tauto.
Qed.

(** ** The merged structure *)
Section Merge.
  Variables pa pb : pat_in.
  Hypothesis Wa : wf_in pa.
  Hypothesis Wb : wf_in pb.
  Hypothesis Er : in_nr pa = in_nr pb.
  Hypothesis Ec : in_nc pa = in_nc pb.
  Let A := to_scipy_pattern pa.
  Let B := to_scipy_pattern pb.
  Let nr := in_nr pa.
  Let nc := in_nc pa.
  Let es := combine (sp_pairs A) (sp_data A) ++ combine (sp_pairs B) (sp_data B).
  Let keysM := filter (fun k => existsb (fun e => (key_of nc (fst e) =? k) && snd e) es)
                      (uniq (map (fun e => key_of nc (fst e)) es)).

  Lemma es_range e : In e es -> fst (fst e) < nr /\ snd (fst e) < nc.
  Proof.
    unfold es. rewrite in_app_iff. destruct e as [p b]. cbn [fst].
    intros [H|H]; apply in_combine_l in H.
    - unfold A in H. apply canon_bound in H; [exact H|apply entries_range; exact Wa].
    - unfold B in H. unfold nr, nc. rewrite Er, Ec.
      apply canon_bound in H; [exact H|apply entries_range; exact Wb].
  Qed.

  Lemma keysM_sorted : StronglySorted lt keysM.
  Proof. apply StronglySorted_filter. apply uniq_sorted. Qed.

  Lemma keysM_bound k : In k keysM -> k < nr * nc.
  Proof.
    unfold keysM. rewrite filter_In, uniq_in, in_map_iff. intros [[e [<- He]] _].
    destruct (es_range e He). apply key_bound; assumption.
  Qed.

  Lemma spadd_eq : sp_add A B = compress nr nc keysM (map (fun _ => true) keysM).
  Proof. reflexivity. Qed.

  Lemma pairsM : sp_pairs (sp_add A B) = map (unkey nc) keysM.
  Proof. rewrite spadd_eq. apply compress_pairs; [apply keysM_sorted|apply keysM_bound]. Qed.

  Lemma pairsM_NoDup : NoDup (sp_pairs (sp_add A B)).
  Proof. rewrite spadd_eq. apply compress_NoDup; [apply keysM_sorted|apply keysM_bound]. Qed.

  Lemma slot_keysM : slot_keys (sp_add A B) = keysM.
  Proof. rewrite spadd_eq. apply compress_keys; [apply keysM_sorted|apply keysM_bound]. Qed.

  Lemma es_true i j : In (i, j, true) es <-> holds pa i j \/ holds pb i j.
  Proof.
    unfold es. rewrite in_app_iff.
    rewrite <- (entries_true pa i j Wa), <- (entries_true pb i j Wb).
    unfold A, B, to_scipy_pattern. rewrite !canon_true; [reflexivity| |]; apply entries_range; assumption.
  Qed.

  Lemma pairsM_in i j : In (i, j) (sp_pairs (sp_add A B)) <-> holds pa i j \/ holds pb i j.
  Proof.
    rewrite <- es_true, spadd_eq.
    rewrite compress_pairs_in; [|apply keysM_sorted|apply keysM_bound].
    unfold keysM. rewrite filter_In, uniq_in, existsb_exists. split.
    - intros [[_ [e [He Q]]] Hj]. apply andb_true_iff in Q. destruct Q as [Q1 Q2]. apply Nat.eqb_eq in Q1.
      destruct e as [p b]. cbn in Q1, Q2. subst b.
      assert (E : p = (i, j)) by (apply (key_inj (n := nc)); [apply (es_range _ He)|exact Hj|exact Q1]).
      subst p. exact He.
    - intros H. split; [|apply (es_range _ H)]. split.
      + apply in_map_iff. exists (i, j, true). auto.
      + exists (i, j, true). split; [exact H|]. cbn. now rewrite Nat.eqb_refl.
  Qed.

  Definition slotM (p : nat * nat) : nat := searchsorted keysM (key_of nc p).

  Lemma slotM_ok p : In p (sp_pairs (sp_add A B)) ->
    slotM p < length (sp_pairs (sp_add A B)) /\ nth (slotM p) (sp_pairs (sp_add A B)) (0, 0) = p.
  Proof.
    intros H. pose proof H as H0. rewrite spadd_eq in H0.
    apply compress_pairs_in in H0; [|apply keysM_sorted|apply keysM_bound]. destruct H0 as [Hk Hj].
    destruct (searchsorted_hit (key_of nc p) keysM_sorted Hk) as [L E].
    rewrite pairsM, map_length. split; [exact L|].
    rewrite (nth_map_in (unkey nc) keysM 0) by exact L. unfold slotM. rewrite E. apply unkey_key. exact Hj.
  Qed.

  Lemma slots_some qs : (forall p, In p qs -> In p (sp_pairs (sp_add A B))) ->
    csr_slots (sp_add A B) qs = Some (map slotM qs).
  Proof.
    intros H. rewrite csr_slots_some.
    - rewrite slot_keysM. reflexivity.
    - rewrite slot_keysM. apply keysM_sorted.
    - intros p Hp. rewrite slot_keysM. apply H in Hp. rewrite spadd_eq in Hp.
      apply compress_pairs_in in Hp; [exact (proj1 Hp)|apply keysM_sorted|apply keysM_bound].
  Qed.

  Lemma slots_none qs sl : (forall p, In p qs -> snd p < nc) ->
    csr_slots (sp_add A B) qs = Some sl -> forall p, In p qs -> In p (sp_pairs (sp_add A B)).
  Proof.
    intros R E p Hp. apply csr_slots_ok in E. destruct E as [_ E]. specialize (E p Hp).
    rewrite slot_keysM in E. change (sp_nc (sp_add A B)) with nc in E. destruct E as [L E].
    rewrite spadd_eq. apply compress_pairs_in; [apply keysM_sorted|apply keysM_bound|].
    split; [|apply R; exact Hp]. rewrite <- E. apply nth_In. exact L.
  Qed.

  Lemma A_pairs i j : In (i, j) (sp_pairs A) <-> stores pa i j.
  Proof.
    rewrite <- (entries_any pa i j Wa). unfold A, to_scipy_pattern. apply canon_in. apply entries_range; exact Wa.
  Qed.
  Lemma B_pairs i j : In (i, j) (sp_pairs B) <-> stores pb i j.
  Proof.
    rewrite <- (entries_any pb i j Wb). unfold B, to_scipy_pattern. apply canon_in. apply entries_range; exact Wb.
  Qed.

  Lemma merge_cases m : merge_csr_patterns pa pb = Some m ->
    (forall i j, stores pa i j \/ stores pb i j -> holds pa i j \/ holds pb i j) /\
    g_nr m = nr /\ g_nc m = nc /\
    g_indptr m = sp_indptr (sp_add A B) /\ g_indices m = sp_indices (sp_add A B) /\
    g_nnz m = length (sp_indices (sp_add A B)) /\
    g_slots_a m = map slotM (sp_pairs A) /\ g_slots_b m = map slotM (sp_pairs B) /\
    g_T_perm m = argsort (map (fun p => key_of nr (snd p, fst p)) (sp_pairs (sp_add A B))) /\
    g_T_indptr m = indptr_of nc (gather 0 (map snd (sp_pairs (sp_add A B))) (g_T_perm m)) /\
    g_T_indices m = gather 0 (map fst (sp_pairs (sp_add A B))) (g_T_perm m).
  Proof.
    unfold merge_csr_patterns. cbv zeta. fold A B.
    change (sp_nr A) with (in_nr pa). change (sp_nc A) with (in_nc pa).
    change (sp_nr B) with (in_nr pb). change (sp_nc B) with (in_nc pb).
    rewrite Er, Ec, !Nat.eqb_refl. cbn [andb].
    destruct (csr_slots (sp_add A B) (sp_pairs A)) as [sa|] eqn:Sa; [|discriminate].
    destruct (csr_slots (sp_add A B) (sp_pairs B)) as [sb|] eqn:Sb; [|discriminate].
    intros E. injection E as <-. cbn [g_nr g_nc g_indptr g_indices g_nnz g_slots_a g_slots_b g_T_perm g_T_indptr g_T_indices].
    assert (HA : forall p, In p (sp_pairs A) -> In p (sp_pairs (sp_add A B))).
    { apply slots_none with sa; [|exact Sa]. intros p Hp. unfold A in Hp.
      apply canon_bound in Hp; [apply Hp|apply entries_range; exact Wa]. }
    assert (HB : forall p, In p (sp_pairs B) -> In p (sp_pairs (sp_add A B))).
    { apply slots_none with sb; [|exact Sb]. intros p Hp. unfold B in Hp. unfold nc. rewrite Ec.
      apply canon_bound in Hp; [apply Hp|apply entries_range; exact Wb]. }
    split.
    { intros i j [S|S]; apply pairsM_in; [apply HA, A_pairs|apply HB, B_pairs]; exact S. }
    do 5 (split; [reflexivity|]).
    rewrite (slots_some _ HA) in Sa. rewrite (slots_some _ HB) in Sb.
    split; [congruence|]. split; [congruence|]. do 2 (split; [reflexivity|]). reflexivity.
  Qed.

  Lemma merge_total :
    (forall i j, stores pa i j \/ stores pb i j -> holds pa i j \/ holds pb i j) ->
    exists m, merge_csr_patterns pa pb = Some m.
  Proof.
    intros H. unfold merge_csr_patterns. cbv zeta. fold A B.
    change (sp_nr A) with (in_nr pa). change (sp_nc A) with (in_nc pa).
    change (sp_nr B) with (in_nr pb). change (sp_nc B) with (in_nc pb).
    rewrite Er, Ec, !Nat.eqb_refl. cbn [andb].
    rewrite (slots_some (sp_pairs A)), (slots_some (sp_pairs B)).
    - eauto.
    - intros [i j] Hp. apply pairsM_in, H. right. apply B_pairs. exact Hp.
    - intros [i j] Hp. apply pairsM_in, H. left. apply A_pairs. exact Hp.
  Qed.
End Merge.

(** ** C34: the union pattern *)

Theorem C34_union :
  forall pa pb m, wf_in pa -> wf_in pb -> merge_csr_patterns pa pb = Some m ->
  g_nr m = in_nr pa /\ g_nc m = in_nc pa /\ in_nr pb = in_nr pa /\ in_nc pb = in_nc pa /\
  ptr_ok (g_nr m) (g_indptr m) (length (g_indices m)) /\ g_nnz m = length (g_indices m) /\
  rows_sorted (g_nr m) (g_indptr m) (g_indices m) /\
  (forall i j, i < g_nr m ->
     ((exists s, at_slot (g_indptr m) (g_indices m) i j s) <-> holds pa i j \/ holds pb i j)).
Proof.
  intros pa pb m Wa Wb E.
  assert (ES : in_nr pa = in_nr pb /\ in_nc pa = in_nc pb).
  { unfold merge_csr_patterns in E. cbv zeta in E.
    change (sp_nr (to_scipy_pattern pa)) with (in_nr pa) in E. change (sp_nc (to_scipy_pattern pa)) with (in_nc pa) in E.
    change (sp_nr (to_scipy_pattern pb)) with (in_nr pb) in E. change (sp_nc (to_scipy_pattern pb)) with (in_nc pb) in E.
    destruct (Nat.eqb_spec (in_nr pa) (in_nr pb)); [|discriminate].
    destruct (Nat.eqb_spec (in_nc pa) (in_nc pb)); [|discriminate]. auto. }
  destruct ES as [Er Ec].
  destruct (merge_cases pa pb Wa Wb Er Ec m E) as (_ & E1 & E2 & E3 & E4 & E5 & _).
  pose proof (pairsM pa pb Wa Wb Er Ec) as PM. pose proof (pairsM_NoDup pa pb Wa Wb Er Ec) as ND.
  pose proof (pairsM_in pa pb Wa Wb Er Ec) as PI.
  pose proof (as_csr_valid ZK (in_nr pa) (in_nc pa) _ (keysM_bound pa pb Wa Wb Er Ec)
    (repeat 0%Z (length (filter (fun k => existsb (fun e => (key_of (in_nc pa) (fst e) =? k) && snd e)
      (combine (sp_pairs (to_scipy_pattern pa)) (sp_data (to_scipy_pattern pa)) ++
       combine (sp_pairs (to_scipy_pattern pb)) (sp_data (to_scipy_pattern pb))))
      (uniq (map (fun e => key_of (in_nc pa) (fst e))
       (combine (sp_pairs (to_scipy_pattern pa)) (sp_data (to_scipy_pattern pa)) ++
       combine (sp_pairs (to_scipy_pattern pb)) (sp_data (to_scipy_pattern pb)))))))) (repeat_length _ _)) as V.
  destruct V as [V1 V2 V3 V4 V5 V6]. cbn [m_indptr m_indices m_nrows m_ncols] in V1, V2, V3, V4, V6.
  assert (PO : ptr_ok (g_nr m) (g_indptr m) (length (g_indices m))).
  { rewrite E1, E3, E4. constructor; assumption. }
  assert (EP : combine (expand (g_nr m) (g_indptr m)) (g_indices m) =
    sp_pairs (sp_add (to_scipy_pattern pa) (to_scipy_pattern pb))).
  { rewrite E1, E3, E4. reflexivity. }
  split; [exact E1|]. split; [exact E2|]. split; [symmetry; exact Er|]. split; [symmetry; exact Ec|].
  split; [exact PO|]. split; [now rewrite E4|]. split.
  - intros i s s' Hi Hs Hss Hs'.
    assert (HL : s' < length (g_indices m)).
    { pose proof (ptr_le _ _ _ (S i) (g_nr m) PO ltac:(lia) ltac:(lia)). rewrite (po_end _ _ _ PO) in H. lia. }
    assert (Q1 : at_slot (g_indptr m) (g_indices m) i (nth s (g_indices m) 0) s) by (split; [lia|reflexivity]).
    assert (Q2 : at_slot (g_indptr m) (g_indices m) i (nth s' (g_indices m) 0) s') by (split; [lia|reflexivity]).
    apply (at_slot_pairs (g_nr m)) in Q1; auto. apply (at_slot_pairs (g_nr m)) in Q2; auto.
    destruct Q1 as [L1 Q1]. destruct Q2 as [L2 Q2]. rewrite EP, PM in Q1, Q2.
    pose proof (keysM_sorted pa pb) as KS.
    pose proof (f_equal (@length _) PM) as LM. rewrite map_length in LM.
    assert (LP : length (sp_pairs (sp_add (to_scipy_pattern pa) (to_scipy_pattern pb))) = length (g_indices m)).
    { rewrite <- EP, combine_length, (expand_length _ _ _ PO), Nat.min_id. reflexivity. }
    rewrite LP in LM.
    rewrite (nth_map_in (unkey (in_nc pa)) _ 0) in Q1 by (rewrite <- LM; exact L1).
    rewrite (nth_map_in (unkey (in_nc pa)) _ 0) in Q2 by (rewrite <- LM; exact L2).
    pose proof (StronglySorted_nth 0 KS Hss ltac:(rewrite <- LM; exact L2)) as K.
    match type of Q1 with unkey _ ?a = _ => set (ka := a) in * end.
    match type of Q2 with unkey _ ?b = _ => set (kb := b) in * end.
    assert (NC : in_nc pa <> 0).
    { intros Z. assert (B : nth s (g_indices m) 0 < in_nc pa).
      { apply V6.
        change (In (nth s (g_indices m) 0) (sp_indices (sp_add (to_scipy_pattern pa) (to_scipy_pattern pb)))).
        rewrite <- E4. apply nth_In. exact L1. } lia. }
    rewrite <- (key_unkey (in_nc pa) ka NC), <- (key_unkey (in_nc pa) kb NC) in K.
    rewrite Q1, Q2 in K. unfold key_of in K. cbn [fst snd] in K. lia.
  - intros i j Hi. rewrite <- PI, <- EP. rewrite (in_pairs (g_nr m)) by exact PO. tauto.
Qed.
Print Assumptions C34_union.

(** When the merge succeeds: equal shapes, and every explicitly stored zero is
    covered by a true entry of one of the two patterns. *)
Theorem C34_total :
  forall pa pb, wf_in pa -> wf_in pb ->
  ((exists m, merge_csr_patterns pa pb = Some m) <->
   in_nr pa = in_nr pb /\ in_nc pa = in_nc pb /\
   (forall i j, stores pa i j \/ stores pb i j -> holds pa i j \/ holds pb i j)).
Proof.
  intros pa pb Wa Wb. split.
  - intros [m E]. pose proof (C34_union pa pb m Wa Wb E) as (_ & _ & Er & Ec & _).
    symmetry in Er, Ec. split; [exact Er|]. split; [exact Ec|].
    exact (proj1 (merge_cases pa pb Wa Wb Er Ec m E)).
  - intros (Er & Ec & H). exact (merge_total pa pb Wa Wb Er Ec H).
Qed.
Print Assumptions C34_total.

(** An explicitly stored zero (a value 0 kept in the scipy structure, or cancelled
    duplicates) makes the call fail although both patterns are well formed. *)
Theorem C34_explicit_zero_refuted :
  exists pa pb, wf_in pa /\ wf_in pb /\ in_nr pa = in_nr pb /\ in_nc pa = in_nc pb /\
  merge_csr_patterns pa pb = None.
Proof.
  exists (PScipy 2 2 [(0, 0, true); (1, 0, false)]), (PCoo 2 2 [1] [1]).
  split; [|split; [|vm_compute; auto]].
  - cbn. intros i j b [H|[H|[]]]; injection H as <- <- <-; lia.
  - cbn. repeat split; intros; intuition lia.
Qed.
Print Assumptions C34_explicit_zero_refuted.

(** ** C34: the sum of two matrices *)

Definition pat_of {K : CRing} (A : csr K) : pat_in :=
  PCsr (m_nrows A) (m_ncols A) (m_indptr A) (m_indices A).

Lemma valid_ptr (K : CRing) (A : csr K) : valid_csr A -> ptr_ok (m_nrows A) (m_indptr A) (length (m_indices A)).
Proof. intros [V1 V2 V3 V4 V5 V6]. constructor; assumption. Qed.

Lemma pat_of_wf (K : CRing) (A : csr K) : valid_csr A -> wf_in (pat_of A).
Proof. intros V. split; [apply valid_ptr; exact V|apply (v_cols V)]. Qed.

(** Transposing any matrix with the (column, row) order of its stored positions. *)
Section Transposed.
  Variable K : CRing.
  Local Open Scope ring_K.
  Add Ring KRT : (cth K).
  Variables (nr nc : nat) (L : list (nat * nat)) (data : list K).
  Hypothesis HR : forall p, In p L -> fst p < nr /\ snd p < nc.
  Hypothesis HD : length data = length L.
  Let perm := argsort (map (fun p => key_of nr (snd p, fst p)) L).
  Let T := @Build_csr K (gather 0 data perm) (indptr_of nc (gather 0%nat (map snd L) perm))
             (gather 0%nat (map fst L) perm) nc nr.

  Lemma perm_perm : Permutation (seq 0 (length L)) perm.
  Proof.
    unfold perm. rewrite <- (map_length (fun p => key_of nr (snd p, fst p)) L) at 1. apply argsort_perm.
  Qed.

  Lemma perm_lt s : In s perm -> s < length L.
  Proof.
    intros H. eapply Permutation_in in H; [|symmetry; apply perm_perm]. apply in_seq in H. lia.
  Qed.

  Lemma nth_snd s : s < length L -> nth s (map snd L) 0%nat = snd (nth s L (0, 0)%nat).
  Proof. intros H. apply (nth_map_in snd L (0, 0)%nat). exact H. Qed.
  Lemma nth_fst s : s < length L -> nth s (map fst L) 0%nat = fst (nth s L (0, 0)%nat).
  Proof. intros H. apply (nth_map_in fst L (0, 0)%nat). exact H. Qed.

  Lemma T_sorted : StronglySorted le (gather 0%nat (map snd L) perm).
  Proof.
    pose proof (argsort_sorted (map (fun p => key_of nr (snd p, fst p)) L)) as H. fold perm in H.
    unfold gather in *. apply StronglySorted_map. apply StronglySorted_map_inv in H.
    assert (Hb : forall s, In s perm -> s < length L) by apply perm_lt.
    revert H Hb. generalize perm as l. induction l as [|x t IH]; intros H Hb; [constructor|].
    inversion H as [|? ? Hs Hf]; subst. constructor.
    - apply IH; auto. intros s Hs'. apply Hb. right; exact Hs'.
    - rewrite Forall_forall in *. intros y Hy. specialize (Hf y Hy). cbn beta in Hf.
      assert (Hx : x < length L) by (apply Hb; left; reflexivity).
      assert (Hy' : y < length L) by (apply Hb; right; exact Hy).
      rewrite !(nth_map_in (fun p => key_of nr (snd p, fst p)) L (0, 0)%nat) in Hf by assumption.
      rewrite !nth_snd by assumption.
      destruct (HR _ (nth_In L (0, 0)%nat Hx)) as [R1 R2]. destruct (HR _ (nth_In L (0, 0)%nat Hy')) as [R3 R4].
      unfold key_of in Hf. cbn [fst snd] in Hf.
      generalize dependent (nth x L (0, 0)%nat). generalize dependent (nth y L (0, 0)%nat).
      clear. intros p H1 H2 q H3 H4 H5. nia.
  Qed.

  Lemma T_rows : row_of_slot T = gather 0%nat (map snd L) perm.
  Proof.
    apply row_of_slot_indptr; [reflexivity|apply T_sorted|].
    intros x Hx. cbn. unfold gather in Hx. apply in_map_iff in Hx. destruct Hx as [s [<- Hs]].
    apply perm_lt in Hs. rewrite nth_snd by exact Hs. apply HR, nth_In. exact Hs.
  Qed.

  Lemma T_dense i j : todense T i j =
    sumf (fun p => if at_pos j i (fst p) then snd p else 0) (combine L data).
  Proof.
    unfold todense. rewrite T_rows. cbn [T m_indices m_data]. unfold gather.
    rewrite (combine_maps _ _ _ (fun s => nth s (map snd L) 0%nat) (fun s => nth s (map fst L) 0%nat)).
    rewrite (combine_maps _ _ _ (fun s => (nth s (map snd L) 0%nat, nth s (map fst L) 0%nat)) (fun s => nth s data 0)).
    rewrite sumf_map. cbn [fst snd].
    rewrite (@sumf_perm K nat _ _ _ (Permutation_sym perm_perm)).
    transitivity (sumf (fun s => if at_pos j i (nth s L (0, 0)%nat) then get data s else 0) (seq 0 (length L))).
    - apply sumf_ext. intros s Hs. apply in_seq in Hs. rewrite nth_snd, nth_fst by lia.
      unfold at_pos. rewrite andb_comm. reflexivity.
    - symmetry. exact (sumf_combine_nth K _ L (0, 0)%nat data (fun p x => if at_pos j i p then x else 0) HD).
  Qed.

  Lemma T_is_valid : valid_csr T.
  Proof.
    assert (Hrow : forall x, In x (gather 0%nat (map snd L) perm) -> x < nc).
    { intros x Hx. unfold gather in Hx. apply in_map_iff in Hx. destruct Hx as [s [<- Hs]].
      apply perm_lt in Hs. rewrite nth_snd by exact Hs. apply HR, nth_In. exact Hs. }
    constructor; cbn [T m_indptr m_indices m_nrows m_ncols m_data].
    - rewrite indptr_length. lia.
    - rewrite nth_indptr by lia. unfold count_below. clear. induction (gather _ _ _) as [|k t IH]; cbn; auto.
    - intros r Hlt. rewrite !nth_indptr by lia. apply count_below_mono. lia.
    - rewrite nth_indptr by lia. rewrite count_below_all by exact Hrow. now rewrite !gather_length.
    - now rewrite !gather_length.
    - intros c Hc. unfold gather in Hc. apply in_map_iff in Hc. destruct Hc as [s [<- Hs]].
      apply perm_lt in Hs. rewrite nth_fst by exact Hs. apply HR, nth_In. exact Hs.
  Qed.
End Transposed.

Section Sum.
  Variable K : CRing.
  Local Open Scope ring_K.
  Add Ring KRS : (cth K).

  Lemma todense_pairs (A : csr K) i j : todense A i j =
    sumf (fun p => if at_pos i j (fst p) then snd p else 0)
      (combine (combine (expand (m_nrows A) (m_indptr A)) (m_indices A)) (m_data A)).
  Proof. reflexivity. Qed.

  Variables A B : csr K.
  Hypothesis VA : valid_csr A.
  Hypothesis VB : valid_csr B.
  Hypothesis SA : rows_sorted (m_nrows A) (m_indptr A) (m_indices A).
  Hypothesis SB : rows_sorted (m_nrows B) (m_indptr B) (m_indices B).
  Hypothesis Er : m_nrows A = m_nrows B.
  Hypothesis Ec : m_ncols A = m_ncols B.

  Let a := to_scipy_pattern (pat_of A).
  Let b := to_scipy_pattern (pat_of B).
  Let L := sp_pairs (sp_add a b).

  Variable m : merged.
  Hypothesis HM : merge_csr_patterns (pat_of A) (pat_of B) = Some m.
  Let data := merged_data m (m_data A) (m_data B) (length (m_indices B)).
  Let M := merged_csr m data.

  Lemma sum_parts :
    length data = length L /\
    combine (row_of_slot M) (m_indices M) = L /\
    (forall i j, todense M i j = todense A i j + todense B i j) /\
    valid_csr M /\ valid_csr (merged_T m data) /\
    (forall i j, todense (merged_T m data) i j = todense M j i).
  Proof.
    pose proof (pat_of_wf K A VA) as Wa. pose proof (pat_of_wf K B VB) as Wb.
    destruct (merge_cases (pat_of A) (pat_of B) Wa Wb Er Ec m HM)
      as (_ & E1 & E2 & E3 & E4 & E5 & E6 & E7 & E8 & E9 & E10).
    fold a b in E3, E4, E5, E6, E7, E8, E9, E10. fold L in E8, E9, E10.
    change (in_nr (pat_of A)) with (m_nrows A) in *. change (in_nc (pat_of A)) with (m_ncols A) in *.
    pose proof (pairsM (pat_of A) (pat_of B) Wa Wb Er Ec) as PM.
    pose proof (pairsM_NoDup (pat_of A) (pat_of B) Wa Wb Er Ec) as ND.
    pose proof (slotM_ok (pat_of A) (pat_of B) Wa Wb Er Ec) as SO.
    pose proof (pairsM_in (pat_of A) (pat_of B) Wa Wb Er Ec) as PI.
    fold a b in PM, ND, SO, PI. fold L in PM, ND, SO, PI.
    set (sl := slotM (pat_of A) (pat_of B)) in *.
    assert (LI : length (sp_indices (sp_add a b)) = length L).
    { rewrite PM, map_length. unfold sp_add. cbn [sp_indices compress]. rewrite map_length. reflexivity. }
    assert (PA : sp_pairs a = combine (expand (m_nrows A) (m_indptr A)) (m_indices A)).
    { apply canonical_sorted; [apply valid_ptr; exact VA|exact SA|apply (v_cols VA)]. }
    assert (PB : sp_pairs b = combine (expand (m_nrows B) (m_indptr B)) (m_indices B)).
    { apply canonical_sorted; [apply valid_ptr; exact VB|exact SB|apply (v_cols VB)]. }
    assert (LD : length data = length L).
    { unfold data, merged_data; cbv zeta.
      destruct (length (m_indices B) =? 0)%nat; rewrite ?scatter_add_length; unfold zeros; rewrite repeat_length, E5; exact LI. }
    assert (PL : combine (row_of_slot M) (m_indices M) = L).
    { unfold M, merged_csr, row_of_slot. cbn [m_nrows m_indptr m_indices]. rewrite E1, E3, E4. reflexivity. }
    assert (HLA : forall p, In p (sp_pairs a) -> In p L).
    { intros [i j] Hp. apply PI. left. cbn [holds pat_of]. apply (in_pairs (m_nrows A)); [apply valid_ptr; exact VA|].
      rewrite <- PA. exact Hp. }
    assert (HLB : forall p, In p (sp_pairs b) -> In p L).
    { intros [i j] Hp. apply PI. right. cbn [holds pat_of]. apply (in_pairs (m_nrows B)); [apply valid_ptr; exact VB|].
      rewrite <- PB. exact Hp. }
    assert (HRL : forall p, In p L -> fst p < m_nrows A /\ snd p < m_ncols A).
    { intros p Hp. unfold L, a, b in Hp. rewrite (spadd_eq (pat_of A) (pat_of B)) in Hp.
      apply compress_bound in Hp; [exact Hp|apply keysM_sorted|apply keysM_bound; assumption]. }
    split; [exact LD|]. split; [exact PL|].
    assert (DM : forall i j, todense M i j = todense A i j + todense B i j).
    { intros i j. rewrite (todense_pairs A), (todense_pairs B), <- PA, <- PB.
      destruct (in_dec (fun p q : nat * nat => ltac:(decide equality; apply Nat.eq_dec)) (i, j) L) as [Hin|Hn].
      - pose proof (SO _ Hin) as [Hs Hnth].
        rewrite (todense_hit K M L (sl (i, j)) i j PL ND LD Hs Hnth).
        cbn [M merged_csr m_data]. unfold data, merged_data. cbv zeta. rewrite E6, E7, E5, LI.
        assert (ZL : length (zeros (length L) : list K) = length L) by (unfold zeros; apply repeat_length).
        assert (SA' : get (scatter_add (zeros (length L)) (combine (map sl (sp_pairs a)) (m_data A))) (sl (i, j)) =
           sumf (fun p => if at_pos i j (fst p) then snd p else 0) (combine (sp_pairs a) (m_data A))).
        { rewrite (scatter_positions K L (sp_pairs a) sl (m_data A) (zeros (length L)) _ i j); auto.
          rewrite get_zeros. ring. }
        destruct (Nat.eqb_spec (length (m_indices B)) 0) as [Z|NZ].
        + rewrite SA'. replace (sp_pairs b) with (@nil (nat * nat)); [cbn [combine sumf]; ring|].
          rewrite PB. destruct (m_indices B); [|discriminate]. now rewrite combine_nil.
        + rewrite (scatter_positions K L (sp_pairs b) sl (m_data B) _ _ i j); auto.
          * rewrite SA'. reflexivity.
          * rewrite scatter_add_length. exact ZL.
      - rewrite (todense_miss K M L i j PL Hn). rewrite !sumf_zero; [ring| |].
        + intros [p x] Hp. apply in_combine_l in Hp. cbn [fst snd]. destruct (at_pos i j p) eqn:Q; [|reflexivity].
          apply at_pos_eq in Q. subst p. exfalso. apply Hn, HLB, Hp.
        + intros [p x] Hp. apply in_combine_l in Hp. cbn [fst snd]. destruct (at_pos i j p) eqn:Q; [|reflexivity].
          apply at_pos_eq in Q. subst p. exfalso. apply Hn, HLA, Hp. }
    split; [exact DM|]. split.
    { pose proof (C34_union (pat_of A) (pat_of B) m Wa Wb HM) as (_ & _ & _ & _ & [U1 U2 U3 U4] & _ & _).
      constructor; cbn [M merged_csr m_indptr m_indices m_nrows m_ncols m_data]; try assumption.
      - rewrite LD, E4. symmetry. exact LI.
      - intros c Hc. rewrite E4 in Hc. rewrite E2.
        assert (EL : sp_indices (sp_add a b) = map snd L).
        { rewrite PM, map_map. unfold sp_add. cbn [sp_indices compress]. apply map_ext. reflexivity. }
        rewrite EL in Hc. apply in_map_iff in Hc. destruct Hc as [p [<- Hp]]. apply HRL. exact Hp. }
    assert (TE : merged_T m data = @Build_csr K (gather 0 data (argsort (map (fun p => key_of (m_nrows A) (snd p, fst p)) L)))
       (indptr_of (m_ncols A) (gather 0%nat (map snd L) (argsort (map (fun p => key_of (m_nrows A) (snd p, fst p)) L))))
       (gather 0%nat (map fst L) (argsort (map (fun p => key_of (m_nrows A) (snd p, fst p)) L))) (m_ncols A) (m_nrows A)).
    { unfold merged_T, transpose_with_maps. cbn [merged_csr m_data m_nrows m_ncols]. rewrite E9, E10, E8, E1, E2. reflexivity. }
    rewrite TE. split; [apply T_is_valid; assumption|].
    intros i j. rewrite T_dense by assumption. rewrite (todense_pairs M).
    change (combine (expand (m_nrows M) (m_indptr M)) (m_indices M)) with (combine (row_of_slot M) (m_indices M)).
    rewrite PL. reflexivity.
  Qed.
End Sum.

(** The assembled sum and its transpose: for matrices whose rows are stored with
    strictly increasing columns, the merged matrix is A + B, and transposing it
    with the returned maps gives (A + B) transposed. *)
Theorem C34_sum :
  forall (K : CRing) (A B : csr K),
  valid_csr A -> valid_csr B ->
  rows_sorted (m_nrows A) (m_indptr A) (m_indices A) ->
  rows_sorted (m_nrows B) (m_indptr B) (m_indices B) ->
  m_nrows A = m_nrows B -> m_ncols A = m_ncols B ->
  exists m, merge_csr_patterns (pat_of A) (pat_of B) = Some m /\
  let data := merged_data m (m_data A) (m_data B) (length (m_indices B)) in
  let M := merged_csr m data in
  let T := merged_T m data in
  valid_csr M /\ (forall i j, todense M i j = cadd (todense A i j) (todense B i j)) /\
  valid_csr T /\ (forall i j, todense T i j = cadd (todense A j i) (todense B j i)).
Proof.
  intros K A B VA VB SA SB Er Ec.
  destruct (merge_total (pat_of A) (pat_of B) (pat_of_wf K A VA) (pat_of_wf K B VB) Er Ec) as [m HM].
  { intros i j H. exact H. }
  exists m. split; [exact HM|]. cbv zeta.
  destruct (sum_parts K A B VA VB SA SB Er Ec m HM) as (_ & _ & D & V & VT & DT).
  split; [exact V|]. split; [exact D|]. split; [exact VT|]. intros i j. rewrite DT. apply D.
Qed.
Print Assumptions C34_sum.

Example C34_example :
  let A := @Build_csr ZK [1; 2; 3]%Z [0; 2; 3; 3] [0; 2; 1] 3 3 in
  let B := @Build_csr ZK [10; 20; 30]%Z [0; 1; 1; 3] [2; 0; 2] 3 3 in
  valid_csr A /\ valid_csr B /\
  rows_sorted 3 (m_indptr A) (m_indices A) /\ rows_sorted 3 (m_indptr B) (m_indices B) /\
  match merge_csr_patterns (pat_of A) (pat_of B) with
  | Some m => g_indptr m = [0; 2; 3; 5] /\ g_indices m = [0; 2; 1; 0; 2] /\
      merged_data m (m_data A) (m_data B) 3 = ([1; 12; 3; 20; 30]%Z : list ZK) /\
      g_T_perm m = [0; 3; 2; 1; 4]
  | None => False
  end.
Proof.
  cbv zeta.
  assert (S : forall ip ix, rows_sorted 3 ip ix <->
    forall i, i < 3 -> forall s s', nth i ip 0 <= s -> s < s' -> s' < nth (S i) ip 0 -> nth s ix 0 < nth s' ix 0).
  { unfold rows_sorted. firstorder. }
  split; [|split; [|split; [|split; [|vm_compute; auto]]]].
  - constructor; cbn; try reflexivity.
    + intros [|[|[|r]]] H; cbn; lia.
    + intros c H. lia.
  - constructor; cbn; try reflexivity.
    + intros [|[|[|r]]] H; cbn; lia.
    + intros c H. lia.
  - apply S. intros [|[|[|i]]] Hi; cbn; intros s s' H1 H2 H3; try lia.
    assert (s = 0 /\ s' = 1) as [-> ->] by lia. cbn. lia.
  - apply S. intros [|[|[|i]]] Hi; cbn; intros s s' H1 H2 H3; try lia.
    assert (s = 1 /\ s' = 2) as [-> ->] by lia. cbn. lia.
Qed.

(** The slot maps follow the canonical order of each input: for a matrix whose row
    is stored in another column order the scattered data is a different matrix. *)
Theorem C34_unsorted_refuted :
  exists (A B : csr ZK) m, valid_csr A /\ valid_csr B /\
  m_nrows A = m_nrows B /\ m_ncols A = m_ncols B /\
  merge_csr_patterns (pat_of A) (pat_of B) = Some m /\
  todense (merged_csr m (merged_data m (m_data A) (m_data B) (length (m_indices B)))) 0 0
    <> (todense A 0 0 + todense B 0 0)%Z.
Proof.
  exists (@Build_csr ZK [1; 2]%Z [0; 2] [1; 0] 1 2), (@Build_csr ZK [5]%Z [0; 1] [0] 1 2).
  eexists. split; [|split; [|do 2 (split; [reflexivity|]); split; [vm_compute; reflexivity|]]].
  - constructor; cbn; try reflexivity; [intros [|r] H; cbn; lia|intros c H; lia].
  - constructor; cbn; try reflexivity; [intros [|r] H; cbn; lia|intros c H; lia].
  - vm_compute. discriminate.
Qed.
Print Assumptions C34_unsorted_refuted.

(** ** The bulk Jacobian and detected Jacobians are in the required form *)

Lemma built_rows_sorted n v all : (forall p, In p all -> fst p < n /\ snd p < n) ->
  rows_sorted n (p_indptr (build_csr n v all)) (p_indices (build_csr n v all)).
Proof.
  intros Hr i s s' Hi H1 H2 H3.
  assert (Q1 : stored (build_csr n v all) i (nth s (p_indices (build_csr n v all)) 0) s) by (split; [lia|reflexivity]).
  assert (Q2 : stored (build_csr n v all) i (nth s' (p_indices (build_csr n v all)) 0) s') by (split; [lia|reflexivity]).
  apply (stored_slots v all Hr) in Q1; [|exact Hi]. apply (stored_slots v all Hr) in Q2; [|exact Hi].
  destruct Q1 as [L1 Q1]. destruct Q2 as [L2 Q2].
  pose proof (StronglySorted_nth (0, 0) (slots_sorted v all Hr) H2 ltac:(rewrite slots_length; exact L2)) as K.
  rewrite Q1, Q2 in K. destruct K as [K|[_ K]]; cbn [fst snd] in K; [exfalso; exact (Nat.lt_irrefl _ K)|exact K].
Qed.

(** solvers/newton.py:439-465: bulk tangent on the compiled FULL pattern of the
    problem plus an extra tangent. *)
Theorem C34_bulk_plus_extra :
  forall (K : CRing) n all (data : list K) (B : csr K),
  (forall p, In p all -> fst p < n /\ snd p < n) ->
  let P := build_csr n FULL all in
  length data = p_nse P ->
  valid_csr B -> rows_sorted n (m_indptr B) (m_indices B) -> m_nrows B = n -> m_ncols B = n ->
  exists m, merge_csr_patterns (PCsr n n (p_indptr P) (p_indices P)) (pat_of B) = Some m /\
  let d := merged_data m data (m_data B) (length (m_indices B)) in
  (forall i j, todense (merged_csr m d) i j = cadd (todense (csr_of P data) i j) (todense B i j)) /\
  (forall i j, todense (merged_T m d) i j = cadd (todense (csr_of P data) j i) (todense B j i)).
Proof.
  intros K n all data B Hr P HD VB SB Er Ec.
  destruct (C34_sum K (csr_of P data) B) as [m [E H]].
  - apply built_valid; [exact Hr|exact HD].
  - exact VB.
  - exact (built_rows_sorted n FULL all Hr).
  - rewrite Er. exact SB.
  - symmetry; exact Er.
  - symmetry; exact Ec.
  - exists m. split; [exact E|]. cbv zeta in H |- *. destruct H as (_ & D & _ & T). auto.
Qed.
Print Assumptions C34_bulk_plus_extra.

(** asd.py:194-210: values listed in any order of the detected positions are placed
    on the canonical pattern; positions never detected are zero. *)
Theorem C34_producer :
  forall (K : CRing) nr nc rows cols (vals : list K) (J : nat -> nat -> K),
  length rows = length cols -> length vals = length rows ->
  (forall r, In r rows -> r < nr) -> (forall c, In c cols -> c < nc) ->
  (forall k, k < length rows -> get vals k = J (nth k rows 0) (nth k cols 0)) ->
  exists A, csr_producer nr nc rows cols vals = Some A /\
  valid_csr A /\ m_nrows A = nr /\ m_ncols A = nc /\
  rows_sorted nr (m_indptr A) (m_indices A) /\
  (forall k, k < length rows -> todense A (nth k rows 0) (nth k cols 0) = J (nth k rows 0) (nth k cols 0)) /\
  (forall i j, ~ holds (PCoo nr nc rows cols) i j -> todense A i j = c0).
Proof.
  intros K nr nc rows cols vals J HL HV HR HC HJ.
  set (p := PCoo nr nc rows cols). assert (W : wf_in p) by (split; [exact HL|split; assumption]).
  pose proof (entries_range p W) as Rg. cbn [in_nr in_nc p] in Rg.
  set (es := in_entries p) in *. set (keys := uniq (map (fun e => key_of nc (fst e)) es)).
  set (A0 := to_scipy_pattern p).
  pose proof (canon_keys nr nc es Rg) as KE. pose proof (canon_pairs nr nc es Rg) as PE.
  pose proof (canon_NoDup nr nc es Rg) as ND. pose proof (canon_keys_sorted nc es) as KS.
  pose proof (canon_keys_bound nr nc es Rg) as KB. fold keys in KE, PE, KS, KB.
  change (canonical nr nc es) with A0 in KE, PE, ND.
  assert (IN : forall q, In q (combine rows cols) -> In q (sp_pairs A0)).
  { intros q Hq. apply (canon_in nr nc es Rg). exists true. unfold es, p. cbn [in_entries]. apply in_map_iff. eauto. }
  assert (SL : forall q, In q (combine rows cols) -> searchsorted keys (key_of nc q) < length keys /\
     nth (searchsorted keys (key_of nc q)) (sp_pairs A0) (0, 0) = q).
  { intros q Hq. apply IN in Hq. pose proof (canon_bound nr nc es Rg q Hq) as [_ Bq].
    rewrite PE in Hq. apply in_map_iff in Hq. destruct Hq as [k [<- Hk]].
    assert (nc <> 0) by lia. rewrite key_unkey by assumption.
    destruct (searchsorted_hit k KS Hk) as [L E]. split; [exact L|].
    rewrite PE, (nth_map_in (unkey nc) keys 0) by exact L. now rewrite E. }
  assert (SS : csr_slots A0 (combine rows cols) = Some (map (fun q => searchsorted keys (key_of nc q)) (combine rows cols))).
  { rewrite csr_slots_some.
    - rewrite KE. reflexivity.
    - rewrite KE. exact KS.
    - intros q Hq. apply IN in Hq. unfold slot_keys. apply in_map. exact Hq. }
  unfold csr_producer. cbv zeta. change (PCoo nr nc rows cols) with p. fold A0. rewrite SS.
  eexists. split; [reflexivity|].
  assert (LI : length (sp_indices A0) = length keys) by (unfold A0, to_scipy_pattern, canonical; cbn; now rewrite map_length).
  set (data := if length (sp_indices A0) =? 0 then [] else scatter_set (zeros (length (sp_indices A0)))
     (combine (map (fun q => searchsorted keys (key_of nc q)) (combine rows cols)) vals)).
  assert (LD : length data = length keys).
  { unfold data. destruct (Nat.eqb_spec (length (sp_indices A0)) 0) as [Z|NZ]; [rewrite <- LI, Z; reflexivity|].
    rewrite scatter_set_length. unfold zeros. rewrite repeat_length. exact LI. }
  pose proof (as_csr_valid K nr nc keys KB data LD) as V.
  change (sp_indptr (compress nr nc keys [])) with (sp_indptr A0) in V.
  change (sp_indices (compress nr nc keys [])) with (sp_indices A0) in V.
  set (A := @Build_csr K data (sp_indptr A0) (sp_indices A0) nr nc) in *.
  assert (PL : combine (row_of_slot A) (m_indices A) = sp_pairs A0) by reflexivity.
  split; [exact V|]. split; [reflexivity|]. split; [reflexivity|].
  assert (LP : length (sp_pairs A0) = length keys) by (rewrite PE; apply map_length).
  split; [|split].
  - pose proof (valid_ptr K A V) as PO.
    intros i s s' Hi H1 H2 H3.
    assert (Q1 : at_slot (m_indptr A) (m_indices A) i (nth s (m_indices A) 0) s) by (split; [lia|reflexivity]).
    assert (Q2 : at_slot (m_indptr A) (m_indices A) i (nth s' (m_indices A) 0) s') by (split; [lia|reflexivity]).
    apply (at_slot_pairs nr) in Q1; auto. apply (at_slot_pairs nr) in Q2; auto.
    change (combine (expand nr (m_indptr A)) (m_indices A)) with (sp_pairs A0) in Q1, Q2.
    destruct Q1 as [L1 Q1]. destruct Q2 as [L2 Q2]. cbn [A m_indices] in L1, L2. rewrite LI in L1, L2.
    rewrite PE, (nth_map_in (unkey nc) keys 0) in Q1 by exact L1.
    rewrite PE, (nth_map_in (unkey nc) keys 0) in Q2 by exact L2.
    pose proof (StronglySorted_nth 0 KS H2 L2) as Q.
    assert (NC : nc <> 0).
    { specialize (KB (nth s keys 0) (nth_In _ _ L1)). intros Z. rewrite Z in KB. lia. }
    rewrite <- (key_unkey nc (nth s keys 0) NC), <- (key_unkey nc (nth s' keys 0) NC), Q1, Q2 in Q.
    unfold key_of in Q. cbn [fst snd] in Q. lia.
  - intros k Hk. rewrite <- (HJ k Hk).
    set (q := (nth k rows 0, nth k cols 0)).
    assert (Iq : In q (combine rows cols)).
    { unfold q. rewrite <- combine_nth by exact HL. apply nth_In. rewrite combine_length, <- HL, Nat.min_id. exact Hk. }
    destruct (SL q Iq) as [S1 S2].
    rewrite (todense_hit K A (sp_pairs A0) (searchsorted keys (key_of nc q)) _ _ PL ND) ;
      [|rewrite LP; exact LD|rewrite LP; exact S1|exact S2].
    cbn [A m_data]. unfold data.
    destruct (Nat.eqb_spec (length (sp_indices A0)) 0) as [Z|NZ]; [lia|]. unfold get.
    (* every write to this slot carries the same value *)
    assert (G : forall (iv : list (nat * K)) base s x, s < length base ->
       (forall y, In (s, y) iv -> y = x) -> (exists y, In (s, y) iv) -> nth s (scatter_set base iv) c0 = x).
    { clear. unfold scatter_set. induction iv as [|[t y] iv IH]; intros base s x Hs Ha [z Hz]; [destruct Hz|].
      cbn [fold_left fst snd].
      destruct (in_dec Nat.eq_dec s (map fst iv)) as [I|N].
      - apply IH; [rewrite upd_length; exact Hs|intros; apply Ha; right; assumption|].
        apply in_map_iff in I. destruct I as [[s' z'] [E I]]. cbn in E. subst. eauto.
      - destruct Hz as [E|Hz]; [|exfalso; apply N; apply in_map_iff; exists (s, z); auto].
        injection E as -> ->.
        assert (Q := nth_scatter_set_notin iv (upd base s z) s c0). unfold scatter_set in Q. rewrite Q by exact N.
        rewrite nth_upd, Nat.eqb_refl, (proj2 (Nat.ltb_lt _ _) Hs). apply Ha. left; reflexivity. }
    apply G.
    + unfold zeros. rewrite repeat_length, LI. exact S1.
    + intros y Hy. rewrite combine_map_l in Hy. apply in_map_iff in Hy. destruct Hy as [[q' y'] [E Hy]].
      cbn [fst snd] in E. injection E as E1 E2. subst y'.
      assert (Iq' : In q' (combine rows cols)) by (apply in_combine_l in Hy; exact Hy).
      destruct (SL q' Iq') as [S1' S2']. rewrite E1 in S2'. rewrite S2 in S2'. subst q'.
      apply (In_nth _ _ ((0, 0), c0)) in Hy. destruct Hy as [k' [Hk' E]].
      assert (LC : length (combine rows cols) = length vals) by (rewrite combine_length, <- HL, Nat.min_id; lia).
      rewrite combine_length, LC, Nat.min_id in Hk'.
      rewrite (combine_nth _ _ _ _ _ LC), (combine_nth _ _ _ _ _ HL) in E. unfold q in E. injection E as F1 F2 F3.
      rewrite <- F3. change (nth k' vals c0) with (get vals k'). change (nth k vals c0) with (get vals k).
      rewrite (HJ k' ltac:(lia)), (HJ k Hk). congruence.
    + exists (get vals k). rewrite combine_map_l. apply in_map_iff. exists (q, get vals k). split; [reflexivity|].
      assert (LC : length (combine rows cols) = length vals) by (rewrite combine_length, <- HL, Nat.min_id; lia).
      unfold q, get. rewrite <- (combine_nth _ _ k 0 0 HL), <- (combine_nth _ _ k (0, 0) c0 LC).
      apply nth_In. rewrite combine_length, LC, Nat.min_id. lia.
  - intros i j Hn. apply (todense_miss K A (sp_pairs A0) i j PL). intros H. apply Hn.
    apply (canon_in nr nc es Rg) in H. destruct H as [b Hb].
    assert (S : stores p i j) by (apply entries_any; [exact W|exists b; exact Hb]). exact S.
Qed.
Print Assumptions C34_producer.

Example C34_producer_example :
  match csr_producer 2 3 [1; 0; 1; 1] [2; 1; 0; 2] ([7; 5; 6; 7]%Z : list ZK) with
  | Some A => m_data A = [5; 6; 7]%Z /\ m_indptr A = [0; 1; 3] /\ m_indices A = [1; 0; 2]
  | None => False
  end.
Proof. vm_compute. auto. Qed.

(** ** The reduced-operator pattern (asd.py:136-147) *)

Lemma true_pairs_in p i j : wf_in p -> (In (i, j) (true_pairs (to_scipy_pattern p)) <-> holds p i j).
Proof.
  intros W. unfold true_pairs. rewrite in_map_iff, <- (entries_true p i j W).
  rewrite <- (canon_true (in_nr p) (in_nc p) (in_entries p) (entries_range p W)). split.
  - intros [[q b] [E H]]. cbn in E. subst q. apply filter_In in H. destruct H as [H Hb]. cbn in Hb. subst b. exact H.
  - intros H. exists (i, j, true). split; [reflexivity|]. apply filter_In. split; [exact H|reflexivity].
Qed.

Section Zero.
  Variable F : CRing.
  Add Ring FZ : (cth F).
  Lemma ring_zero_l (x : F) : cmul c0 x = c0. Proof. ring. Qed.
  Lemma ring_zero_r (x : F) : cmul x c0 = c0. Proof. ring. Qed.
End Zero.

Theorem C34_reduced_pattern :
  forall P Kp, wf_in P -> wf_in Kp -> in_nr P = in_nr Kp -> in_nc Kp = in_nr Kp ->
  let R := reduced_operator_pattern P Kp in
  sp_nr R = in_nc P /\ sp_nc R = in_nc P /\
  (forall i j, In (i, j) (sp_pairs R) <->
     exists k l, holds P k i /\ holds Kp k l /\ holds P l j) /\
  (* a superset of the numerical pattern of PᵀKP *)
  (forall (F : CRing) (pv kv : nat -> nat -> F),
     (forall k i, ~ holds P k i -> pv k i = c0) -> (forall k l, ~ holds Kp k l -> kv k l = c0) ->
     forall i j, ~ In (i, j) (sp_pairs R) ->
     sumf (fun k => sumf (fun l => cmul (pv k i) (cmul (kv k l) (pv l j))) (seq 0 (in_nr P))) (seq 0 (in_nr P)) = c0).
Proof.
  intros P Kp WP WK E1 E2 R. split; [reflexivity|]. split; [reflexivity|].
  assert (IR : forall i j, In (i, j) (sp_pairs R) <-> exists k l, holds P k i /\ holds Kp k l /\ holds P l j).
  { assert (HE : forall i j b, In (i, j, b) (flat_map (fun kl =>
       flat_map (fun ki => if fst ki =? fst kl then
         flat_map (fun lj => if fst lj =? snd kl then [(snd ki, snd lj, true)] else []) (true_pairs (to_scipy_pattern P))
       else []) (true_pairs (to_scipy_pattern P))) (true_pairs (to_scipy_pattern Kp))) <->
       b = true /\ exists k l, holds P k i /\ holds Kp k l /\ holds P l j).
    { intros i j b. rewrite in_flat_map. split.
      - intros [[k l] [Hkl H]]. apply in_flat_map in H. destruct H as [[k' i'] [Hki H]].
        cbn [fst snd] in H. destruct (Nat.eqb_spec k' k) as [->|]; [|destruct H].
        apply in_flat_map in H. destruct H as [[l' j'] [Hlj H]]. cbn [fst snd] in H.
        destruct (Nat.eqb_spec l' l) as [->|]; [|destruct H]. destruct H as [H|[]]. injection H as -> -> <-.
        apply true_pairs_in in Hkl, Hki, Hlj; auto. split; [reflexivity|]. exists k, l. auto.
      - intros [-> [k [l (H1 & H2 & H3)]]].
        apply (true_pairs_in P) in H1, H3; auto. apply (true_pairs_in Kp) in H2; auto.
        exists (k, l). split; [exact H2|]. apply in_flat_map. exists (k, i). split; [exact H1|].
        cbn [fst snd]. rewrite Nat.eqb_refl. apply in_flat_map. exists (l, j). split; [exact H3|].
        cbn [fst snd]. rewrite Nat.eqb_refl. left; reflexivity. }
    intros i j. unfold R, reduced_operator_pattern. rewrite canon_in.
    - split; [intros [b H]; apply HE in H; tauto|intros H; exists true; apply HE; auto].
    - intros [[i' j'] b] H. apply HE in H. destruct H as [_ [k [l (H1 & _ & H3)]]]. cbn [fst snd].
      apply (entries_true P) in H1, H3; auto. apply (entries_range P WP) in H1, H3. cbn in H1, H3. tauto. }
  split; [exact IR|].
  intros F pv kv HP HK i j Hn. apply sumf_zero. intros k Hk. apply sumf_zero. intros l Hl.
  assert (D : forall p a b, wf_in p -> holds p a b \/ ~ holds p a b).
  { intros p a b W. rewrite <- (true_pairs_in p a b W).
    destruct (in_dec (fun x y : nat * nat => ltac:(decide equality; apply Nat.eq_dec)) (a, b) (true_pairs (to_scipy_pattern p))); auto. }
  pose proof (ring_zero_l F) as Z1. pose proof (ring_zero_r F) as Z2.
  destruct (D P k i WP) as [A1|A1]; [|rewrite (HP _ _ A1); apply Z1].
  destruct (D Kp k l WK) as [A2|A2]; [|rewrite (HK _ _ A2), Z1; apply Z2].
  destruct (D P l j WP) as [A3|A3]; [|rewrite (HP _ _ A3), Z2; apply Z2].
  exfalso. apply Hn, IR. exists k, l. auto.
Qed.
Print Assumptions C34_reduced_pattern.

(** [verify_jacobian_pattern] answers [ok] exactly when every detected position is
    in the connectivity pattern. *)
Theorem C34_verify :
  forall d c, wf_in d -> wf_in c ->
  (verify_ok (to_scipy_pattern d) (to_scipy_pattern c) = true <-> forall i j, holds d i j -> holds c i j).
Proof.
  intros d c Wd Wc. unfold verify_ok, num_missing. rewrite Nat.eqb_eq. split.
  - intros H i j Hd. apply (true_pairs_in d) in Hd; [|exact Wd]. apply (true_pairs_in c); [exact Wc|].
    destruct (existsb (fun q => (fst q =? fst (i, j)) && (snd q =? snd (i, j))) (true_pairs (to_scipy_pattern c))) eqn:E.
    + apply existsb_exists in E. destruct E as [[a b] [Hq Q]]. cbn in Q. apply andb_true_iff in Q.
      rewrite !Nat.eqb_eq in Q. destruct Q as [-> ->]. exact Hq.
    + exfalso. apply length_zero_iff_nil in H.
      assert (I : In (i, j) []); [|destruct I]. rewrite <- H. apply filter_In. split; [exact Hd|]. now rewrite E.
  - intros H. apply length_zero_iff_nil.
    destruct (filter _ _) as [|[i j] t] eqn:E; [reflexivity|]. exfalso.
    assert (I : In (i, j) ((i, j) :: t)) by (left; reflexivity). rewrite <- E in I. apply filter_In in I.
    destruct I as [I N]. apply (true_pairs_in d) in I; [|exact Wd]. apply H in I.
    apply (true_pairs_in c) in I; [|exact Wc]. apply negb_true_iff in N.
    assert (T : existsb (fun q => (fst q =? fst (i, j)) && (snd q =? snd (i, j))) (true_pairs (to_scipy_pattern c)) = true).
    { apply existsb_exists. exists (i, j). split; [exact I|]. cbn. now rewrite !Nat.eqb_refl. }
    congruence.
Qed.
Print Assumptions C34_verify.

Example C34_reduced_example :
  let P := PCoo 4 2 [0; 1; 2; 3] [0; 1; 1; 0] in
  let Kp := PDense 4 4 [[true; true; false; false]; [true; true; true; false];
                        [false; true; true; true]; [false; false; true; true]] in
  wf_in P /\ sp_pairs (reduced_operator_pattern P Kp) = [(0, 0); (0, 1); (1, 0); (1, 1)] /\
  verify_ok (to_scipy_pattern (PCoo 4 4 [0; 3] [1; 2])) (to_scipy_pattern Kp) = true /\
  verify_ok (to_scipy_pattern (PCoo 4 4 [0; 3] [1; 0])) (to_scipy_pattern Kp) = false.
Proof.
  cbv zeta. split; [|vm_compute; auto].
  split; [reflexivity|]. split; cbn; intros; intuition lia.
Qed.
