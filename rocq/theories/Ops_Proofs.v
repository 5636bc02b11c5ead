(** [CSRMatrix] operations against the textbook meaning of a CSR triple. *)
From Verif Require Import Base Csr_Model Csr_Proofs.
From Coq Require Import ZifyBool ZifyNat.
Set Implicit Arguments.

(** ** The textbook meaning *)
Section Spec.
  Variable K : CRing.
  Local Open Scope ring_K.

  (** A valid CSR triple: row pointers from 0 to nse, non-decreasing; one value
      per column index; columns in range. *)
  Record valid_csr (A : csr K) : Prop := {
    v_ptr_len : length (m_indptr A) = S (m_nrows A);
    v_ptr_0 : nth 0%nat (m_indptr A) 0%nat = 0%nat;
    v_ptr_mono : forall r, r < m_nrows A -> nth r (m_indptr A) 0%nat <= nth (S r) (m_indptr A) 0%nat;
    v_ptr_end : nth (m_nrows A) (m_indptr A) 0%nat = length (m_indices A);
    v_data : length (m_data A) = length (m_indices A);
    v_cols : forall c, In c (m_indices A) -> c < m_ncols A
  }.

  (** Row [i] owns the slots [indptr[i] .. indptr[i+1]); the entry (i, j) is the
      sum of the values of that row's slots with column [j]. *)
  Definition row_slots (A : csr K) (i : nat) : list nat :=
    seq (nth i (m_indptr A) 0%nat) (nth (S i) (m_indptr A) 0%nat - nth i (m_indptr A) 0%nat)%nat.
  Definition entry (A : csr K) (i j : nat) : K :=
    sumf (fun s => if nth s (m_indices A) 0%nat =? j then get (m_data A) s else 0) (row_slots A i).
End Spec.

Section Ops.
  Variable K : CRing.
  Local Open Scope ring_K.
  Add Ring KringO : (cth K).

  Lemma flat_rows_length cs a :
    length (flat_map (fun p : nat * nat => repeat (fst p) (snd p)) (combine (seq a (length cs)) cs))
    = sum_nat cs.
  Proof.
    revert a; induction cs as [|c t IH]; intros a; cbn; [reflexivity|].
    rewrite app_length, repeat_length, IH. reflexivity.
  Qed.

  Lemma nth_repeat_lt A (x d : A) n k : k < n -> nth k (repeat x n) d = x.
  Proof. revert k; induction n as [|n IH]; intros [|k] H; cbn; try lia; auto. apply IH; lia. Qed.

  Lemma flat_rows_sum cs : forall a o (f : nat -> nat -> K),
    sumf (fun s => f (nth (s - o)
            (flat_map (fun p : nat * nat => repeat (fst p) (snd p))
                      (combine (seq a (length cs)) cs)) 0%nat) s)
         (seq o (sum_nat cs)) =
    sumf (fun k => sumf (fun s => f (a + k)%nat s)
                        (seq (o + sum_nat (firstn k cs)) (nth k cs 0%nat)))
         (seq 0 (length cs)).
  Proof.
    induction cs as [|c t IH]; intros a o f; cbn [sum_nat length seq combine flat_map sumf]; [reflexivity|].
    rewrite seq_app, sumf_app.
    f_equal.
    - cbn [firstn sum_nat nth fst snd]. rewrite !Nat.add_0_r.
      apply sumf_ext. intros s Hs. apply in_seq in Hs.
      rewrite app_nth1 by (rewrite repeat_length; lia).
      rewrite nth_repeat_lt by lia. reflexivity.
    - rewrite <- (seq_shift (length t) 0), sumf_map.
      rewrite sumf_ext with (g := fun s => f (nth (s - (o + c))
            (flat_map (fun p : nat * nat => repeat (fst p) (snd p))
                      (combine (seq (S a) (length t)) t)) 0%nat) s).
      + rewrite IH. apply sumf_ext. intros k _.
        cbn [firstn sum_nat nth]. rewrite Nat.add_assoc.
        replace (S a + k)%nat with (a + S k)%nat by lia. reflexivity.
      + intros s Hs. apply in_seq in Hs. cbn [fst snd].
        rewrite app_nth2 by (rewrite repeat_length; lia).
        rewrite repeat_length. replace (s - o - c)%nat with (s - (o + c))%nat by lia. reflexivity.
  Qed.

  Lemma diff_firstn_sum l k :
    (forall r, S r < length l -> nth r l 0%nat <= nth (S r) l 0%nat) ->
    k < length l ->
    (sum_nat (firstn k (diff l)) + nth 0 l 0 = nth k l 0)%nat.
  Proof.
    intros Hm. induction k as [|k IH]; intros Hk; [cbn; reflexivity|].
    rewrite sum_firstn_S, nth_diff by exact Hk.
    specialize (IH ltac:(lia)). specialize (Hm k Hk). lia.
  Qed.

  Section Valid.
    Variable A : csr K.
    Hypothesis V : valid_csr A.

    Lemma valid_rows_length : length (row_of_slot A) = length (m_indices A).
    Proof.
      unfold row_of_slot.
      assert (Hd : length (diff (m_indptr A)) = m_nrows A)
        by (rewrite diff_length, (v_ptr_len V); lia).
      rewrite <- Hd at 1. rewrite flat_rows_length.
      rewrite <- (firstn_all (diff (m_indptr A))), Hd.
      rewrite <- (v_ptr_end V).
      assert (E := diff_firstn_sum (m_indptr A) (k := m_nrows A)).
      rewrite (v_ptr_0 V) in E. rewrite <- E; [lia| |rewrite (v_ptr_len V); lia].
      intros r Hr. apply (v_ptr_mono V). rewrite (v_ptr_len V) in Hr. lia.
    Qed.

    (** Summing over all slots = summing row by row. *)
    Lemma slots_sum (f : nat -> nat -> K) :
      sumf (fun s => f (nth s (row_of_slot A) 0%nat) s) (seq 0 (length (m_indices A))) =
      sumf (fun r => sumf (f r) (row_slots A r)) (seq 0 (m_nrows A)).
    Proof.
      assert (Hd : length (diff (m_indptr A)) = m_nrows A)
        by (rewrite diff_length, (v_ptr_len V); lia).
      pose proof (flat_rows_sum (diff (m_indptr A)) 0 0 f) as E.
      rewrite Hd in E.
      assert (Hs : sum_nat (diff (m_indptr A)) = length (m_indices A)).
      { rewrite <- valid_rows_length. unfold row_of_slot. rewrite <- Hd.
        rewrite flat_rows_length. reflexivity. }
      rewrite Hs in E.
      rewrite sumf_ext with (g := fun s => f (nth (s - 0)
         (flat_map (fun p : nat * nat => repeat (fst p) (snd p))
                   (combine (seq 0 (m_nrows A)) (diff (m_indptr A)))) 0%nat) s)
        by (intros s _; rewrite Nat.sub_0_r; reflexivity).
      rewrite E. apply sumf_ext. intros r Hr. apply in_seq in Hr.
      unfold row_slots. cbn [Nat.add].
      assert (E2 := diff_firstn_sum (m_indptr A) (k := r)).
      rewrite (v_ptr_0 V) in E2. rewrite Nat.add_0_r in E2. rewrite E2.
      - rewrite nth_diff by (rewrite (v_ptr_len V); lia). reflexivity.
      - intros r' Hr'. apply (v_ptr_mono V). rewrite (v_ptr_len V) in Hr'. lia.
      - rewrite (v_ptr_len V). lia.
    Qed.

    Lemma valid_rows_lt r : In r (row_of_slot A) -> r < m_nrows A.
    Proof.
      unfold row_of_slot. rewrite in_flat_map. intros [[a c] [Hin Hr]].
      apply in_combine_l in Hin. apply in_seq in Hin. apply repeat_spec in Hr. cbn in Hr. lia.
    Qed.

    Lemma sum_pick (g : nat -> K) i n : i < n ->
      sumf (fun r => if r =? i then g r else 0) (seq 0 n) = g i.
    Proof. apply sumf_single_nat. Qed.

    Lemma todense_slots i j :
      todense A i j =
      sumf (fun s => if (nth s (row_of_slot A) 0%nat =? i) && (nth s (m_indices A) 0%nat =? j)
                     then get (m_data A) s else 0) (seq 0 (length (m_indices A))).
    Proof.
      unfold todense.
      rewrite (sumf_combine K (fun rc x => if (fst rc =? i) && (snd rc =? j) then x else 0)
                 (combine (row_of_slot A) (m_indices A)) (m_data A) (0%nat,0%nat) 0)
        by (rewrite combine_length, valid_rows_length, (v_data V); lia).
      rewrite combine_length, valid_rows_length, Nat.min_id.
      apply sumf_ext. intros s Hs.
      rewrite combine_nth by apply valid_rows_length. reflexivity.
    Qed.

    Lemma todense_entry i j : i < m_nrows A -> todense A i j = entry A i j.
    Proof.
      intros Hi. rewrite todense_slots.
      rewrite (slots_sum (fun r s => if (r =? i) && (nth s (m_indices A) 0%nat =? j)
                                     then get (m_data A) s else 0)).
      rewrite sumf_ext with (g := fun r => if r =? i then entry A r j else 0).
      - apply (sum_pick (fun r => entry A r j)). exact Hi.
      - intros r _. destruct (Nat.eqb_spec r i) as [->|Hne]; cbn [andb].
        + reflexivity.
        + apply sumf_zero. reflexivity.
    Qed.

    Lemma get_matvec v i : i < m_nrows A ->
      get (matvec A v) i =
      sumf (fun s => if nth s (row_of_slot A) 0%nat =? i
                     then get (m_data A) s * get v (nth s (m_indices A) 0%nat) else 0)
           (seq 0 (length (m_indices A))).
    Proof.
      intros Hi. unfold matvec. rewrite get_segment_sum by exact Hi.
      rewrite (sumf_combine K (fun r x => if r =? i then x else 0)
                 (row_of_slot A) _ 0%nat 0)
        by (rewrite map_length, combine_length, valid_rows_length, (v_data V); lia).
      rewrite valid_rows_length. apply sumf_ext. intros s Hs. apply in_seq in Hs.
      rewrite nth_map_in with (d := (0, 0%nat))
        by (rewrite combine_length, (v_data V); lia).
      rewrite combine_nth by apply (v_data V). reflexivity.
    Qed.

    Lemma matvec_dense v i : i < m_nrows A ->
      get (matvec A v) i = sumf (fun j => entry A i j * get v j) (seq 0 (m_ncols A)).
    Proof.
      intros Hi. rewrite get_matvec by exact Hi.
      rewrite (slots_sum (fun r s => if r =? i
                 then get (m_data A) s * get v (nth s (m_indices A) 0%nat) else 0)).
      rewrite sumf_ext with (g := fun r => if r =? i then
         sumf (fun s => get (m_data A) s * get v (nth s (m_indices A) 0%nat)) (row_slots A r) else 0).
      2:{ intros r _. destruct (r =? i); [reflexivity | apply sumf_zero; reflexivity]. }
      rewrite (sum_pick (fun r => sumf (fun s => get (m_data A) s * get v (nth s (m_indices A) 0%nat))
                 (row_slots A r))) by exact Hi.
      unfold entry. symmetry.
      rewrite sumf_ext with (g := fun j => sumf (fun s => (if nth s (m_indices A) 0%nat =? j
                then get (m_data A) s else 0) * get v j) (row_slots A i))
        by (intros j _; rewrite sumf_mul_r; reflexivity).
      rewrite sumf_swap. apply sumf_ext. intros s Hs.
      assert (Hc : nth s (m_indices A) 0%nat < m_ncols A).
      { apply (v_cols V), nth_In. unfold row_slots in Hs. apply in_seq in Hs.
        rewrite <- (v_ptr_end V).
        assert (Hm : forall k, S i <= k <= m_nrows A ->
                     nth (S i) (m_indptr A) 0%nat <= nth k (m_indptr A) 0%nat).
        { intros k [H1 H2]. induction H1 as [|k H1 IH]; [lia|].
          specialize (IH ltac:(lia)). pose proof (v_ptr_mono V (r := k) ltac:(lia)). lia. }
        specialize (Hm (m_nrows A) ltac:(lia)).
        pose proof (v_ptr_mono V Hi). lia. }
      rewrite sumf_ext with (g := fun j => if j =? nth s (m_indices A) 0%nat
              then get (m_data A) s * get v j else 0).
      2:{ intros j _. rewrite Nat.eqb_sym. destruct (j =? nth s (m_indices A) 0%nat); ring. }
      rewrite (sum_pick (fun j => get (m_data A) s * get v j)) by exact Hc. reflexivity.
    Qed.

    Lemma matvec_length v : length (matvec A v) = m_nrows A.
    Proof. apply segment_sum_length. Qed.
    Lemma rmatvec_length v : length (rmatvec A v) = m_ncols A.
    Proof. apply segment_sum_length. Qed.
    Lemma diagonal_length : length (diagonal A) = m_nrows A.
    Proof. apply segment_sum_length. Qed.

    Lemma rmatvec_dense w j : j < m_ncols A ->
      get (rmatvec A w) j = sumf (fun i => entry A i j * get w i) (seq 0 (m_nrows A)).
    Proof.
      intros Hj. unfold rmatvec. rewrite get_segment_sum by exact Hj.
      rewrite (sumf_combine K (fun c x => if c =? j then x else 0) (m_indices A) _ 0%nat 0)
        by (rewrite map_length, combine_length, valid_rows_length, (v_data V); lia).
      rewrite sumf_ext with (g := fun s =>
        (fun r s => (if nth s (m_indices A) 0%nat =? j then get (m_data A) s else 0) * get w r)
          (nth s (row_of_slot A) 0%nat) s).
      2:{ intros s Hs. apply in_seq in Hs.
          rewrite nth_map_in with (d := (0, 0%nat))
            by (rewrite combine_length, valid_rows_length, (v_data V); lia).
          rewrite combine_nth by (rewrite valid_rows_length; apply (v_data V)).
          cbn [fst snd]. unfold get at 1. fold (get (m_data A) s).
          destruct (nth s (m_indices A) 0%nat =? j); unfold get; ring. }
      rewrite (slots_sum (fun r s => (if nth s (m_indices A) 0%nat =? j then get (m_data A) s else 0) * get w r)).
      apply sumf_ext. intros r _. unfold entry. rewrite sumf_mul_r. reflexivity.
    Qed.

    Lemma diagonal_dense i : i < m_nrows A -> get (diagonal A) i = entry A i i.
    Proof.
      intros Hi. unfold diagonal. rewrite get_segment_sum by exact Hi.
      rewrite (sumf_combine K (fun r x => if r =? i then x else 0) (row_of_slot A) _ 0%nat 0)
        by (rewrite map_length, !combine_length, valid_rows_length, (v_data V); lia).
      rewrite <- todense_entry by exact Hi. rewrite todense_slots, valid_rows_length.
      apply sumf_ext. intros s Hs. apply in_seq in Hs.
      rewrite nth_map_in with (d := (0, (0%nat, 0%nat)))
        by (rewrite !combine_length, valid_rows_length, (v_data V); lia).
      rewrite combine_nth by (rewrite combine_length, valid_rows_length, (v_data V); lia).
      rewrite combine_nth by apply valid_rows_length.
      cbn [fst snd].
      destruct (Nat.eqb_spec (nth s (row_of_slot A) 0%nat) i) as [->|Hne]; cbn [andb]; [|reflexivity].
      rewrite Nat.eqb_sym. reflexivity.
    Qed.
  End Valid.

  (** <A v, w> = <v, A^T w>. *)
  Definition dot (n : nat) (a b : list K) : K := sumf (fun i => get a i * get b i) (seq 0 n).

  Lemma rmatvec_adjoint (A : csr K) v w :
    valid_csr A ->
    dot (m_nrows A) (matvec A v) w = dot (m_ncols A) v (rmatvec A w).
  Proof.
    intros V. unfold dot.
    rewrite sumf_ext with (g := fun i => sumf (fun j => entry A i j * get v j * get w i) (seq 0 (m_ncols A))).
    2:{ intros i Hi. apply in_seq in Hi. rewrite matvec_dense by (auto; lia).
        rewrite <- sumf_mul_r. reflexivity. }
    rewrite sumf_swap. apply sumf_ext. intros j Hj. apply in_seq in Hj.
    rewrite rmatvec_dense by (auto; lia). rewrite <- sumf_mul_l.
    apply sumf_ext. intros i _. ring.
  Qed.

  (** ** Matrices on a compiled pattern *)
  Section Pat.
    Variables (n : nat) (v : view) (all : list (nat * nat)).
    Hypothesis Hrange : forall p, In p all -> fst p < n /\ snd p < n.
    Local Notation P := (build_csr n v all).

    Lemma count_below_all rows m : (forall x, In x rows -> x < m) -> count_below m rows = length rows.
    Proof.
      intros H. unfold count_below. induction rows as [|x t IH]; cbn; [reflexivity|].
      destruct (Nat.ltb_spec x m) as [|Hx]; cbn.
      - f_equal. apply IH. intros y Hy. apply H. right; exact Hy.
      - specialize (H x (or_introl eq_refl)). lia.
    Qed.

    Lemma built_indptr r : r <= n -> nth r (p_indptr P) 0%nat = count_below r (p_rows P).
    Proof. intros Hr. apply (nth_indptr (p_rows P)). exact Hr. Qed.

    Lemma built_valid (data : list K) :
      length data = p_nse P -> valid_csr (csr_of P data).
    Proof.
      intros Hd. constructor; cbn [csr_of m_indptr m_nrows m_ncols m_indices m_data].
      - change (p_n P) with n. change (p_indptr P) with (indptr_of n (p_rows P)).
        rewrite indptr_length. lia.
      - rewrite built_indptr by lia. unfold count_below.
        induction (p_rows P) as [|x t IH]; cbn; [reflexivity|].
        destruct (Nat.ltb_spec x 0); [lia | exact IH].
      - change (p_n P) with n. intros r Hr. rewrite !built_indptr by lia.
        apply count_below_mono. lia.
      - change (p_n P) with n. rewrite built_indptr by lia.
        rewrite count_below_all by (apply rows_lt; exact Hrange).
        rewrite rows_len, cols_len. reflexivity.
      - rewrite cols_len. exact Hd.
      - change (p_n P) with n. apply cols_lt. exact Hrange.
    Qed.

    Definition pair_eqb (p q : nat * nat) : bool := (fst p =? fst q) && (snd p =? snd q).
    Lemma pair_eqb_eq p q : pair_eqb p q = true <-> p = q.
    Proof.
      unfold pair_eqb. destruct p, q; cbn. rewrite andb_true_iff, !Nat.eqb_eq. split.
      - intros [-> ->]; reflexivity.
      - intros E; injection E; auto.
    Qed.

    Lemma built_todense (data : list K) i j :
      length data = p_nse P ->
      todense (csr_of P data) i j =
      sumf (fun s => if pair_eqb (nth s (slots P) (0%nat,0%nat)) (i, j) then get data s else 0)
           (seq 0 (p_nse P)).
    Proof.
      intros Hd. rewrite todense_slots by (apply built_valid; exact Hd).
      rewrite (built_row_of_slot v all Hrange).
      cbn [csr_of m_indices m_data].  rewrite cols_len. apply sumf_ext. intros s Hs.
      unfold slots. rewrite combine_nth by (rewrite rows_len, cols_len; reflexivity).
      reflexivity.
    Qed.

    Lemma built_todense_hit (data : list K) s :
      length data = p_nse P -> s < p_nse P ->
      let p := nth s (slots P) (0%nat, 0%nat) in
      todense (csr_of P data) (fst p) (snd p) = get data s.
    Proof.
      intros Hd Hs p. rewrite built_todense by exact Hd.
      rewrite sumf_ext with (g := fun t => if t =? s then get data t else 0).
      - apply (sum_pick (fun t => get data t)). exact Hs.
      - intros t Ht. apply in_seq in Ht.
        destruct (Nat.eqb_spec t s) as [->|Hne].
        + replace (pair_eqb (nth s (slots P) (0%nat, 0%nat)) (fst p, snd p)) with true; [reflexivity|].
          symmetry. apply pair_eqb_eq. unfold p. destruct (nth s (slots P) (0%nat,0%nat)); reflexivity.
        + destruct (pair_eqb (nth t (slots P) (0%nat, 0%nat)) (fst p, snd p)) eqn:E; [|reflexivity].
          exfalso. apply pair_eqb_eq in E. apply Hne.
          apply (proj1 (NoDup_nth (slots P) (0%nat,0%nat)) (slots_NoDup v all Hrange)).
          * rewrite slots_length.  lia.
          * rewrite slots_length.  lia.
          * rewrite E. unfold p. destruct (nth s (slots P) (0%nat,0%nat)); reflexivity.
    Qed.

    Lemma built_todense_miss (data : list K) i j :
      length data = p_nse P -> ~ In (i, j) (slots P) -> todense (csr_of P data) i j = 0.
    Proof.
      intros Hd Hn. rewrite built_todense by exact Hd. apply sumf_zero.
      intros s Hs. apply in_seq in Hs.
      destruct (pair_eqb (nth s (slots P) (0%nat, 0%nat)) (i, j)) eqn:E; [|reflexivity].
      exfalso. apply pair_eqb_eq in E. apply Hn. rewrite <- E. apply nth_In.
      rewrite slots_length.  lia.
    Qed.

    (** Transposed structure. *)
    Local Notation Tm data := (transpose_with_maps (csr_of P data) (p_T_perm P) (p_T_indptr P) (p_T_indices P)).

    Lemma T_row_of_slot (data : list K) : row_of_slot (Tm data) = gather 0%nat (p_indices P) (p_T_perm P).
    Proof.
      apply row_of_slot_indptr.
      - reflexivity.
      - apply T_rows_sorted. exact Hrange.
      - apply T_rows_lt. exact Hrange.
    Qed.

    Lemma T_valid (data : list K) : length data = p_nse P -> valid_csr (Tm data).
    Proof.
      intros Hd.
      assert (Hptr : p_T_indptr P = indptr_of n (gather 0%nat (p_indices P) (p_T_perm P))) by reflexivity.
      constructor; cbn [transpose_with_maps csr_of m_indptr m_nrows m_ncols m_indices m_data];
        change (p_n P) with n; rewrite ?Hptr.
      - rewrite indptr_length. lia.
      - rewrite nth_indptr by lia. unfold count_below. clear Hptr.
        induction (gather 0%nat (p_indices P) (p_T_perm P)) as [|x t IH]; cbn; [reflexivity|].
        destruct (Nat.ltb_spec x 0); [lia | exact IH].
      - intros r Hr. rewrite !nth_indptr by lia. apply count_below_mono. lia.
      - rewrite nth_indptr by lia.
        rewrite count_below_all by (apply T_rows_lt; exact Hrange).
        change (p_T_indices P) with (gather 0%nat (p_rows P) (p_T_perm P)).
        rewrite !gather_length. reflexivity.
      - change (p_T_indices P) with (gather 0%nat (p_rows P) (p_T_perm P)).
        rewrite !gather_length. reflexivity.
      - change (p_T_indices P) with (gather 0%nat (p_rows P) (p_T_perm P)).
        unfold gather. intros c Hc. apply in_map_iff in Hc. destruct Hc as [s [<- Hs]].
        eapply Permutation_in in Hs; [|symmetry; apply T_perm_perm]. apply in_seq in Hs.
        apply (rows_lt v all Hrange). apply nth_In. rewrite rows_len.  lia.
    Qed.

    Lemma T_todense (data : list K) i j :
      length data = p_nse P -> todense (Tm data) i j = todense (csr_of P data) j i.
    Proof.
      intros Hd. rewrite todense_slots by (apply T_valid; exact Hd).
      rewrite T_row_of_slot. rewrite built_todense by exact Hd.
      cbn [transpose_with_maps csr_of m_indices m_data].
      change (p_T_indices P) with (gather 0%nat (p_rows P) (p_T_perm P)).
      rewrite gather_length.
      set (g := fun s => if pair_eqb (nth s (slots P) (0%nat, 0%nat)) (j, i) then get data s else 0).
      rewrite sumf_ext with (g := fun k => g (nth k (p_T_perm P) 0%nat)).
      - rewrite <- (sumf_map K (fun k => nth k (p_T_perm P) 0%nat) g).
        rewrite map_nth_seq. apply sumf_perm. symmetry. apply T_perm_perm.
      - intros k Hk. apply in_seq in Hk. unfold get. rewrite !nth_gather by lia.
        unfold g, slots, pair_eqb.
        rewrite combine_nth by (rewrite rows_len, cols_len; reflexivity).
        cbn [fst snd]. rewrite andb_comm. reflexivity.
    Qed.
  End Pat.
End Ops.
Arguments dot {K} n a b.
