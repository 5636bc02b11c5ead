(** Properties C01, C06, C07, C08 (CSR pattern and CSR operations). *)
From Verif Require Import Base Csr_Model Csr_Proofs Ops_Proofs Assembly_Model Assembly_Spec
     Assembly_Proofs AssemblyMain_Proofs Values_Proofs.
From Coq Require Import ZifyBool ZifyNat.
Set Implicit Arguments.

(** ** Specification vocabulary *)

(** [stored P i j s]: slot [s] lies in the range the row pointers give to row [i]
    and its column index is [j]. *)
Definition stored (P : pattern) (i j s : nat) : Prop :=
  nth i (p_indptr P) 0 <= s < nth (S i) (p_indptr P) 0 /\ nth s (p_indices P) 0 = j.

(** Which triangle a view keeps. *)
Definition kept (v : view) (i j : nat) : Prop :=
  match v with FULL => True | UPPER => i <= j | LOWER => j <= i end.

Lemma in_view_kept v i j : in_view v (i, j) = true <-> kept v i j.
Proof. destruct v; cbn; rewrite ?Nat.leb_le; tauto. Qed.

(** Some element block couples DOFs [i] and [j]. *)
Definition coupled (cells : list (list nat)) (i j : nat) : Prop :=
  exists d, In d cells /\ In i d /\ In j d.

(** ** Lemmas *)
Section Pattern.
  Variables (n : nat) (v : view) (all : list (nat * nat)).
  Hypothesis Hr : forall p, In p all -> fst p < n /\ snd p < n.
  Local Notation P := (build_csr n v all).

  Lemma indptr_facts :
    length (p_indptr P) = S n /\ nth 0 (p_indptr P) 0 = 0 /\
    (forall i, i < n -> nth i (p_indptr P) 0 <= nth (S i) (p_indptr P) 0) /\
    nth n (p_indptr P) 0 = p_nse P /\ length (p_indices P) = p_nse P.
  Proof.
    pose proof (@built_valid ZK n v all Hr (zeros (p_nse P))) as V.
    destruct V as [A1 A2 A3 A4 A5 A6].
    { unfold zeros. apply repeat_length. }
    assert (E : length (p_indices P) = p_nse P) by apply cols_len.
    split; [exact A1|]. split; [exact A2|]. split; [exact A3|]. split; [|exact E].
    etransitivity; [exact A4|exact E].
  Qed.

  Lemma stored_slots i j s : i < n ->
    (stored P i j s <-> s < p_nse P /\ nth s (slots P) (0, 0) = (i, j)).
  Proof.
    intros Hi. unfold stored. split.
    - intros H. assert (Hs : s < p_nse P).
      { destruct indptr_facts as (L & _ & M & E & _).
        assert (nth (S i) (p_indptr P) 0 <= nth n (p_indptr P) 0); [|lia].
        rewrite !built_indptr by lia. apply count_below_mono. lia. }
      split; [exact Hs|]. apply built_slot_iff; auto.
    - intros [Hs E]. exact (proj1 (@built_slot_iff n v all s i j Hr Hi Hs) E).
  Qed.

  Lemma stored_iff i j : i < n ->
    ((exists s, stored P i j s) <-> In (i, j) all /\ kept v i j).
  Proof.
    intros Hi. split.
    - intros [s H]. apply (stored_slots j s Hi) in H. destruct H as [Hs E].
      assert (Hin : In (i, j) (slots P)) by (rewrite <- E; apply nth_In; rewrite slots_length; exact Hs).
      apply (slots_in v all Hr) in Hin. apply filter_In in Hin. rewrite in_view_kept in Hin. exact Hin.
    - rewrite <- in_view_kept. intros H. apply filter_In in H. apply (slots_in v all Hr) in H.
      apply (In_nth _ _ (0,0)) in H. destruct H as [s [Hs E]]. rewrite slots_length in Hs.
      exists s. apply stored_slots; auto.
  Qed.

  Lemma stored_unique i j s i' j' s' : i < n -> i' < n ->
    stored P i j s -> stored P i' j' s' -> (s < s' <-> i < i' \/ (i = i' /\ j < j')).
  Proof.
    intros Hi Hi' H H'. apply (stored_slots j s Hi) in H. apply (stored_slots j' s' Hi') in H'.
    destruct H as [Hs E], H' as [Hs' E'].
    assert (HS : forall a b, a < b -> b < p_nse P ->
              lex_lt (nth a (slots P) (0,0)) (nth b (slots P) (0,0))).
    { intros a b Hab Hb. apply StronglySorted_nth; [apply slots_sorted; exact Hr | exact Hab|].
      rewrite slots_length. exact Hb. }
    split.
    - intros Hlt. specialize (HS _ _ Hlt Hs'). rewrite E, E' in HS. exact HS.
    - intros Hlex. destruct (lt_eq_lt_dec s s') as [[?|Heq]|Hgt]; [assumption| |].
      + subst s'. rewrite E in E'. pose proof (f_equal fst E') as F1. pose proof (f_equal snd E') as F2.
        cbn in F1, F2. lia.
      + specialize (HS _ _ Hgt Hs). rewrite E, E' in HS. unfold lex_lt in HS. cbn in HS. lia.
  Qed.

  Lemma full_slot_stored k : k < length all ->
    let p := nth k all (0,0) in let s := nth k (p_full_slot P) 0 in
    (kept v (fst p) (snd p) -> stored P (fst p) (snd p) s) /\
    (~ kept v (fst p) (snd p) -> s = p_nse P).
  Proof.
    intros Hk p s.
    assert (Hp : In p all) by (apply nth_In; exact Hk).
    destruct (Hr _ Hp) as [H1 H2].
    assert (Es : s = full_slot_of (mask_select
       (gather 0 (map (key_of n) (filter (in_view v) all)) (argsort (map (key_of n) (filter (in_view v) all))))
       (is_new (gather 0 (map (key_of n) (filter (in_view v) all)) (argsort (map (key_of n) (filter (in_view v) all))))))
         (key_of n p)).
    { unfold s. change (p_full_slot P) with (map (fun q => full_slot_of (mask_select
       (gather 0 (map (key_of n) (filter (in_view v) all)) (argsort (map (key_of n) (filter (in_view v) all))))
       (is_new (gather 0 (map (key_of n) (filter (in_view v) all)) (argsort (map (key_of n) (filter (in_view v) all))))))
         (key_of n q)) all). rewrite nth_map_in with (d := (0,0)) by exact Hk. reflexivity. }
    split.
    - intros Kp. apply in_view_kept in Kp. rewrite <- surjective_pairing in Kp.
      apply stored_slots; [exact H1|]. rewrite Es.
      destruct (full_slot_hit v all Hr p) as [A B]; [apply filter_In; auto|].
      split; [exact A|]. rewrite B. apply surjective_pairing.
    - intros Kp. rewrite Es. apply (full_slot_miss v all Hr); [exact Hp|].
      destruct (in_view v p) eqn:Ev; [|reflexivity]. exfalso. apply Kp. apply in_view_kept.
      rewrite <- surjective_pairing. exact Ev.
  Qed.
End Pattern.

Section PatternPb.
  Variables (K : CRing) (Inp FInp : Type) (pb : problem K Inp FInp).
  Hypothesis W : wf_problem pb.

  Lemma all_pairs_coupled i j : In (i, j) (all_pairs pb) <-> coupled (pr_cells pb) i j.
  Proof.
    unfold all_pairs, coo_pairs, coupled. rewrite in_app_iff, !in_flat_map. split.
    - intros [[d [Hd H]]|[d [Hd H]]]; apply elem_pairs_in in H; exists d; split; auto.
      apply (all_face_in W). exact Hd.
    - intros [d [Hd H]]. left. exists d. split; [exact Hd|]. apply elem_pairs_in. exact H.
  Qed.
End PatternPb.

(** ** C01 *)

(** The compiled pattern of a well-formed problem: row pointers are a valid
    monotone partition of [0..nse); (i, j) is stored iff some element couples i and
    j and the view keeps it; slot order is (row, column) order, in particular no
    pair is stored twice; and the entry-to-slot map sends every element-block
    entry to the slot of its own (row, column), or to the discard bucket [nse]
    when the view drops it. *)
Theorem C01_pattern_valid :
  forall (K : CRing) (Inp FInp : Type) (pb : problem K Inp FInp), wf_problem pb ->
  let P := pr_pat pb in let n := pr_n pb in
  (length (p_indptr P) = S n /\ nth 0 (p_indptr P) 0 = 0 /\
   (forall i, i < n -> nth i (p_indptr P) 0 <= nth (S i) (p_indptr P) 0) /\
   nth n (p_indptr P) 0 = p_nse P /\ length (p_indices P) = p_nse P) /\
  (forall i j, i < n ->
     ((exists s, stored P i j s) <-> coupled (pr_cells pb) i j /\ kept (pr_view pb) i j)) /\
  (forall i j s i' j' s', i < n -> i' < n -> stored P i j s -> stored P i' j' s' ->
     (s < s' <-> i < i' \/ (i = i' /\ j < j'))) /\
  (forall i j s s', i < n -> stored P i j s -> stored P i j s' -> s = s') /\
  (forall k, k < length (all_pairs pb) ->
     let p := nth k (all_pairs pb) (0, 0) in let s := nth k (p_full_slot P) 0 in
     (kept (pr_view pb) (fst p) (snd p) -> stored P (fst p) (snd p) s) /\
     (~ kept (pr_view pb) (fst p) (snd p) -> s = p_nse P)).
Proof.
  intros K Inp FInp pb W P n. pose proof (@all_pairs_range _ _ _ pb W) as Hr.
  split; [apply (indptr_facts _ _ Hr)|]. split; [|split; [|split]].
  - intros i j Hi. rewrite <- (all_pairs_coupled W). apply stored_iff; assumption.
  - intros. eapply stored_unique; eassumption.
  - intros i j s s' Hi H H'.
    pose proof (@stored_unique _ _ _ Hr _ _ _ _ _ _ Hi Hi H H') as A.
    pose proof (@stored_unique _ _ _ Hr _ _ _ _ _ _ Hi Hi H' H) as B. lia.
  - intros k Hk. exact (@full_slot_stored _ _ _ Hr k Hk).
Qed.
Print Assumptions C01_pattern_valid.

(** The filtered entry-to-slot map [csr_slot] used by the value paths. *)
Theorem C01_slot_map :
  forall n v all, (forall p, In p all -> fst p < n /\ snd p < n) ->
  let P := build_csr n v all in
  length (p_slot P) = length (filter (in_view v) all) /\
  forall k, k < length (filter (in_view v) all) ->
    stored P (fst (nth k (filter (in_view v) all) (0, 0)))
             (snd (nth k (filter (in_view v) all) (0, 0))) (nth k (p_slot P) 0).
Proof.
  intros n v all Hr P. split; [exact (@slot_length n v all)|].
  intros k Hk. destruct (@slot_correct n v all Hr k Hk) as [A B].
  assert (Hin : In (nth k (filter (in_view v) all) (0, 0)) all).
  { eapply proj1, filter_In, nth_In. exact Hk. }
  destruct (Hr _ Hin). apply (@stored_slots n v all Hr); [assumption|].
  split; [exact A|]. unfold P. rewrite B. apply surjective_pairing.
Qed.
Print Assumptions C01_slot_map.

(** Diagonal slots: [csr_diag_slots[i]] is the slot of (i, i), or the sentinel when
    (i, i) is not stored. *)
Theorem C01_diag_slots :
  forall n v all, (forall p, In p all -> fst p < n /\ snd p < n) ->
  let P := build_csr n v all in
  forall i, i < n ->
  match nth i (p_diag P) None with
  | Some s => stored P i i s
  | None => forall s, ~ stored P i i s
  end.
Proof.
  intros n v all Hr P i Hi. destruct (nth i (p_diag P) None) as [s|] eqn:E.
  - apply (@stored_slots n v all Hr); [exact Hi|]. apply (@diag_some n v all Hr i s Hi). exact E.
  - intros s H. apply (@stored_slots n v all Hr i i s Hi) in H. destruct H as [Hs H].
    apply (@diag_none n v all Hr i Hi) in E. apply E. rewrite <- H. apply nth_In. rewrite slots_length. exact Hs.
Qed.
Print Assumptions C01_diag_slots.

(** Two triangles sharing an edge, three boundary faces, upper view. *)
Definition ex_kern (u : list Z) (x : Z) : list Z * list Z :=
  (map (fun a => a * x)%Z u, flat_map (fun a => map (fun b => a + b * x)%Z [1;2;3]%Z) [10;20;30]%Z).
Definition ex_bnd : boundary ZK Z :=
  @Build_boundary ZK Z [0; 1; 1] [1; 2; 3]%Z 0%Z
     (fun u x => (map (fun a : Z => a + x)%Z u, [x;0;0; 0;x;0; 0;0;x]%Z)).
Definition ex_pb (v : view) (flag : bool) : problem ZK Z Z :=
  @Build_problem ZK Z Z 5 v 3 [[0; 1; 2]; [2; 1; 3]] [5; 7]%Z 0%Z ex_kern [ex_bnd] flag.

Lemma ex_wf v flag : wf_problem (ex_pb v flag).
Proof.
  constructor; cbn.
  - intros d [<-|[<-|[]]]; reflexivity.
  - intros d x [<-|[<-|[]]]; cbn; lia.
  - reflexivity.
  - intros u x H. rewrite map_length. auto.
  - intros b c [<-|[]]; cbn; lia.
  - intros b [<-|[]]; reflexivity.
  - intros b u x [<-|[]] H; cbn; rewrite map_length; auto.
Qed.

Example C01_example : p_nse (pr_pat (ex_pb UPPER false)) = 9 /\
  p_indptr (pr_pat (ex_pb UPPER false)) = [0; 3; 6; 8; 9; 9] /\
  p_indices (pr_pat (ex_pb UPPER false)) = [0;1;2; 1;2;3; 2;3; 3] /\
  nth 4 (p_diag (pr_pat (ex_pb UPPER false))) None = None.
Proof. vm_compute. auto. Qed.

(** ** C06 *)

(** [transpose_with_maps] with the compiled maps is the transpose. *)
Theorem C06_transpose_maps :
  forall (K : CRing) n v all (data : list K),
  (forall p, In p all -> fst p < n /\ snd p < n) ->
  let P := build_csr n v all in
  length data = p_nse P ->
  let A := csr_of P data in
  let T := transpose_with_maps A (p_T_perm P) (p_T_indptr P) (p_T_indices P) in
  valid_csr T /\ m_nrows T = m_ncols A /\ m_ncols T = m_nrows A /\
  (forall i j, todense T i j = todense A j i) /\
  (forall x j, j < n -> get (matvec T x) j = get (rmatvec A x) j).
Proof.
  intros K n v all data Hr P Hd A T.
  assert (VT : valid_csr T) by (apply (@T_valid K n v all Hr data Hd)).
  assert (VA : valid_csr A) by (apply (@built_valid K n v all Hr data Hd)).
  assert (HT : forall i j, todense T i j = todense A j i).
  { intros i j. apply (@T_todense K n v all Hr data i j Hd). }
  repeat split; try assumption; try (apply VT).
  intros x j Hj. rewrite (matvec_dense VT), (rmatvec_dense VA) by exact Hj.
  cbn [m_ncols T transpose_with_maps m_nrows]. apply sumf_ext. intros i Hi. apply in_seq in Hi.
  cbn in Hi.
  rewrite <- (todense_entry VT), <- (todense_entry VA) by (cbn; lia). rewrite HT. reflexivity.
Qed.
Print Assumptions C06_transpose_maps.

(** [csr_structurally_symmetric] is set exactly when the stored positions are
    symmetric, and then the transposed structure is the structure itself. *)
Theorem C06_structural_symmetry :
  forall n v all, (forall p, In p all -> fst p < n /\ snd p < n) ->
  let P := build_csr n v all in
  (p_struct_sym P = true <->
   (forall i j, i < n -> j < n -> (exists s, stored P i j s) -> (exists s, stored P j i s))) /\
  (p_struct_sym P = true -> p_T_indptr P = p_indptr P /\ p_T_indices P = p_indices P).
Proof.
  intros n v all Hr P. split.
  - unfold P. rewrite (@struct_sym_iff n v all Hr).
    assert (E : forall i j, i < n -> ((exists s, stored P i j s) <-> In (i, j) (slots P))).
    { intros i j Hi. unfold P. rewrite (@slots_in n v all Hr), filter_In, in_view_kept. apply stored_iff; assumption. }
    split.
    + intros H i j Hi Hj Hs. apply E; [exact Hj|]. apply H. apply (E i j Hi). exact Hs.
    + intros H i j Hin. destruct (@slots_range n v all Hr _ Hin) as [Hi Hj]. cbn in Hi, Hj.
      apply E; [exact Hj|]. apply H; [exact Hi|exact Hj|]. apply E; [exact Hi|exact Hin].
  - unfold P. intros H.
    change (list_eqb (p_indices (build_csr n v all)) (p_T_indices (build_csr n v all)) &&
            list_eqb (p_indptr (build_csr n v all)) (p_T_indptr (build_csr n v all)) = true) in H.
    apply andb_true_iff in H. destruct H as [H1 H2]. apply list_eqb_eq in H1. apply list_eqb_eq in H2. auto.
Qed.
Print Assumptions C06_structural_symmetry.

(** <A x, y> = <x, A^T y>. *)
Theorem C06_adjoint :
  forall (K : CRing) (A : csr K) (x y : list K), valid_csr A ->
  dot (m_nrows A) (matvec A x) y = dot (m_ncols A) x (rmatvec A y).
Proof. intros. apply rmatvec_adjoint; assumption. Qed.
Print Assumptions C06_adjoint.

(** ** C07 *)
Theorem C07_ops_dense :
  forall (K : CRing) (A : csr K), valid_csr A ->
  (forall i j, i < m_nrows A -> todense A i j = entry A i j) /\
  (forall x i, i < m_nrows A ->
     get (matvec A x) i = sumf (fun j => cmul (todense A i j) (get x j)) (seq 0 (m_ncols A))) /\
  (forall x j, j < m_ncols A ->
     get (rmatvec A x) j = sumf (fun i => cmul (todense A i j) (get x i)) (seq 0 (m_nrows A))) /\
  (forall i, i < m_nrows A -> get (diagonal A) i = todense A i i) /\
  (forall x, length (matvec A x) = m_nrows A /\ length (rmatvec A x) = m_ncols A) /\
  length (diagonal A) = m_nrows A.
Proof.
  intros K A V.
  assert (E : forall i j, i < m_nrows A -> todense A i j = entry A i j)
    by (intros; apply todense_entry; assumption).
  repeat split; auto using matvec_length, rmatvec_length, diagonal_length.
  - intros x i Hi. rewrite matvec_dense by assumption. apply sumf_ext. intros. rewrite E by exact Hi. reflexivity.
  - intros x j Hj. rewrite rmatvec_dense by assumption. apply sumf_ext. intros i Hi. apply in_seq in Hi.
    rewrite E by lia. reflexivity.
  - intros i Hi. rewrite diagonal_dense, E by assumption. reflexivity.
Qed.
Print Assumptions C07_ops_dense.

Definition ex_csr : csr ZK := csr_of (pr_pat (ex_pb FULL false)) [1;2;3; 4;5;6;7; 8;9;10;11; 12;13;14]%Z.
Lemma ex_csr_valid : valid_csr ex_csr.
Proof. apply built_valid; [apply (all_pairs_range (ex_wf FULL false)) | reflexivity]. Qed.
Example C07_example :
  matvec ex_csr [1; 0; -1; 2; 9]%Z = [-2; 12; 20; 15; 0]%Z /\
  dot 5 (matvec ex_csr [1;2;3;4;5]%Z) [1;1;2;0;3]%Z = dot 5 ([1;2;3;4;5]%Z : list ZK) (rmatvec ex_csr [1;1;2;0;3]%Z).
Proof. vm_compute. auto. Qed.

(** ** C08 *)

(** For a matrix [A] stored with view [v]: if [F] is the symmetric matrix whose
    kept triangle is stored in [A] (all other entries of [A] are zero), the
    view-aware product is the product with [F]. *)
Theorem C08_view_product :
  forall (K : CRing) (v : view) (A : csr K) (F : nat -> nat -> K) (x : list K),
  valid_csr A -> m_ncols A = m_nrows A ->
  (forall i j, i < m_nrows A -> j < m_nrows A -> F i j = F j i) ->
  (forall i j, i < m_nrows A -> j < m_nrows A -> kept v i j -> todense A i j = F i j) ->
  (forall i j, i < m_nrows A -> j < m_nrows A -> ~ kept v i j -> todense A i j = c0) ->
  forall i, i < m_nrows A ->
  get (matvec_with_view v A x) i = sumf (fun j => cmul (F i j) (get x j)) (seq 0 (m_nrows A)).
Proof.
  intros K v A F x V Hsq HS Hk Hn i Hi.
  rewrite (matvec_view_spec v x V Hsq Hi).
  assert (E : forall i j, i < m_nrows A -> todense A i j = entry A i j)
    by (intros; apply todense_entry; assumption).
  destruct v; cbn [kept] in *; apply sumf_ext; intros j Hj; apply in_seq in Hj; cbn in Hj.
  - rewrite <- E, Hk by (auto; lia). reflexivity.
  - rewrite <- !E by lia. f_equal. destruct (Nat.eqb_spec j i) as [->|Hne].
    + rewrite !Hk by lia. pose proof (cth K) as R. destruct R.
      rewrite Rsub_def, <- Radd_assoc, Ropp_def, Radd_comm, Radd_0_l. reflexivity.
    + destruct (le_lt_dec i j) as [H|H].
      * rewrite (Hk i j), (Hn j i) by lia. pose proof (cth K) as R. destruct R.
        rewrite Rsub_def. rewrite (Radd_comm (F i j) 0%K), Radd_0_l.
        rewrite <- (Radd_0_l (copp 0%K)), Ropp_def, Radd_comm, Radd_0_l. reflexivity.
      * rewrite (Hk j i), (Hn i j) by lia. pose proof (cth K) as R. destruct R.
        rewrite Radd_0_l. rewrite Rsub_def.
        rewrite <- (Radd_0_l (copp 0%K)), Ropp_def, Radd_comm, Radd_0_l. apply HS; lia.
  - rewrite <- !E by lia. f_equal. destruct (Nat.eqb_spec j i) as [->|Hne].
    + rewrite !Hk by lia. pose proof (cth K) as R. destruct R.
      rewrite Rsub_def, <- Radd_assoc, Ropp_def, Radd_comm, Radd_0_l. reflexivity.
    + destruct (le_lt_dec i j) as [H|H].
      * rewrite (Hk j i), (Hn i j) by lia. pose proof (cth K) as R. destruct R.
        rewrite Radd_0_l. rewrite Rsub_def.
        rewrite <- (Radd_0_l (copp 0%K)), Ropp_def, Radd_comm, Radd_0_l. apply HS; lia.
      * rewrite (Hk i j), (Hn j i) by lia. pose proof (cth K) as R. destruct R.
        rewrite Rsub_def. rewrite (Radd_comm (F i j) 0%K), Radd_0_l.
        rewrite <- (Radd_0_l (copp 0%K)), Ropp_def, Radd_comm, Radd_0_l. reflexivity.
Qed.
Print Assumptions C08_view_product.
