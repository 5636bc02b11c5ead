(** Lemmas about the reduced solver. *)
From Verif Require Import Base Csr_Model Assembly_Model Assembly_Spec Assembly_Proofs AssemblyMain_Proofs
  Values_Proofs Dof_Model Bc_Model Bc_Proofs LinSolve_Model LinSolve_Spec LinSolve_Proofs LinSolve_Props
  Reduced_Model Reduced_Spec Pbc_Proofs.
From Coq Require Import ZifyBool ZifyNat.

Section R.
  Variable K : CRing.
  Local Open Scope ring_K.
  Add Ring KringRed : (cth K).

  Lemma P_mul_length (P : bcoo K) x : length (P_mul P x) = P_rows P.
  Proof. unfold P_mul. rewrite scatter_add_length. apply repeat_length. Qed.
  Lemma P_Tmul_length (P : bcoo K) x : length (P_Tmul P x) = P_cols P.
  Proof. unfold P_Tmul. rewrite scatter_add_length. apply repeat_length. Qed.
  Lemma get_P_mul (P : bcoo K) x i : i < P_rows P ->
    get (P_mul P x) i = sumf (fun e => if e_row e =? i then e_val e * get x (e_col e) else 0) (P_ents P).
  Proof.
    intros Hi. unfold P_mul. rewrite get_scatter_add by (unfold zeros; rewrite repeat_length; exact Hi).
    rewrite get_zeros, (sumf_map K). cbn. ring.
  Qed.
  Lemma get_P_Tmul (P : bcoo K) y c : c < P_cols P ->
    get (P_Tmul P y) c = sumf (fun e => if e_col e =? c then e_val e * get y (e_row e) else 0) (P_ents P).
  Proof.
    intros Hi. unfold P_Tmul. rewrite get_scatter_add by (unfold zeros; rewrite repeat_length; exact Hi).
    rewrite get_zeros, (sumf_map K). cbn. ring.
  Qed.

  (** P and P.T are adjoint. *)
  Lemma P_adjoint (P : bcoo K) n x y : in_shape P n ->
    dot n (P_mul P x) y = dot (P_cols P) x (P_Tmul P y).
  Proof.
    intros [Hn Hin]. unfold dot.
    transitivity (sumf (fun e => e_val e * get x (e_col e) * get y (e_row e)) (P_ents P)).
    - rewrite sumf_ext with (g := fun i => sumf (fun e => if e_row e =? i then e_val e * get x (e_col e) * get y i else 0) (P_ents P)).
      2:{ intros i Hi. apply in_seq in Hi. rewrite get_P_mul by lia. rewrite <- sumf_mul_r.
          apply sumf_ext. intros e _. destruct (e_row e =? i); ring. }
      rewrite sumf_swap. apply sumf_ext. intros e He. destruct (Hin e He) as [Hr _].
      rewrite sumf_ext with (g := fun i => if i =? e_row e then e_val e * get x (e_col e) * get y i else 0).
      + rewrite (sumf_single_nat K (fun i => e_val e * get x (e_col e) * get y i)) by exact Hr. reflexivity.
      + intros i _. rewrite Nat.eqb_sym. reflexivity.
    - symmetry.
      rewrite sumf_ext with (g := fun c => sumf (fun e => if e_col e =? c then e_val e * get x c * get y (e_row e) else 0) (P_ents P)).
      2:{ intros c Hc. apply in_seq in Hc. rewrite get_P_Tmul by lia. rewrite <- sumf_mul_l.
          apply sumf_ext. intros e _. destruct (e_col e =? c); ring. }
      rewrite sumf_swap. apply sumf_ext. intros e He. destruct (Hin e He) as [_ Hc].
      rewrite sumf_ext with (g := fun c => if c =? e_col e then e_val e * get x c * get y (e_row e) else 0).
      + rewrite (sumf_single_nat K (fun c => e_val e * get x c * get y (e_row e))) by exact Hc. reflexivity.
      + intros i _. rewrite Nat.eqb_sym. reflexivity.
  Qed.

  Lemma dot_comm n (x y : list K) : dot n x y = dot n y x.
  Proof. unfold dot. apply sumf_ext. intros. ring. Qed.

  (** ** Master-slave prolongations *)
  Section MS.
    Variables (P : bcoo K) (n : nat) (col : nat -> nat).
    Hypothesis MS : master_slave P n col.
    Lemma ms_shape : in_shape P n.
    Proof.
      destruct MS as (H1 & H2 & H3). split; [exact H1|]. rewrite H2. intros e He.
      apply in_map_iff in He. destruct He as (i & <- & Hi). apply in_seq in Hi. cbn. split; [lia|]. apply H3. lia.
    Qed.
    Lemma ms_mul x i : i < n -> get (P_mul P x) i = get x (col i).
    Proof.
      intros Hi. destruct MS as (H1 & H2 & H3). rewrite get_P_mul by lia. rewrite H2, (sumf_map K). cbn.
      rewrite sumf_ext with (g := fun k => if k =? i then get x (col k) else 0).
      - apply (sumf_single_nat K (fun k => get x (col k))). exact Hi.
      - intros k _. destruct (k =? i); ring.
    Qed.
    Lemma ms_Tmul y c : c < P_cols P -> get (P_Tmul P y) c = class_sum n col c (get y).
    Proof.
      intros Hc. destruct MS as (H1 & H2 & H3). rewrite get_P_Tmul by exact Hc. rewrite H2, (sumf_map K). cbn.
      unfold class_sum. rewrite <- sumf_if_sum. apply sumf_ext. intros k _. destruct (col k =? c); ring.
    Qed.

    (** Acceptance of the BC/periodicity check. *)
    Lemma count_all c : count_col (P_ents P) c = length (filter (fun i => col i =? c) (seq 0 n)).
    Proof.
      unfold count_col. destruct MS as (_ & -> & _). generalize (seq 0 n). intros l.
      induction l as [|i l IH]; [reflexivity|]. cbn. destruct (col i =? c); cbn; rewrite IH; reflexivity.
    Qed.
    Lemma count_masked mask c :
      count_col (filter (fun e => nth (e_row e) mask false) (P_ents P)) c =
      length (filter (fun i => nth i mask false && (col i =? c)) (seq 0 n)).
    Proof.
      unfold count_col. destruct MS as (_ & -> & _). generalize (seq 0 n). intros l.
      induction l as [|i l IH]; [reflexivity|]. cbn. destruct (nth i mask false); cbn; [|exact IH].
      destruct (col i =? c); cbn; rewrite IH; reflexivity.
    Qed.
    Lemma filter_le X (f g : X -> bool) l : (forall x, In x l -> g x = true -> f x = true) ->
      length (filter g l) <= length (filter f l) /\
      (length (filter g l) = length (filter f l) <-> forall x, In x l -> f x = true -> g x = true).
    Proof.
      induction l as [|a l IH]; intros H; cbn; [split; [lia|]; split; [tauto|reflexivity]|].
      destruct IH as [IH1 IH2]; [intros x Hx; apply H; right; exact Hx|].
      assert (Ha := H a (or_introl eq_refl)).
      destruct (g a) eqn:G.
      - rewrite (Ha eq_refl). cbn. split; [lia|]. split.
        + intros E x [<-|Hx]; [auto|]. apply IH2; [lia|exact Hx].
        + intros E. f_equal. apply IH2. intros x Hx. apply E. right. exact Hx.
      - destruct (f a) eqn:F; cbn.
        + split; [lia|]. split; [lia|]. intros E. rewrite (E a (or_introl eq_refl) F) in G. discriminate.
        + split; [lia|]. rewrite IH2. split; intros E x Hx; [destruct Hx as [<-|Hx]; [congruence|auto] | auto].
    Qed.

    Lemma validate_iff rows : (forall r, In r rows -> r < n) ->
      (validate_bc_pairing P rows = true <-> whole_classes n col rows).
    Proof.
      intros Hr. unfold validate_bc_pairing, whole_classes.
      destruct rows as [|r0 rs] eqn:E; [split; [intros _ r i []|reflexivity]|]. rewrite <- E in *. clear E.
      rewrite forallb_forall.
      assert (HP : P_rows P = n) by apply MS. rewrite HP.
      set (mask := scatter_set (repeat false n) (map (fun r => (r, true)) rows)).
      assert (HM : forall i, i < n -> (nth i mask false = true <-> In i rows)).
      { intros i Hi. unfold mask. destruct (in_dec Nat.eq_dec i rows) as [Hin|Hn].
        - rewrite nth_scatter_set_const; [tauto | rewrite repeat_length; exact Hi | exact Hin].
        - rewrite nth_scatter_set_notin by (rewrite map_map, map_id; exact Hn). rewrite nth_repeat. split; [discriminate|tauto]. }
      assert (HC : forall r, r < n -> nth r (scatter_set (repeat None n) (map (fun e => (e_row e, Some (e_col e))) (P_ents P))) None = Some (col r)).
      { intros r Hrn. destruct MS as (_ & -> & _). rewrite map_map. cbn.
        apply nth_scatter_set_in.
        - rewrite map_map. cbn. rewrite map_id. apply seq_NoDup.
        - rewrite repeat_length. exact Hrn.
        - apply in_map_iff. exists r. split; [reflexivity|]. apply in_seq. lia. }
      assert (Key : forall r, In r rows ->
        (negb ((1 <? count_col (P_ents P) (col r)) &&
           (count_col (filter (fun e => nth (e_row e) mask false) (P_ents P)) (col r) <? count_col (P_ents P) (col r))) = true
         <-> forall i, i < n -> col i = col r -> In i rows)).
      { intros r Hin. rewrite count_masked, count_all.
        destruct (filter_le nat (fun i => col i =? col r) (fun i => nth i mask false && (col i =? col r)) (seq 0 n)) as [F1 F2].
        { intros x _ Hx. apply andb_true_iff in Hx. tauto. }
        assert (F3 : (forall x, In x (seq 0 n) -> (col x =? col r) = true -> nth x mask false && (col x =? col r) = true)
                     <-> (forall i, i < n -> col i = col r -> In i rows)).
        { split.
          - intros H i Hi Hc. apply HM; [exact Hi|]. apply Nat.eqb_eq in Hc. apply andb_true_iff with (b2 := col i =? col r).
            apply H; [apply in_seq; lia|exact Hc].
          - intros H x Hx Hc. apply in_seq in Hx. rewrite Hc, andb_true_r. apply HM; [lia|]. apply Nat.eqb_eq in Hc. apply H; [lia|exact Hc]. }
        rewrite F3 in F2. rewrite <- F2. rewrite negb_true_iff, andb_false_iff.
        assert (G1 : 1 <= length (filter (fun i => nth i mask false && (col i =? col r)) (seq 0 n))).
        { assert (In r (filter (fun i => nth i mask false && (col i =? col r)) (seq 0 n))).
          { apply filter_In. split; [apply in_seq; specialize (Hr r Hin); lia|].
            rewrite Nat.eqb_refl, andb_true_r. apply HM; auto. }
          destruct (filter _ _); [contradiction|cbn; lia]. }
        rewrite !Nat.ltb_ge. lia. }
      split.
      - intros H r i Hin. specialize (H r Hin). rewrite (HC r (Hr r Hin)) in H. apply Key; assumption.
      - intros H r Hin. rewrite (HC r (Hr r Hin)). apply Key; [exact Hin|]. intros i Hi. apply (H r i Hin Hi).
    Qed.
  End MS.
End R.
