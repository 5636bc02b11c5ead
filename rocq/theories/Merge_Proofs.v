(** Lemmas about the pattern algebra of Merge_Model.v. *)
From Verif Require Import Base Csr_Model Csr_Proofs Ops_Proofs Merge_Model.

Definition unkey (nc k : nat) : nat * nat := (k / nc, k mod nc).

Lemma uniq_sorted ks : StronglySorted lt (uniq ks).
Proof. unfold uniq. cbv zeta. apply unique_sorted, argsort_sorted. Qed.

Lemma uniq_in ks k : In k (uniq ks) <-> In k ks.
Proof.
  unfold uniq. cbv zeta. rewrite unique_in. split; intros H.
  - eapply Permutation_in; [symmetry; apply argsort_gather_perm|exact H].
  - eapply Permutation_in; [apply argsort_gather_perm|exact H].
Qed.

Lemma sorted_lt_le l : StronglySorted lt l -> StronglySorted le l.
Proof.
  induction 1 as [|x t Hs IH Hf]; constructor; auto.
  eapply Forall_impl; [|exact Hf]. intros; cbn in *; lia.
Qed.

Lemma key_unkey nc k : nc <> 0 -> key_of nc (unkey nc k) = k.
Proof. intros H. unfold key_of, unkey. cbn [fst snd]. rewrite (Nat.div_mod k nc H) at 3. lia. Qed.

Lemma unkey_key nc p : snd p < nc -> unkey nc (key_of nc p) = p.
Proof. intros H. unfold unkey. rewrite key_div, key_mod by exact H. destruct p; reflexivity. Qed.

Lemma key_bound nr nc p : fst p < nr -> snd p < nc -> key_of nc p < nr * nc.
Proof. unfold key_of. intros. nia. Qed.

Lemma unkey_bound nr nc k : k < nr * nc -> fst (unkey nc k) < nr /\ snd (unkey nc k) < nc.
Proof.
  intros H. unfold unkey. cbn [fst snd]. assert (nc <> 0) by (intros ->; lia).
  split; [apply Nat.div_lt_upper_bound; lia | apply Nat.mod_upper_bound; exact H0].
Qed.

Lemma combine_maps A B C (f : A -> B) (g : A -> C) l :
  combine (map f l) (map g l) = map (fun x => (f x, g x)) l.
Proof. induction l as [|x t IH]; cbn; [reflexivity|]. now rewrite IH. Qed.

Lemma expand_indptr n rows :
  StronglySorted le rows -> (forall x, In x rows -> x < n) -> expand n (indptr_of n rows) = rows.
Proof.
  intros Hs Hb.
  exact (@row_of_slot_indptr ZK (@Build_csr ZK [] (indptr_of n rows) [] n 0) rows eq_refl Hs Hb).
Qed.

Section Compress.
  Variables (nr nc : nat) (keys : list nat) (data : list bool).
  Hypothesis Hs : StronglySorted lt keys.
  Hypothesis Hb : forall k, In k keys -> k < nr * nc.
  Let A := compress nr nc keys data.

  Lemma compress_rows_sorted : StronglySorted le (map (fun k => k / nc) keys).
  Proof.
    clear data A Hb. induction Hs as [|x t S IH F]; cbn; [constructor|]. constructor.
    - exact (IH S).
    - rewrite Forall_map. eapply Forall_impl; [|exact F]. cbn. intros k Hk.
      destruct (Nat.eq_dec nc 0) as [->|Hn]; [reflexivity|]. apply Nat.div_le_mono; lia.
  Qed.

  Lemma compress_expand : expand nr (sp_indptr A) = map (fun k => k / nc) keys.
  Proof.
    unfold A. cbn. apply expand_indptr; [apply compress_rows_sorted|].
    intros x Hx. apply in_map_iff in Hx. destruct Hx as [k [<- Hk]].
    apply (unkey_bound nr nc k (Hb k Hk)).
  Qed.

  Lemma compress_pairs : sp_pairs A = map (unkey nc) keys.
  Proof.
    unfold sp_pairs. change (sp_nr A) with nr. rewrite compress_expand.
    unfold A. cbn [sp_indices compress]. apply combine_maps.
  Qed.

  Lemma compress_keys : slot_keys A = keys.
  Proof.
    unfold slot_keys. rewrite compress_pairs, map_map. change (sp_nc A) with nc.
    rewrite <- (map_id keys) at 2. apply map_ext_in. intros k Hk. apply key_unkey.
    specialize (Hb k Hk). intros ->. lia.
  Qed.

  Lemma compress_pairs_in p : In p (sp_pairs A) <-> In (key_of nc p) keys /\ snd p < nc.
  Proof.
    rewrite compress_pairs, in_map_iff. split.
    - intros [k [<- Hk]]. pose proof (Hb k Hk) as B. rewrite key_unkey by (intros ->; lia).
      split; [exact Hk|]. apply (unkey_bound nr nc k B).
    - intros [Hk B]. exists (key_of nc p). split; [apply unkey_key; exact B|exact Hk].
  Qed.

  Lemma compress_NoDup : NoDup (sp_pairs A).
  Proof.
    apply (NoDup_map_inv (key_of nc)). change (NoDup (slot_keys A)). rewrite compress_keys.
    apply StronglySorted_lt_NoDup. exact Hs.
  Qed.

  Lemma compress_bound p : In p (sp_pairs A) -> fst p < nr /\ snd p < nc.
  Proof.
    rewrite compress_pairs, in_map_iff. intros [k [<- Hk]]. apply unkey_bound. apply Hb. exact Hk.
  Qed.

  Lemma compress_ptr r : r <= nr ->
    nth r (sp_indptr A) 0 = count_below r (map (fun k => k / nc) keys).
  Proof. intros H. unfold A. cbn. apply nth_indptr. exact H. Qed.
End Compress.

(** A CSR structure with sorted distinct positions is recovered from them. *)
Lemma csr_slots_ok A qs sl :
  csr_slots A qs = Some sl ->
  sl = map (fun p => searchsorted (slot_keys A) (key_of (sp_nc A) p)) qs /\
  (forall p, In p qs -> searchsorted (slot_keys A) (key_of (sp_nc A) p) < length (slot_keys A) /\
     nth (searchsorted (slot_keys A) (key_of (sp_nc A) p)) (slot_keys A) 0 = key_of (sp_nc A) p).
Proof.
  unfold csr_slots. cbv zeta. destruct (forallb _ _) eqn:F; [|discriminate].
  intros E. injection E as <-. rewrite map_map. split; [reflexivity|].
  intros p Hp. rewrite forallb_forall in F.
  specialize (F (searchsorted (slot_keys A) (key_of (sp_nc A) p), key_of (sp_nc A) p)).
  assert (I : In (searchsorted (slot_keys A) (key_of (sp_nc A) p), key_of (sp_nc A) p)
     (combine (map (searchsorted (slot_keys A)) (map (key_of (sp_nc A)) qs)) (map (key_of (sp_nc A)) qs))).
  { rewrite map_map, combine_maps. apply in_map_iff. exists p. auto. }
  apply F in I. cbn in I. apply andb_true_iff in I. destruct I as [I1 I2].
  apply Nat.ltb_lt in I1. apply Nat.eqb_eq in I2. auto.
Qed.

Lemma csr_slots_some A qs :
  StronglySorted lt (slot_keys A) ->
  (forall p, In p qs -> In (key_of (sp_nc A) p) (slot_keys A)) ->
  csr_slots A qs = Some (map (fun p => searchsorted (slot_keys A) (key_of (sp_nc A) p)) qs).
Proof.
  intros Hs H. unfold csr_slots. cbv zeta.
  assert (E : forallb (fun p => (fst p <? length (slot_keys A)) && (nth (fst p) (slot_keys A) 0 =? snd p))
     (combine (map (searchsorted (slot_keys A)) (map (key_of (sp_nc A)) qs)) (map (key_of (sp_nc A)) qs)) = true).
  { rewrite map_map, combine_maps. apply forallb_forall. intros q Hq.
    apply in_map_iff in Hq. destruct Hq as [p [<- Hp]]. cbn [fst snd].
    destruct (@searchsorted_hit _ (key_of (sp_nc A) p) Hs (H p Hp)) as [H1 H2].
    apply andb_true_iff. split; [apply Nat.ltb_lt; exact H1 | apply Nat.eqb_eq; exact H2]. }
  rewrite E, map_map. reflexivity.
Qed.

(** ** Canonicalisation *)
Section Canon.
  Variables (nr nc : nat) (es : list (nat * nat * bool)).
  Hypothesis Hr : forall e, In e es -> fst (fst e) < nr /\ snd (fst e) < nc.
  Let A := canonical nr nc es.
  Let keys := uniq (map (fun e => key_of nc (fst e)) es).

  Lemma canon_keys_sorted : StronglySorted lt keys.
  Proof. apply uniq_sorted. Qed.
  Lemma canon_keys_bound k : In k keys -> k < nr * nc.
  Proof.
    unfold keys. rewrite uniq_in, in_map_iff. intros [e [<- He]].
    destruct (Hr e He). apply key_bound; assumption.
  Qed.

  Lemma canon_keys : slot_keys A = keys.
  Proof. apply compress_keys; [apply canon_keys_sorted|apply canon_keys_bound]. Qed.
  Lemma canon_pairs : sp_pairs A = map (unkey nc) keys.
  Proof. apply compress_pairs; [apply canon_keys_sorted|apply canon_keys_bound]. Qed.
  Lemma canon_NoDup : NoDup (sp_pairs A).
  Proof. apply compress_NoDup; [apply canon_keys_sorted|apply canon_keys_bound]. Qed.
  Lemma canon_bound p : In p (sp_pairs A) -> fst p < nr /\ snd p < nc.
  Proof. apply compress_bound; [apply canon_keys_sorted|apply canon_keys_bound]. Qed.

  Lemma canon_in p : In p (sp_pairs A) <-> exists b, In (p, b) es.
  Proof.
    unfold A, canonical. rewrite compress_pairs_in;
      [|apply canon_keys_sorted|apply canon_keys_bound].
    unfold keys. rewrite uniq_in, in_map_iff. split.
    - intros [[[q b] [E Hq]] B]. cbn [fst] in E. exists b.
      replace p with q; [exact Hq|]. apply (key_inj (n := nc)); [apply (Hr _ Hq)|exact B|exact E].
    - intros [b Hb]. split; [exists (p, b); auto|]. apply (Hr _ Hb).
  Qed.

  Lemma canon_entries : combine (sp_pairs A) (sp_data A) =
    map (fun k => (unkey nc k, existsb (fun e => (key_of nc (fst e) =? k) && snd e) es)) keys.
  Proof. rewrite canon_pairs. unfold A, canonical. cbn [sp_data compress]. fold keys. apply combine_maps. Qed.

  Lemma canon_data_len : length (sp_data A) = length (sp_pairs A).
  Proof. rewrite canon_pairs. unfold A, canonical. cbn [sp_data compress]. now rewrite !map_length. Qed.

  Lemma canon_true p : In (p, true) (combine (sp_pairs A) (sp_data A)) <-> In (p, true) es.
  Proof.
    rewrite canon_entries, in_map_iff. split.
    - intros [k [E Hk]]. injection E as E1 E2. apply existsb_exists in E2.
      destruct E2 as [[q b] [Hq Q]]. apply andb_true_iff in Q. cbn in Q. destruct Q as [Q1 ->].
      apply Nat.eqb_eq in Q1. subst k. rewrite unkey_key in E1 by apply (Hr _ Hq). subst q. exact Hq.
    - intros H. exists (key_of nc p). rewrite unkey_key by apply (Hr _ H). split.
      + f_equal. apply existsb_exists. exists (p, true). split; [exact H|]. cbn. now rewrite Nat.eqb_refl.
      + unfold keys. rewrite uniq_in, in_map_iff. exists (p, true). auto.
  Qed.
End Canon.

(** ** Values on a sorted pattern *)
Section Values.
  Variable K : CRing.
  Local Open Scope ring_K.
  Add Ring KRM : (cth K).

  Lemma sumf_combine_nth A (l : list A) (d : A) (data : list K) (f : A -> K -> K) :
    length data = length l ->
    sumf (fun p => f (fst p) (snd p)) (combine l data) =
    sumf (fun s => f (nth s l d) (get data s)) (seq 0 (length l)).
  Proof.
    revert data; induction l as [|x t IH]; intros [|y data] H; cbn [length] in H; try lia; [reflexivity|].
    cbn [combine sumf seq length fst snd]. rewrite <- seq_shift, sumf_map.
    rewrite (IH data) by lia. f_equal.
  Qed.

  Definition at_pos (i j : nat) (p : nat * nat) : bool := (fst p =? i) && (snd p =? j).
  Lemma at_pos_eq i j p : at_pos i j p = true <-> p = (i, j).
  Proof.
    unfold at_pos. destruct p as [a b]. cbn. rewrite andb_true_iff, !Nat.eqb_eq.
    split; [intros [-> ->]; reflexivity | intros E; injection E; auto].
  Qed.

  (** Dense entry of a matrix whose distinct stored positions are [L]. *)
  Lemma todense_hit (M : csr K) L s i j :
    combine (row_of_slot M) (m_indices M) = L -> NoDup L -> length (m_data M) = length L ->
    s < length L -> nth s L (0, 0)%nat = (i, j) -> todense M i j = get (m_data M) s.
  Proof.
    intros EL ND HD Hs E. unfold todense. rewrite EL.
    transitivity (sumf (fun k => if at_pos i j (nth k L (0, 0)%nat) then get (m_data M) k else 0)
                       (seq 0 (length L))).
    { exact (sumf_combine_nth _ L (0, 0)%nat (m_data M)
        (fun p x => if at_pos i j p then x else 0) HD). }
    transitivity (sumf (fun k => if (k =? s)%nat then get (m_data M) k else 0) (seq 0 (length L))).
    - apply sumf_ext. intros k Hk. apply in_seq in Hk.
      destruct (Nat.eqb_spec k s) as [->|Hne].
      + destruct (at_pos i j (nth s L (0, 0)%nat)) eqn:Q; [reflexivity|].
        apply at_pos_eq in E. congruence.
      + destruct (at_pos i j (nth k L (0, 0)%nat)) eqn:Q; [|reflexivity].
        exfalso. apply Hne. apply at_pos_eq in Q.
        apply (proj1 (NoDup_nth L (0, 0)%nat) ND); [lia|exact Hs|congruence].
    - rewrite sumf_single_nat by lia. reflexivity.
  Qed.

  Lemma todense_miss (M : csr K) L i j :
    combine (row_of_slot M) (m_indices M) = L -> ~ In (i, j) L -> todense M i j = 0.
  Proof.
    intros EL Hn. unfold todense. rewrite EL. apply sumf_zero. intros [p x] Hp.
    apply in_combine_l in Hp. cbn [fst snd].
    change (((fst p =? i) && (snd p =? j))%nat) with (at_pos i j p).
    destruct (at_pos i j p) eqn:Q; [|reflexivity]. apply at_pos_eq in Q. subst. tauto.
  Qed.

  Lemma combine_map_l A B C (f : A -> B) (l : list A) (r : list C) :
    combine (map f l) r = map (fun p => (f (fst p), snd p)) (combine l r).
  Proof. revert r; induction l as [|x t IH]; intros [|y r]; cbn; try reflexivity. now rewrite IH. Qed.

  (** Adding the values of a matrix at the slots of its positions. *)
  Lemma scatter_positions (L LA : list (nat * nat)) (sl : nat * nat -> nat) (da base : list K) s i j :
    (forall p, In p LA -> sl p < length L /\ nth (sl p) L (0,0)%nat = p) -> NoDup L ->
    s < length L -> nth s L (0,0)%nat = (i, j) -> length base = length L ->
    get (scatter_add base (combine (map sl LA) da)) s =
    get base s + sumf (fun p => if at_pos i j (fst p) then snd p else 0) (combine LA da).
  Proof.
    intros H ND Hs E HB. rewrite get_scatter_add by lia. f_equal.
    rewrite combine_map_l, sumf_map. apply sumf_ext. intros [p x] Hp.
    apply in_combine_l in Hp. destruct (H p Hp) as [H1 H2]. cbn [fst snd].
    destruct (Nat.eqb_spec (sl p) s) as [Es|Hne]; destruct (at_pos i j p) eqn:Q; try reflexivity.
    - exfalso. assert (p = (i, j)) by congruence. apply at_pos_eq in H0. congruence.
    - exfalso. apply Hne. apply at_pos_eq in Q.
      apply (proj1 (NoDup_nth L (0, 0)%nat) ND); [exact H1|exact Hs|congruence].
  Qed.
End Values.

(** ** Compressed structures as CSR matrices *)
Section AsCsr.
  Variable K : CRing.
  Variables (nr nc : nat) (keys : list nat).
  Hypothesis Hs : StronglySorted lt keys.
  Hypothesis Hb : forall k, In k keys -> k < nr * nc.
  Let A := compress nr nc keys [].
  Variable data : list K.
  Let M := @Build_csr K data (sp_indptr A) (sp_indices A) nr nc.

  Lemma as_csr_pairs : combine (row_of_slot M) (m_indices M) = map (unkey nc) keys.
  Proof. rewrite <- (compress_pairs nr nc keys [] Hs Hb). reflexivity. Qed.

  Lemma as_csr_valid : length data = length keys -> valid_csr M.
  Proof.
    intros HD. assert (Hrow : forall x, In x (map (fun k => k / nc) keys) -> x < nr).
    { intros x Hx. apply in_map_iff in Hx. destruct Hx as [k [<- Hk]].
      apply (unkey_bound nr nc k (Hb k Hk)). }
    constructor; cbn [M m_indptr m_indices m_nrows m_ncols m_data A compress sp_indptr sp_indices].
    - rewrite indptr_length. lia.
    - rewrite nth_indptr by lia. unfold count_below. clear. induction keys as [|k t IH]; cbn; auto.
    - intros r Hlt. rewrite !nth_indptr by lia. apply count_below_mono. lia.
    - rewrite nth_indptr by lia. rewrite count_below_all by exact Hrow. now rewrite !map_length.
    - now rewrite map_length.
    - intros c Hc. apply in_map_iff in Hc. destruct Hc as [k [<- Hk]].
      apply (unkey_bound nr nc k (Hb k Hk)).
  Qed.
End AsCsr.

(** ** Row pointers *)
Record ptr_ok (n : nat) (ip : list nat) (m : nat) : Prop := {
  po_len : length ip = S n;
  po_0 : nth 0 ip 0 = 0;
  po_mono : forall r, r < n -> nth r ip 0 <= nth (S r) ip 0;
  po_end : nth n ip 0 = m
}.

(** Slot [s] lies in row [i] and holds column [j]. *)
Definition at_slot (ip ix : list nat) (i j s : nat) : Prop :=
  nth i ip 0 <= s < nth (S i) ip 0 /\ nth s ix 0 = j.

Lemma flat_rows_nth cs : forall a s k, s < sum_nat cs -> k < length cs ->
  (nth s (flat_map (fun p : nat * nat => repeat (fst p) (snd p)) (combine (seq a (length cs)) cs)) 0 = a + k
   <-> sum_nat (firstn k cs) <= s < sum_nat (firstn (S k) cs)).
Proof.
  induction cs as [|c t IH]; intros a s k Hs Hk; cbn [length sum_nat] in *; [lia|].
  cbn [seq combine flat_map fst snd firstn sum_nat].
  destruct (Nat.lt_ge_cases s c) as [Hc|Hc].
  - rewrite app_nth1 by (rewrite repeat_length; exact Hc). rewrite nth_repeat_lt by exact Hc.
    destruct k as [|k]; cbn [firstn sum_nat]; split; intros; lia.
  - rewrite app_nth2 by (rewrite repeat_length; exact Hc). rewrite repeat_length.
    destruct k as [|k].
    + cbn [firstn sum_nat]. split; [|lia]. intros E. exfalso.
      destruct (Nat.lt_ge_cases (s - c)
        (length (flat_map (fun p : nat * nat => repeat (fst p) (snd p)) (combine (seq (S a) (length t)) t)))) as [L|L].
      * assert (I := nth_In _ 0 L). rewrite E in I. apply in_flat_map in I.
        destruct I as [[r c'] [I J]]. apply in_combine_l in I. apply in_seq in I.
        apply repeat_spec in J. cbn in J. lia.
      * rewrite (flat_rows_length t (S a)) in L. lia.
    + replace (a + S k) with (S a + k) by lia. rewrite IH by lia.
      cbn [firstn sum_nat]. destruct t; [cbn in Hk; lia|]. cbn [firstn sum_nat]. lia.
Qed.

Lemma expand_length n ip m : ptr_ok n ip m -> length (expand n ip) = m.
Proof.
  intros [L0 Z M E]. unfold expand.
  assert (Hd : length (diff ip) = n) by (rewrite diff_length; lia).
  rewrite <- Hd at 1. rewrite flat_rows_length. rewrite <- (firstn_all (diff ip)), Hd.
  assert (Q := diff_firstn_sum ip (k := n)). rewrite Z in Q.
  rewrite <- E. rewrite <- Q; [lia| |lia]. intros r Hr. apply M. lia.
Qed.

Lemma expand_nth n ip m s i : ptr_ok n ip m -> s < m -> i < n ->
  (nth s (expand n ip) 0 = i <-> nth i ip 0 <= s < nth (S i) ip 0).
Proof.
  intros P Hs Hi. pose proof (expand_length n ip m P) as EL. destruct P as [L0 Z M E]. unfold expand in *.
  assert (Hd : length (diff ip) = n) by (rewrite diff_length; lia).
  rewrite <- Hd in EL at 1. rewrite flat_rows_length in EL.
  rewrite <- Hd at 1. change i with (0 + i) at 1. rewrite flat_rows_nth by lia.
  assert (Q : forall k, k <= n -> sum_nat (firstn k (diff ip)) = nth k ip 0).
  { intros k Hk. assert (Q := diff_firstn_sum ip (k := k)). rewrite Z in Q.
    rewrite <- Q; [lia| |lia]. intros r Hr. apply M. lia. }
  rewrite !Q by lia. reflexivity.
Qed.

Lemma expand_lt n ip r : In r (expand n ip) -> r < n.
Proof.
  unfold expand. rewrite in_flat_map. intros [[a c] [Hin Hr]].
  apply in_combine_l in Hin. apply in_seq in Hin. apply repeat_spec in Hr. cbn in Hr. lia.
Qed.

Lemma ptr_le n ip m i j : ptr_ok n ip m -> i <= j -> j <= n -> nth i ip 0 <= nth j ip 0.
Proof.
  intros P H. induction H as [|j H IH]; intros Hj; [lia|].
  pose proof (po_mono _ _ _ P j ltac:(lia)). specialize (IH ltac:(lia)). lia.
Qed.

Lemma at_slot_pairs n ip ix i j s : ptr_ok n ip (length ix) -> i < n ->
  (at_slot ip ix i j s <->
   s < length ix /\ nth s (combine (expand n ip) ix) (0, 0) = (i, j)).
Proof.
  intros P Hi. pose proof (expand_length _ _ _ P) as EL.
  rewrite (combine_nth _ _ s 0 0 EL). unfold at_slot. split.
  - intros [H <-]. assert (Hs : s < length ix).
    { pose proof (ptr_le _ _ _ (S i) n P ltac:(lia) ltac:(lia)). rewrite (po_end _ _ _ P) in H0. lia. }
    split; [exact Hs|]. f_equal. apply (expand_nth n ip _ s i P Hs Hi). exact H.
  - intros [Hs E]. injection E as E1 E2. split; [|exact E2].
    apply (expand_nth n ip _ s i P Hs Hi). exact E1.
Qed.

Lemma in_pairs n ip ix i j : ptr_ok n ip (length ix) ->
  (In (i, j) (combine (expand n ip) ix) <-> i < n /\ exists s, at_slot ip ix i j s).
Proof.
  intros P. pose proof (expand_length _ _ _ P) as EL. split.
  - intros H. assert (Hi : i < n) by (apply in_combine_l in H; apply expand_lt in H; exact H).
    split; [exact Hi|]. apply (In_nth _ _ (0, 0)) in H. destruct H as [s [Hs E]].
    rewrite combine_length, EL, Nat.min_id in Hs.
    exists s. apply (at_slot_pairs n); auto.
  - intros [Hi [s H]]. apply (at_slot_pairs n) in H; auto. destruct H as [Hs <-].
    apply nth_In. rewrite combine_length, EL, Nat.min_id. exact Hs.
Qed.

Lemma sorted_ext l1 : forall l2, StronglySorted lt l1 -> StronglySorted lt l2 ->
  (forall x, In x l1 <-> In x l2) -> l1 = l2.
Proof.
  induction l1 as [|a t IH]; intros [|b t2] S1 S2 H; [reflexivity| | |].
  - exfalso. apply (proj2 (H b)). left; reflexivity.
  - exfalso. apply (proj1 (H a)). left; reflexivity.
  - inversion S1 as [|? ? S1' F1]; subst. inversion S2 as [|? ? S2' F2]; subst.
    rewrite Forall_forall in F1, F2.
    assert (a = b).
    { destruct (proj1 (H a) (or_introl eq_refl)) as [E|I]; [auto|].
      destruct (proj2 (H b) (or_introl eq_refl)) as [E|I']; [auto|].
      specialize (F1 _ I'). specialize (F2 _ I). lia. }
    subst b. f_equal. apply IH; auto. intros x. split; intros I.
    + destruct (proj1 (H x) (or_intror I)) as [E|I']; [subst; specialize (F1 _ I); lia|exact I'].
    + destruct (proj2 (H x) (or_intror I)) as [E|I']; [subst; specialize (F2 _ I); lia|exact I'].
Qed.

Lemma sorted_of_nth l : (forall a b, a < b -> b < length l -> nth a l 0 < nth b l 0) -> StronglySorted lt l.
Proof.
  induction l as [|x t IH]; intros H; constructor.
  - apply IH. intros a b Hab Hb. apply (H (S a) (S b)); cbn; lia.
  - rewrite Forall_forall. intros y Hy. apply (In_nth _ _ 0) in Hy. destruct Hy as [k [Hk <-]].
    apply (H 0 (S k)); cbn; lia.
Qed.

(** Columns strictly increasing inside every row. *)
Definition rows_sorted (n : nat) (ip ix : list nat) : Prop :=
  forall i s s', i < n -> nth i ip 0 <= s -> s < s' -> s' < nth (S i) ip 0 -> nth s ix 0 < nth s' ix 0.

Lemma sorted_pairs_keys n nc ip ix : ptr_ok n ip (length ix) -> rows_sorted n ip ix ->
  (forall c, In c ix -> c < nc) ->
  StronglySorted lt (map (key_of nc) (combine (expand n ip) ix)).
Proof.
  intros P R C. pose proof (expand_length _ _ _ P) as EL. apply sorted_of_nth.
  intros a b Hab Hb. rewrite map_length, combine_length, EL, Nat.min_id in Hb.
  rewrite !(nth_map_in (key_of nc) _ (0, 0)) by (rewrite combine_length, EL, Nat.min_id; lia).
  rewrite !(combine_nth _ _ _ 0 0 EL). unfold key_of. cbn [fst snd].
  assert (Ha : a < length ix) by lia.
  assert (Ia : nth a (expand n ip) 0 < n) by (apply (expand_lt n ip), nth_In; lia).
  assert (Ib : nth b (expand n ip) 0 < n) by (apply (expand_lt n ip), nth_In; lia).
  pose proof (proj1 (expand_nth n ip _ a _ P Ha Ia) eq_refl) as Ra.
  pose proof (proj1 (expand_nth n ip _ b _ P Hb Ib) eq_refl) as Rb.
  assert (Ca : nth a ix 0 < nc) by (apply C, nth_In; lia).
  assert (Cb : nth b ix 0 < nc) by (apply C, nth_In; lia).
  set (ra := nth a (expand n ip) 0) in *. set (rb := nth b (expand n ip) 0) in *.
  destruct (Nat.lt_trichotomy ra rb) as [L|[E|G]].
  - clearbody ra rb. clear - L Ca Cb. nia.
  - pose proof (R ra a b Ia ltac:(lia) Hab) as Q. rewrite E in Q. specialize (Q ltac:(lia)).
    rewrite E. lia.
  - exfalso. pose proof (ptr_le _ _ _ (S rb) ra P ltac:(lia) ltac:(lia)). lia.
Qed.

(** A CSR pattern with sorted rows is its own canonical form. *)
Lemma canonical_sorted nr nc ip ix : ptr_ok nr ip (length ix) -> rows_sorted nr ip ix ->
  (forall c, In c ix -> c < nc) ->
  sp_pairs (to_scipy_pattern (PCsr nr nc ip ix)) = combine (expand nr ip) ix.
Proof.
  intros P R C. unfold to_scipy_pattern. cbn [in_nr in_nc in_entries].
  set (L := combine (expand nr ip) ix).
  assert (Hb : forall p, In p L -> fst p < nr /\ snd p < nc).
  { intros [a b] H. unfold L in H. split.
    - apply in_combine_l in H. apply (expand_lt nr ip). exact H.
    - apply C. apply in_combine_r in H. exact H. }
  rewrite canon_pairs.
  2:{ intros e He. apply in_map_iff in He. destruct He as [p [<- Hp]]. apply Hb. exact Hp. }
  rewrite map_map. cbn [fst].
  replace (uniq (map (fun x : nat * nat => key_of nc x) L)) with (map (key_of nc) L).
  - rewrite map_map. rewrite <- (map_id L) at 2. apply map_ext_in. intros p Hp.
    apply unkey_key. apply Hb. exact Hp.
  - apply sorted_ext; [apply sorted_pairs_keys; assumption|apply uniq_sorted|].
    intros x. symmetry. apply uniq_in.
Qed.
