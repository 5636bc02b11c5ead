(** Lemmas about [create_bc]. *)
From Verif Require Import Base Csr_Model Csr_Proofs Ops_Proofs Assembly_Model
     Dof_Model Dof_Spec Dof_Proofs Bc_Model Bc_Proofs.
From Coq Require Import ZifyBool ZifyNat.
Set Implicit Arguments.

(** ** Specification: which spec constrains which DOF *)
Section Spec.
  Variable K : CRing.
  Variable Pt : Type.

  Definition on_location (l : location Pt) (p : Pt) (a : nat) : bool :=
    match l with Loc1 f => f p | Loc2 f => f p a | LocBad => false end.

  (** Spec [s] constrains component [c] of node [a] (at point [p]) of variable [i]. *)
  Definition applies (i a c : nat) (p : Pt) (s : spec K Pt) : bool :=
    match s_var s with None => true | Some k => k =? i end &&
    match s_comp s with CAll => true | COne k => k =? c end &&
    on_location (s_loc s) p a.
End Spec.
Arguments applies {K Pt} i a c p s.

(** ** First occurrence after a stable sort and unique *)
Lemma find_hd_filter A (p : A -> bool) l : find p l = hd_error (filter p l).
Proof. induction l as [|x t IH]; cbn; [reflexivity|]. destruct (p x); cbn; auto. Qed.

Lemma filter_map_comm A B (f : A -> B) p l : filter p (map f l) = map f (filter (fun x => p (f x)) l).
Proof. induction l as [|x t IH]; cbn; [reflexivity|]. destruct (p (f x)); cbn; rewrite IH; reflexivity. Qed.

Section Unique.
  Variable K : CRing.

  Let sorted (l : list (nat * K)) := gather (0%nat, c0) l (argsort (map fst l)).

  Lemma nth_map_fst (l : list (nat * K)) i : nth i (map fst l) 0 = fst (nth i l (0%nat, c0)).
  Proof. rewrite <- (map_nth fst). reflexivity. Qed.

  Lemma sorted_filter l r :
    filter (fun p : nat * K => fst p =? r) (sorted l) = filter (fun p => fst p =? r) l.
  Proof.
    unfold sorted, gather, argsort. rewrite filter_map_comm, map_length.
    rewrite filter_ext with (g := fun i => nth i (map fst l) 0 =? r)
      by (intros i; rewrite nth_map_fst; reflexivity).
    rewrite (sort_key_stable (fun i => nth i (map fst l) 0) r).
    rewrite filter_ext with (g := fun i => fst (nth i l (0%nat, c0)) =? r)
      by (intros i; rewrite nth_map_fst; reflexivity).
    rewrite <- (filter_map_comm (fun i => nth i l (0%nat, c0)) (fun p => fst p =? r)).
    rewrite map_nth_seq. reflexivity.
  Qed.

  Lemma sorted_sorted l : StronglySorted le (map fst (sorted l)).
  Proof.
    pose proof (argsort_sorted (map fst l)) as H. unfold sorted, gather in *.
    rewrite map_map. erewrite map_ext; [exact H|]. intros i. symmetry. apply nth_map_fst.
  Qed.

  Lemma map_mask_select A B (f : A -> B) l m : map f (mask_select l m) = mask_select (map f l) m.
  Proof.
    revert m; induction l as [|x t IH]; intros [|b m]; cbn; try reflexivity.
    destruct b; cbn; rewrite IH; reflexivity.
  Qed.

  Lemma unique_find_from (t : list (nat * K)) : forall p r x,
    StronglySorted le (p :: map fst t) ->
    (In (r, x) (mask_select t (neq_prev p (map fst t))) <->
     r <> p /\ find (fun q => fst q =? r) t = Some (r, x)).
  Proof.
    induction t as [|y t IH]; intros p r x Hs; cbn [map neq_prev mask_select find].
    - split; [intros [] | intros [_ H]; discriminate].
    - inversion Hs as [|? ? Hs' Hf]; subst. cbn [map] in Hs', Hf.
      inversion Hf as [|? ? Hpy _]; subst.
      specialize (IH (fst y) r x Hs').
      destruct (Nat.eqb_spec (fst y) p) as [E|E]; cbn [negb].
      + rewrite E in IH. rewrite E, IH.
        destruct (Nat.eqb_spec p r) as [Er|Er]; [|tauto].
        split; intros [H _]; exfalso; apply H; congruence.
      + cbn [In]. rewrite IH. destruct (Nat.eqb_spec (fst y) r) as [Er|Er].
        * split.
          -- intros [H|[H _]]; [|congruence]. subst y. split; [exact E | reflexivity].
          -- intros [_ H]. left. congruence.
        * split.
          -- intros [H|[_ H]]; [subst y; cbn in Er; congruence|]. split; [|exact H].
             intros ->. apply find_some in H. destruct H as [Hin Hq].
             inversion Hs' as [|? ? _ Hf']; subst. rewrite Forall_forall in Hf'.
             specialize (Hf' p). assert (Hpin : In p (map fst t)) by (apply in_map_iff; exists (p, x); auto).
             specialize (Hf' Hpin). lia.
          -- intros [_ H]. right. split; [congruence | exact H].
  Qed.

  Lemma unique_first_find l r x :
    In (r, x) (unique_first K l) <-> find (fun q => fst q =? r) l = Some (r, x).
  Proof.
    rewrite find_hd_filter, <- (sorted_filter l r), <- find_hd_filter.
    unfold unique_first. cbv zeta. change (gather (0%nat, 0%K) l (argsort (map fst l))) with (sorted l).
    pose proof (sorted_sorted l) as Hs.
    destruct (sorted l) as [|y t]; cbn [map is_new mask_select find].
    - split; [intros [] | discriminate].
    - cbn [map] in Hs. cbn [In]. rewrite (unique_find_from t r x Hs).
      destruct (Nat.eqb_spec (fst y) r) as [E|E].
      + split.
        * intros [H|[H _]]; congruence.
        * intros H. left. congruence.
      + split.
        * intros [H|[_ H]]; [subst y; cbn in E; congruence | exact H].
        * intros H. right. split; [congruence|exact H].
  Qed.

  Lemma unique_first_sorted l : StronglySorted lt (map fst (unique_first K l)).
  Proof.
    unfold unique_first. cbv zeta. rewrite map_mask_select. apply unique_sorted, sorted_sorted.
  Qed.

  Lemma unique_first_row l r : In r (map fst (unique_first K l)) <-> In r (map fst l).
  Proof.
    split.
    - intros H. apply in_map_iff in H. destruct H as [[r' x] [E H]]. cbn in E. subst r'.
      apply unique_first_find in H. apply find_some in H. destruct H as [H _].
      apply in_map_iff. exists (r, x). auto.
    - intros H. apply in_map_iff in H. destruct H as [[r' x] [E H]]. cbn in E. subst r'.
      destruct (find (fun q => fst q =? r) l) as [[r' x']|] eqn:Ef.
      + pose proof Ef as Ef2. apply find_some in Ef2. destruct Ef2 as [_ E]. cbn in E. apply Nat.eqb_eq in E. subst r'.
        apply in_map_iff. exists (r, x'). split; [reflexivity|]. apply unique_first_find. exact Ef.
      + exfalso. pose proof (find_none _ _ Ef _ H) as E. cbn in E. rewrite Nat.eqb_refl in E. discriminate.
  Qed.
End Unique.

(** ** Running the loops *)
Section Collect.
  Variables A B : Type.

  Lemma collect_ok (g : A -> res (list B)) (h : A -> list B) l :
    (forall x, In x l -> g x = Ok (h x)) -> collect g l = Ok (flat_map h l).
  Proof.
    induction l as [|x t IH]; intros H; cbn; [reflexivity|].
    rewrite (H x (or_introl eq_refl)), IH by (intros; apply H; right; assumption). reflexivity.
  Qed.

  Lemma collect_err (g : A -> res (list B)) l :
    (forall x, In x l -> (exists r, g x = Ok r) \/ g x = ValueError) ->
    (exists x, In x l /\ g x = ValueError) -> collect g l = ValueError.
  Proof.
    induction l as [|x t IH]; intros H [y [Hy E]]; [destruct Hy|]. cbn.
    destruct (H x (or_introl eq_refl)) as [[r Er]|Er]; rewrite Er; [|reflexivity].
    rewrite IH; [reflexivity | intros; apply H; right; assumption|].
    destruct Hy as [->|Hy]; [congruence|]. exists y. auto.
  Qed.
End Collect.

Lemma find_flat_map_none A B (p : B -> bool) (f : A -> list B) l :
  (forall x, In x l -> find p (f x) = None) -> find p (flat_map f l) = None.
Proof.
  induction l as [|x t IH]; intros H; cbn; [reflexivity|].
  assert (E : forall l1 l2, find p (l1 ++ l2) = match find p l1 with Some y => Some y | None => find p l2 end).
  { clear. induction l1 as [|y t IH]; intros l2; cbn; [reflexivity|]. destruct (p y); auto. }
  rewrite E, (H x (or_introl eq_refl)). apply IH. intros; apply H; right; assumption.
Qed.

Lemma find_app A (p : A -> bool) l1 l2 :
  find p (l1 ++ l2) = match find p l1 with Some y => Some y | None => find p l2 end.
Proof. induction l1 as [|y t IH]; cbn; [reflexivity|]. destruct (p y); auto. Qed.

Section Blocks.
  Variable K : CRing.
  Variable Pt : Type.
  Variable d : Pt.
  Variables (fes : list (fe Pt)) (specs : list (spec K Pt)).
  Local Notation L := (fe_layout fes).

  Definition nodes_of (l : location Pt) (pts : list Pt) : list nat :=
    filter (fun a => on_location l (nth a pts d) a) (seq 0 (length pts)).

  Definition pure_block (off : nat) (f : fe Pt) (s : spec K Pt) (c : nat) : list (nat * K) :=
    map (fun a => (a * fe_vec f + c + off, s_val s (nth a (fe_points f) d))) (nodes_of (s_loc s) (fe_points f)).

  Lemma flat_map_filter A (p : A -> bool) (q : A -> nat) (l : list A) :
    flat_map (fun x => if p x then [q x] else []) l = map q (filter p l).
  Proof. induction l as [|x t IH]; cbn; [reflexivity|]. destruct (p x); cbn; rewrite IH; reflexivity. Qed.

  Lemma combine_seq_pts (pts : list Pt) : combine (seq 0 (length pts)) pts = map (fun a => (a, nth a pts d)) (seq 0 (length pts)).
  Proof.
    rewrite (combine_as_map (seq 0 (length pts)) pts 0 d) by apply seq_length.
    rewrite seq_length. apply map_ext_in. intros a Ha. apply in_seq in Ha. rewrite seq_nth by lia. reflexivity.
  Qed.

  Lemma node_inds_ok l pts : l <> LocBad -> node_inds l pts = Ok (nodes_of l pts).
  Proof.
    intros H. unfold node_inds, nodes_of. destruct l as [f|f|]; [| |congruence]; f_equal;
      rewrite combine_seq_pts, flat_map_filter, filter_map_comm, map_map; cbn [fst snd]; apply map_id.
  Qed.

  Lemma one_block_ok off f (s : spec K Pt) c : s_loc s <> LocBad -> one_block d off f s c = Ok (pure_block off f s c).
  Proof. intros H. unfold one_block. rewrite node_inds_ok by exact H. reflexivity. Qed.

  Lemma one_block_bad off f (s : spec K Pt) c : s_loc s = LocBad -> one_block d off f s c = ValueError.
  Proof. intros H. unfold one_block. rewrite H. reflexivity. Qed.

  (** A raised error: some reached spec has a location function of wrong arity. *)
  Definition bad_spec : Prop :=
    exists i f s, nth_error fes i = Some f /\ In s specs /\ s_loc s = LocBad /\ spec_components i f s <> [].

  Definition pure_blocks : list (nat * K) :=
    flat_map (fun p : nat * fe Pt => flat_map (fun s =>
       flat_map (pure_block (nth (fst p) (dof_offsets L) 0) (snd p) s) (spec_components (fst p) (snd p) s)) specs)
      (combine (seq 0 (length fes)) fes).

  Lemma in_enum i f : In (i, f) (combine (seq 0 (length fes)) fes) <-> nth_error fes i = Some f.
  Proof.
    assert (G : forall (l : list (fe Pt)) b, In (i, f) (combine (seq b (length l)) l) <-> b <= i /\ nth_error l (i - b) = Some f).
    { induction l as [|x t IH]; intros b; cbn [length seq combine In].
      - split; [tauto|]. intros [_ H]. destruct (i - b); discriminate.
      - rewrite IH. split.
        + intros [H|[H1 H2]].
          * assert (b = i /\ x = f) as [-> ->] by (split; congruence). rewrite Nat.sub_diag. split; [lia|reflexivity].
          * split; [lia|]. replace (i - b) with (S (i - S b)) by lia. exact H2.
        + intros [H1 H2]. destruct (Nat.eq_dec b i) as [->|].
          * left. rewrite Nat.sub_diag in H2. cbn in H2. congruence.
          * right. split; [lia|]. replace (i - b) with (S (i - S b)) in H2 by lia. exact H2. }
    rewrite G, Nat.sub_0_r. split; [tauto|]. intros H. split; [lia|exact H].
  Qed.

  Lemma blocks_ok : ~ bad_spec -> bc_blocks d fes specs = Ok pure_blocks.
  Proof.
    intros H. unfold bc_blocks. cbv zeta. apply collect_ok. intros [i f] Hin. apply in_enum in Hin. cbn [fst snd].
    apply collect_ok. intros s Hs.
    destruct (spec_components i f s) as [|c0' cs] eqn:E; [reflexivity|]. rewrite <- E.
    apply collect_ok. intros c Hc. apply one_block_ok. intros Hb. apply H.
    exists i, f, s. rewrite E. repeat split; auto. discriminate.
  Qed.

  Lemma inner_cases i f (s : spec K Pt) :
    (exists r, collect (one_block d (nth i (dof_offsets L) 0) f s) (spec_components i f s) = Ok r) \/
    collect (one_block d (nth i (dof_offsets L) 0) f s) (spec_components i f s) = ValueError.
  Proof.
    destruct (s_loc s) eqn:E.
    1,2: left; eexists; apply collect_ok; intros; apply one_block_ok; congruence.
    destruct (spec_components i f s) as [|c cs] eqn:Ec; [left; exists []; reflexivity|].
    right. cbn. rewrite one_block_bad by exact E. reflexivity.
  Qed.

  Lemma collect_cases A B (g : A -> res (list B)) l :
    (forall x, In x l -> (exists r, g x = Ok r) \/ g x = ValueError) ->
    (exists r, collect g l = Ok r) \/ collect g l = ValueError.
  Proof.
    induction l as [|x t IH]; intros H; cbn; [left; exists []; reflexivity|].
    destruct (H x (or_introl eq_refl)) as [[r ->]| ->]; [|auto].
    destruct IH as [[r' ->]| ->]; [intros; apply H; right; assumption | left; eauto | auto].
  Qed.

  Lemma blocks_err : bad_spec -> bc_blocks d fes specs = ValueError.
  Proof.
    intros (i & f & s & Hi & Hs & Hb & Hc). unfold bc_blocks. cbv zeta.
    apply collect_err.
    - intros [i' f'] _. cbn [fst snd]. apply collect_cases. intros s' _. apply inner_cases.
    - exists (i, f). split; [apply in_enum; exact Hi|]. cbn [fst snd]. apply collect_err.
      + intros s' _. apply inner_cases.
      + exists s. split; [exact Hs|].
        destruct (spec_components i f s) as [|c cs]; [congruence|].
        cbn. rewrite one_block_bad by exact Hb. reflexivity.
  Qed.

  Lemma layout_nth i f : nth_error fes i = Some f -> nth i L (0, 0) = (length (fe_points f), fe_vec f).
  Proof.
    intros H. unfold fe_layout.
    pose proof (nth_error_Some fes i) as [A _]. specialize (A ltac:(congruence)).
    rewrite nth_map_in with (d := f) by exact A.
    rewrite (nth_error_nth fes i f H). reflexivity.
  Qed.

  Lemma layout_len : length L = length fes.
  Proof. apply map_length. Qed.

  Lemma spec_comp_lt i f (s : spec K Pt) c : In c (spec_components i f s) -> c < fe_vec f.
  Proof.
    unfold spec_components. destruct (match s_var s with Some _ => _ | None => _ end); [intros []|].
    destruct (s_comp s) as [|k]; [rewrite in_seq; lia|].
    destruct (Nat.leb_spec (fe_vec f) k); [intros [] | intros [<-|[]]; assumption].
  Qed.

  Lemma nodes_of_in l pts a : In a (nodes_of l pts) <-> a < length pts /\ on_location l (nth a pts d) a = true.
  Proof. unfold nodes_of. rewrite filter_In, in_seq. intuition lia. Qed.

  Lemma pure_block_dof i f (s : spec K Pt) c a : nth_error fes i = Some f -> In a (nodes_of (s_loc s) (fe_points f)) ->
    c < fe_vec f ->
    a * fe_vec f + c + nth i (dof_offsets L) 0 = dof L i a c /\ valid_dof L i a c.
  Proof.
    intros Hi Ha Hc. apply nodes_of_in in Ha. destruct Ha as [Ha _].
    pose proof (nth_error_Some fes i) as [A _]. specialize (A ltac:(congruence)).
    rewrite nth_dof_offsets by (rewrite layout_len; exact A).
    unfold dof, valid_dof. rewrite (layout_nth i Hi), layout_len. cbn [fst snd].
    repeat split; try assumption. lia.
  Qed.

  (** Membership. *)
  Lemma spec_comp_iff i f (s : spec K Pt) c : c < fe_vec f ->
    (In c (spec_components i f s) <->
     match s_var s with None => true | Some k => k =? i end = true /\
     match s_comp s with CAll => true | COne k => k =? c end = true).
  Proof.
    intros Hc. unfold spec_components. destruct (s_var s) as [k|]; [destruct (k =? i); cbn [negb]|].
    2: split; [intros [] | intros [H _]; discriminate].
    all: destruct (s_comp s) as [|q]; [rewrite in_seq; split; intros; [auto|lia]|].
    all: destruct (Nat.leb_spec (fe_vec f) q); cbn [In];
      split; [intros [] | rewrite Nat.eqb_eq; intros [_ ?]; lia | | rewrite Nat.eqb_eq; intros [_ ?]; auto].
    all: intros [<-|[]]; split; [reflexivity | apply Nat.eqb_refl].
  Qed.

  (** Searching one spec's pairs. *)
  Lemma find_pure_block i f s c a c' :
    nth_error fes i = Some f -> c < fe_vec f -> c' < fe_vec f -> a < length (fe_points f) ->
    find (fun q => fst q =? dof L i a c') (pure_block (nth i (dof_offsets L) 0) f s c) =
    if (c =? c') && on_location (s_loc s) (nth a (fe_points f) d) a
    then Some (dof L i a c', s_val s (nth a (fe_points f) d)) else None.
  Proof.
    intros Hi Hc Hc' Ha.
    assert (V' : valid_dof L i a c').
    { unfold valid_dof. rewrite (layout_nth i Hi), layout_len. cbn [fst snd].
      pose proof (nth_error_Some fes i) as [A _]. specialize (A ltac:(congruence)). auto. }
    unfold pure_block.
    destruct (find _ _) as [q|] eqn:E.
    - apply find_some in E. destruct E as [Hin E]. apply Nat.eqb_eq in E.
      apply in_map_iff in Hin. destruct Hin as [a2 [<- Ha2]]. cbn [fst] in E.
      destruct (@pure_block_dof i f s c a2 Hi Ha2 Hc) as [E2 V2]. rewrite E2 in *.
      destruct (dof_inj V2 V' E) as (_ & -> & ->). rewrite Nat.eqb_refl. cbn [andb].
      apply nodes_of_in in Ha2. destruct Ha2 as [_ ->]. reflexivity.
    - destruct ((c =? c') && on_location (s_loc s) (nth a (fe_points f) d) a) eqn:B; [|reflexivity].
      apply andb_true_iff in B. destruct B as [Bc Bl]. apply Nat.eqb_eq in Bc. subst c'.
      assert (Hin : In a (nodes_of (s_loc s) (fe_points f))) by (apply nodes_of_in; auto).
      destruct (@pure_block_dof i f s c a Hi Hin Hc) as [E2 _].
      pose proof (find_none _ _ E (a * fe_vec f + c + nth i (dof_offsets L) 0, s_val s (nth a (fe_points f) d))) as N.
      cbn [fst] in N. rewrite E2, Nat.eqb_refl in N. exfalso.
      assert (true = false); [|discriminate]. apply N. apply in_map_iff. exists a. rewrite E2. auto.
  Qed.

  Lemma find_flat_map_unique A B (p : B -> bool) (f : A -> list B) l x :
    In x l -> (forall y, In y l -> y <> x -> find p (f y) = None) -> NoDup l ->
    find p (flat_map f l) = find p (f x).
  Proof.
    intros Hin H ND. induction l as [|y t IH]; [destruct Hin|]. cbn. rewrite find_app.
    inversion ND as [|? ? Hn ND']; subst. destruct Hin as [->|Hin].
    - rewrite (find_flat_map_none p f t).
      + destruct (find p (f x)); reflexivity.
      + intros z Hz. apply H; [right; exact Hz|]. intros ->. contradiction.
    - rewrite (H y (or_introl eq_refl)) by (intros ->; contradiction).
      apply IH; auto. intros z Hz Hne. apply H; [right; exact Hz | exact Hne].
  Qed.

  Lemma spec_comp_NoDup i f (s : spec K Pt) : NoDup (spec_components i f s).
  Proof.
    unfold spec_components. destruct (match s_var s with Some _ => _ | None => _ end); [constructor|].
    destruct (s_comp s) as [|k]; [apply seq_NoDup|].
    destruct (fe_vec f <=? k); repeat constructor. intros [].
  Qed.

  Lemma find_spec i f s a c :
    nth_error fes i = Some f -> c < fe_vec f -> a < length (fe_points f) ->
    find (fun q => fst q =? dof L i a c)
      (flat_map (pure_block (nth i (dof_offsets L) 0) f s) (spec_components i f s)) =
    if applies i a c (nth a (fe_points f) d) s
    then Some (dof L i a c, s_val s (nth a (fe_points f) d)) else None.
  Proof.
    intros Hi Hc Ha. unfold applies.
    destruct (in_dec Nat.eq_dec c (spec_components i f s)) as [Hin|Hnin].
    - rewrite find_flat_map_unique with (x := c); [|exact Hin| |].
      + rewrite find_pure_block by assumption. rewrite Nat.eqb_refl. cbn [andb].
        apply (@spec_comp_iff i f s c Hc) in Hin. destruct Hin as [-> ->]. reflexivity.
      + intros c2 Hc2 Hne. pose proof (@spec_comp_lt i f s _ Hc2).
        rewrite find_pure_block by assumption. destruct (Nat.eqb_spec c2 c); [contradiction|]. reflexivity.
      + apply spec_comp_NoDup.
    - rewrite find_flat_map_none.
      + rewrite (@spec_comp_iff i f s c Hc) in Hnin.
        destruct (match s_var s with Some _ => _ | None => _ end); [|reflexivity].
        destruct (match s_comp s with CAll => _ | COne _ => _ end); [tauto | reflexivity].
      + intros c2 Hc2. pose proof (@spec_comp_lt i f s _ Hc2).
        rewrite find_pure_block by assumption. destruct (Nat.eqb_spec c2 c) as [->|]; [contradiction|]. reflexivity.
  Qed.

  Lemma find_specs (g : spec K Pt -> list (nat * K)) (ap : spec K Pt -> bool) (r : nat) (w : spec K Pt -> K) l :
    (forall s, In s l -> find (fun q => fst q =? r) (g s) = if ap s then Some (r, w s) else None) ->
    find (fun q => fst q =? r) (flat_map g l) =
    match find ap l with Some s => Some (r, w s) | None => None end.
  Proof.
    induction l as [|s t IH]; intros H; cbn; [reflexivity|].
    rewrite find_app, (H s (or_introl eq_refl)). destruct (ap s); [reflexivity|].
    apply IH. intros; apply H; right; assumption.
  Qed.

  Lemma block_rows_valid i f s q : nth_error fes i = Some f ->
    In q (flat_map (pure_block (nth i (dof_offsets L) 0) f s) (spec_components i f s)) ->
    exists a c, valid_dof L i a c /\ fst q = dof L i a c.
  Proof.
    intros Hi H. apply in_flat_map in H. destruct H as [c [Hc H]].
    unfold pure_block in H. apply in_map_iff in H. destruct H as [a [<- Ha]].
    destruct (@pure_block_dof i f s c a Hi Ha (@spec_comp_lt i f s _ Hc)) as [E V]. exists a, c. auto.
  Qed.

  Lemma enum_NoDup : NoDup (combine (seq 0 (length fes)) fes).
  Proof.
    apply (NoDup_map_inv fst). rewrite combine_map_fst by apply seq_length. apply seq_NoDup.
  Qed.

  Lemma find_blocks i f a c :
    nth_error fes i = Some f -> c < fe_vec f -> a < length (fe_points f) ->
    find (fun q => fst q =? dof L i a c) pure_blocks =
    match find (applies i a c (nth a (fe_points f) d)) specs with
    | Some s => Some (dof L i a c, s_val s (nth a (fe_points f) d))
    | None => None
    end.
  Proof.
    intros Hi Hc Ha. unfold pure_blocks.
    rewrite find_flat_map_unique with (x := (i, f)).
    - cbn [fst snd]. rewrite (find_specs _ (applies i a c (nth a (fe_points f) d)) (dof L i a c)
         (fun s => s_val s (nth a (fe_points f) d))).
      + reflexivity.
      + intros s _. apply find_spec; assumption.
    - apply in_enum. exact Hi.
    - intros [i2 f2] Hin Hne. apply in_enum in Hin. cbn [fst snd].
      destruct (find _ _) as [q|] eqn:E; [|reflexivity]. exfalso.
      apply find_some in E. destruct E as [Hq E]. apply Nat.eqb_eq in E.
      apply in_flat_map in Hq. destruct Hq as [s [_ Hq]].
      apply block_rows_valid in Hq; [|exact Hin]. destruct Hq as (a2 & c2 & V2 & E2). rewrite E2 in E.
      assert (V : valid_dof L i a c).
      { unfold valid_dof. rewrite (layout_nth i Hi), layout_len. cbn [fst snd].
        pose proof (nth_error_Some fes i) as [A _]. specialize (A ltac:(congruence)). auto. }
      destruct (dof_inj V2 V E) as (-> & _). apply Hne. congruence.
    - apply enum_NoDup.
  Qed.

  Lemma blocks_valid q : In q pure_blocks -> exists i a c, valid_dof L i a c /\ fst q = dof L i a c.
  Proof.
    intros H. unfold pure_blocks in H. apply in_flat_map in H. destruct H as [[i f] [Hin H]].
    apply in_enum in Hin. cbn [fst snd] in H. apply in_flat_map in H. destruct H as [s [_ H]].
    apply block_rows_valid in H; [|exact Hin]. destruct H as (a & c & V & E). exists i, a, c. auto.
  Qed.

  Lemma create_bc_ok : ~ bad_spec -> exists bc,
    create_bc d fes specs = Ok bc /\ bc_total bc = total_dofs L /\
    bc_rows bc = map fst (unique_first K pure_blocks) /\ bc_vals bc = map snd (unique_first K pure_blocks) /\
    bc_mask bc = scatter_set (repeat false (total_dofs L)) (map (fun r => (r, true)) (bc_rows bc)).
  Proof.
    intros H. unfold create_bc. destruct specs as [|s0 ss] eqn:E.
    - assert (Ep : pure_blocks = []).
      { unfold pure_blocks. rewrite E. clear. induction (combine _ fes) as [|p t IH]; cbn; auto. }
      eexists. split; [reflexivity|]. cbn. rewrite Ep. auto.
    - rewrite <- E. rewrite blocks_ok by exact H. eexists. split; [reflexivity|]. cbn. auto.
  Qed.
End Blocks.
