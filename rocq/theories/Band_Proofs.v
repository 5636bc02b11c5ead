(** Lemmas about narrow bands and sparse designs. *)
From Coq Require Import ZArith Bool List Arith Sorting.Permutation Sorting.Sorted Lia.
From Verif Require Import Base Assembly_Model Assembly_Proofs Dof_Proofs ZArr Grid_Model Band_Model.
Import ListNotations.
Local Open Scope Z_scope.

Lemma memZ_iff x l : memZ x l = true <-> In x l.
Proof.
  unfold memZ. rewrite existsb_exists. split.
  - intros (y & Hy & E). apply Z.eqb_eq in E. subst. exact Hy.
  - intros H. exists x. split; [exact H|apply Z.eqb_refl].
Qed.

Lemma in_concat_map {A B} (f : A -> list B) l x : In x (concat (map f l)) <-> exists a, In a l /\ In x (f a).
Proof. rewrite <- flat_map_concat_map. apply in_flat_map. Qed.

Section Band.
  Context {P : Type}.
  Variable dom : domain P.
  Variable active : list Z.
  Local Notation b := (narrow_band dom active).

  Lemma map_in n : In n (b_map b) <-> exists c, In c active /\ In n (d_cells dom c).
  Proof. cbn. rewrite uniqueZ_in. apply in_concat_map. Qed.
  Lemma map_sorted : StronglySorted Z.lt (b_map b).
  Proof. apply uniqueZ_sorted. Qed.
  Lemma cell_entry c n : In c active -> In n (d_cells dom c) ->
    (searchsortedZ (b_map b) n < length (b_map b))%nat /\ forall d, nth (searchsortedZ (b_map b) n) (b_map b) d = n.
  Proof. intros Hc Hn. apply searchsortedZ_hit; [apply map_sorted|]. apply map_in. exists c. auto. Qed.
  Lemma nth_b_cells k : (k < length active)%nat ->
    nth k (b_cells b) [] = map (searchsortedZ (b_map b)) (d_cells dom (nth k active 0)).
  Proof.
    intros Hk. cbn [b_cells narrow_band]. rewrite map_map.
    rewrite (nth_map_in (fun x => map (searchsortedZ (uniqueZ (concat (map (d_cells dom) active)))) (d_cells dom x)) active 0 [] Hk). reflexivity.
  Qed.
End Band.

(** Scattering distinct in-range rows and reading them back. *)
Lemma nth_combine_scatter {A} (idx : list nat) (vals : list A) base k d :
  NoDup idx -> length idx = length vals -> (k < length idx)%nat -> (nth k idx O < length base)%nat ->
  nth (nth k idx O) (scatter_set base (combine idx vals)) d = nth k vals d.
Proof.
  intros ND L Hk Hb. apply nth_scatter_set_in.
  - rewrite combine_map_fst by exact L. exact ND.
  - exact Hb.
  - rewrite <- (combine_nth idx vals k O d L). apply nth_In. rewrite combine_length. lia.
Qed.
Lemma gather_scatter {A} (idx : list nat) (vals base : list A) d :
  NoDup idx -> length idx = length vals -> (forall i, In i idx -> (i < length base)%nat) ->
  map (fun i => nth i (scatter_set base (combine idx vals)) d) idx = vals.
Proof.
  intros ND L Hb. apply nth_ext with (d := d) (d' := d).
  - rewrite map_length. exact L.
  - rewrite map_length. intros k Hk.
    rewrite nth_map_in with (d := O) by exact Hk. apply nth_combine_scatter; auto. apply Hb, nth_In, Hk.
Qed.
Lemma scatter_gather {A} (idx : list nat) (full : list A) fill n j d :
  NoDup idx -> length full = n -> (j < n)%nat ->
  nth j (scatter_set (repeat fill n) (combine idx (map (fun i => nth i full d) idx))) d =
  if existsb (Nat.eqb j) idx then nth j full d else fill.
Proof.
  intros ND L Hj. destruct (existsb (Nat.eqb j) idx) eqn:E.
  - apply existsb_exists in E. destruct E as (x & Hx & E). apply Nat.eqb_eq in E. subst x.
    apply nth_scatter_set_in.
    + rewrite combine_map_fst by (rewrite map_length; reflexivity). exact ND.
    + rewrite repeat_length. exact Hj.
    + clear -Hx. induction idx as [|a t IH]; [destruct Hx|]. cbn. destruct Hx as [->|Hx]; [left; reflexivity|right; auto].
  - rewrite nth_scatter_set_notin.
    + rewrite nth_indep with (d' := fill) by (rewrite repeat_length; exact Hj). apply nth_repeat.
    + rewrite combine_map_fst by (rewrite map_length; reflexivity). intros H.
      assert (existsb (Nat.eqb j) idx = true) by (apply existsb_exists; exists j; split; [exact H|apply Nat.eqb_refl]). congruence.
Qed.

Lemma NoDup_to_nat l : NoDup l -> (forall x, In x l -> 0 <= x) -> NoDup (map Z.to_nat l).
Proof.
  induction 1 as [|x t Hn ND IH]; intros H; cbn; constructor.
  - intros Hx. apply in_map_iff in Hx. destruct Hx as (y & E & Hy). apply Hn.
    assert (y = x) by (assert (0 <= y) by (apply H; right; exact Hy); assert (0 <= x) by (apply H; left; reflexivity); lia).
    subst. exact Hy.
  - apply IH. intros y Hy. apply H. right. exact Hy.
Qed.

Lemma nth_concat_rows {A} w (rows : list (list A)) i j d :
  (forall r, In r rows -> length r = w) -> (i < length rows)%nat -> (j < w)%nat ->
  nth (i * w + j) (concat rows) d = nth j (nth i rows []) d.
Proof.
  intros H Hi Hj. rewrite <- (reshape_concat rows H) at 2.
  rewrite (nth_reshape d).
  - reflexivity.
  - rewrite (concat_const_length rows H). lia.
  - exact Hi.
  - exact Hj.
Qed.

(** ** Adjacency rings *)
Section Rings.
  Context {P : Type}.
  Variable dom : domain P.
  Definition in_dom (l : list Z) : Prop := forall c, In c l -> 0 <= c < d_ncells dom.
  Definition has_nodes : Prop := forall c, 0 <= c < d_ncells dom -> d_cells dom c <> [].

  Lemma adjacent_in seed c : In c (node_adjacent_cells dom seed) <->
    0 <= c < d_ncells dom /\ exists n s, In n (d_cells dom c) /\ In s seed /\ In n (d_cells dom s).
  Proof.
    unfold node_adjacent_cells. rewrite filter_In, arangeZ_in, existsb_exists. split.
    - intros [H (n & Hn & M)]. split; [exact H|]. apply memZ_iff, in_concat_map in M. destruct M as (s & Hs & Hsn). exists n, s. auto.
    - intros [H (n & s & Hn & Hs & Hsn)]. split; [exact H|]. exists n. split; [exact Hn|]. apply memZ_iff, in_concat_map. exists s. auto.
  Qed.
  Lemma adjacent_dom seed : in_dom (node_adjacent_cells dom seed).
  Proof. intros c Hc. apply adjacent_in in Hc. tauto. Qed.
  Lemma adjacent_incl seed : has_nodes -> in_dom seed -> incl seed (node_adjacent_cells dom seed).
  Proof.
    intros Hn Hd c Hc. apply adjacent_in. split; [apply Hd; exact Hc|]. specialize (Hn c (Hd c Hc)).
    destruct (d_cells dom c) as [|n t] eqn:E; [congruence|]. exists n, c. rewrite E. cbn. auto.
  Qed.
  Lemma adjacent_mono s1 s2 : incl s1 s2 -> incl (node_adjacent_cells dom s1) (node_adjacent_cells dom s2).
  Proof.
    intros H c Hc. apply adjacent_in in Hc. destruct Hc as [B (n & s & X & Y & Z)]. apply adjacent_in. split; [exact B|].
    exists n, s. auto.
  Qed.
  Lemma rings_dom r seed : in_dom seed -> in_dom (dilate_rings dom r seed).
  Proof. intros H. destruct r; [exact H|]. apply adjacent_dom. Qed.
  Lemma rings_mono r s1 s2 : incl s1 s2 -> incl (dilate_rings dom r s1) (dilate_rings dom r s2).
  Proof. intros H. induction r as [|r IH]; [exact H|]. apply adjacent_mono, IH. Qed.
  Lemma rings_more r k seed : has_nodes -> in_dom seed -> incl (dilate_rings dom r seed) (dilate_rings dom (k + r) seed).
  Proof.
    intros Hn Hd. induction k as [|k IH]; [apply incl_refl|].
    eapply incl_tran; [exact IH|]. apply adjacent_incl; [exact Hn|]. apply rings_dom, Hd.
  Qed.
  (** Cells reachable by at most r steps between cells sharing a node. *)
  Inductive reach : nat -> list Z -> Z -> Prop :=
  | reach_seed r seed c : In c seed -> 0 <= c < d_ncells dom -> reach r seed c
  | reach_step r seed c s n : reach r seed s -> 0 <= c < d_ncells dom -> In n (d_cells dom c) -> In n (d_cells dom s) -> reach (S r) seed c.
  Lemma rings_reach r seed c : has_nodes -> in_dom seed -> (In c (dilate_rings dom r seed) <-> reach r seed c).
  Proof.
    intros Hn Hd. revert c. induction r as [|r IH]; intros c.
    - cbn. split; [intros H; constructor; auto|]. intros H. inversion H; subst. assumption.
    - cbn [dilate_rings Nat.iter nat_rect]. change (Nat.iter r (node_adjacent_cells dom) seed) with (dilate_rings dom r seed).
      rewrite adjacent_in. split.
      + intros [B (n & s & X & Y & Z)]. apply IH in Y. eapply reach_step; eassumption.
      + intros H. inversion H as [? ? ? HS HB|? ? ? s n HR HB HX HY]; subst.
        * split; [exact HB|]. specialize (Hn c HB). destruct (d_cells dom c) as [|n t] eqn:E; [congruence|].
          exists n, c. rewrite E. split; [left; reflexivity|]. split; [|left; reflexivity]. apply IH. constructor; assumption.
        * split; [exact HB|]. exists n, s. split; [exact HX|]. split; [apply IH; exact HR|exact HY].
  Qed.
End Rings.

(** ** Sparse designs *)
Section Sparse.
  Context {A : Type}.
  Variable dflt : A.
  Variable argsrt : list Z -> list nat.
  (** The contract of a sorting routine. *)
  Definition sorts : Prop := forall l,
    Permutation (seq 0 (length l)) (argsrt l) /\ StronglySorted Z.le (map (fun i => nth i l 0) (argsrt l)).
  Hypothesis Hs : sorts.
  Definition int32 (z : Z) : Prop := - two31 <= z < two31.

  Lemma wrap32_id z : int32 z -> wrap32 z = z.
  Proof. unfold int32, wrap32, two31. intros H. rewrite Z.mod_small; lia. Qed.

  Lemma le_NoDup_lt l : StronglySorted Z.le l -> NoDup l -> StronglySorted Z.lt l.
  Proof.
    induction 1 as [|x t H1 IH Hf]; intros ND; [constructor|]. inversion ND as [|? ? Hn ND']; subst. constructor; [auto|].
    rewrite Forall_forall in *. intros y Hy. specialize (Hf y Hy). assert (x <> y) by (intros ->; contradiction). lia.
  Qed.

  Lemma make_ok ids vals : NoDup ids -> length ids = length vals -> (forall i, In i ids -> int32 i) ->
    exists st, make_sparse dflt argsrt ids vals = Some st /\ StronglySorted Z.lt (s_ids st) /\
      length (s_ids st) = length (s_vals st) /\ Permutation (combine ids vals) (combine (s_ids st) (s_vals st)).
  Proof.
    intros ND L R. unfold make_sparse.
    replace (forallb (fun i => i <? two31) ids) with true.
    2:{ symmetry. apply forallb_forall. intros i Hi. apply Z.ltb_lt. apply (R i Hi). }
    rewrite L, Nat.leb_refl. cbn [andb]. eexists. split; [reflexivity|]. cbn [s_ids s_vals].
    destruct (Hs ids) as [HP HS].
    assert (E : map (fun i => wrap32 (nth i ids 0)) (argsrt ids) = map (fun i => nth i ids 0) (argsrt ids)).
    { apply map_ext_in. intros i Hi. apply wrap32_id, R, nth_In.
      apply (Permutation_in _ (Permutation_sym HP)), in_seq in Hi. lia. }
    rewrite E. split; [|split].
    - apply le_NoDup_lt; [exact HS|]. eapply Permutation_NoDup; [apply Permutation_map; exact HP|].
      rewrite map_nth_seq. exact ND.
    - rewrite !map_length. reflexivity.
    - rewrite combine_map_both. rewrite (combine_as_map ids vals 0 dflt L). apply Permutation_map, HP.
  Qed.

  Lemma mask_combine {B} (l : list Z) (v : list B) (p : Z -> bool) : length l = length v ->
    length (mask_select l (map p l)) = length (mask_select v (map p l)) /\
    combine (mask_select l (map p l)) (mask_select v (map p l)) = filter (fun q => p (fst q)) (combine l v).
  Proof.
    revert v. induction l as [|x t IH]; intros [|y v] L; try discriminate; [split; reflexivity|]. cbn in *.
    destruct (IH v ltac:(lia)) as [A1 A2]. destruct (p x); cbn; [split; [lia|f_equal; exact A2]|split; assumption].
  Qed.

  (** The finite map a store represents. *)
  Definition represents (st : sparse) (M : Z -> option A) : Prop :=
    StronglySorted Z.lt (s_ids st) /\ length (s_ids st) = length (s_vals st) /\ (forall i, In i (s_ids st) -> int32 i) /\
    (forall q v, In (q, v) (combine (s_ids st) (s_vals st)) <-> M q = Some v).

  Lemma represents_ids st M q : represents st M -> (In q (s_ids st) <-> M q <> None).
  Proof.
    intros (_ & L & _ & H). split.
    - intros Hq. rewrite <- (combine_map_fst (s_ids st) (s_vals st) L) in Hq. apply in_map_iff in Hq.
      destruct Hq as ([q' v] & E & Hin). cbn in E. subst. apply H in Hin. congruence.
    - intros Hq. destruct (M q) as [v|] eqn:E; [|congruence]. apply H in E. apply in_combine_l in E. exact E.
  Qed.
  Lemma represents_gather st M q d : represents st M -> int32 q ->
    sparse_gather dflt st q d = match M q with Some v => v | None => d end.
  Proof.
    intros HR Hq. assert (HI := represents_ids st M q HR). destruct HR as (HS & L & R & H).
    unfold sparse_gather. rewrite (wrap32_id q Hq).
    destruct (in_dec Z.eq_dec q (s_ids st)) as [Hin|Hni].
    - destruct (searchsortedZ_hit _ q HS Hin) as [B E]. destruct (s_ids st) as [|a t] eqn:Ei; [destruct Hin|]. rewrite <- Ei in *.
      replace (Nat.min (searchsortedZ (s_ids st) q) (length (s_ids st) - 1)) with (searchsortedZ (s_ids st) q) by lia.
      destruct (Nat.ltb_spec (searchsortedZ (s_ids st) q) (length (s_ids st))); [|lia]. rewrite E, Z.eqb_refl. cbn [andb].
      assert (C : In (q, nth (searchsortedZ (s_ids st) q) (s_vals st) dflt) (combine (s_ids st) (s_vals st))).
      { rewrite <- (E 0) at 1. rewrite <- combine_nth by exact L. apply nth_In. rewrite combine_length. lia. }
      apply H in C. rewrite C. reflexivity.
    - assert (E : M q = None) by (destruct (M q); [exfalso; apply Hni, HI; discriminate|reflexivity]). rewrite E.
      destruct (s_ids st) as [|a t] eqn:Ei; [reflexivity|]. rewrite <- Ei in *.
      destruct (Nat.ltb_spec (searchsortedZ (s_ids st) q) (length (s_ids st))); [|reflexivity]. cbn [andb].
      replace (Nat.min (searchsortedZ (s_ids st) q) (length (s_ids st) - 1)) with (searchsortedZ (s_ids st) q) by lia.
      destruct (Z.eqb_spec (nth (searchsortedZ (s_ids st) q) (s_ids st) 0) q) as [E2|]; [|reflexivity].
      exfalso. apply Hni. rewrite <- E2. apply nth_In. assumption.
  Qed.

  Definition overwrite (M : Z -> option A) (ids : list Z) (vals : list A) (q : Z) : option A :=
    match find (fun p => fst p =? q) (combine ids vals) with Some p => Some (snd p) | None => M q end.
  Lemma find_combine ids (vals : list A) q v : NoDup ids -> length ids = length vals ->
    (find (fun p => fst p =? q) (combine ids vals) = Some (q, v) <-> In (q, v) (combine ids vals)).
  Proof.
    revert vals. induction ids as [|x t IH]; intros [|y vals] ND L; try discriminate; [cbn; split; [discriminate|tauto]|].
    inversion ND as [|? ? Hn ND']; subst. cbn. destruct (Z.eqb_spec x q) as [->|Hne].
    - split; [intros E; left; congruence|]. intros [E|E]; [rewrite E; reflexivity|]. apply in_combine_l in E. contradiction.
    - rewrite (IH vals ND' ltac:(cbn in L; lia)). split; [auto|]. intros [E|E]; [congruence|exact E].
  Qed.
  Lemma find_combine_none ids (vals : list A) q : length ids = length vals ->
    (find (fun p => fst p =? q) (combine ids vals) = None <-> ~ In q ids).
  Proof.
    revert vals. induction ids as [|x t IH]; intros [|y vals] L; try discriminate; [cbn; split; auto|]. cbn in *.
    destruct (Z.eqb_spec x q) as [->|Hne]; [split; [discriminate|tauto]|]. rewrite (IH vals ltac:(lia)). tauto.
  Qed.
  Lemma find_fst ids (vals : list A) q p : find (fun p => fst p =? q) (combine ids vals) = Some p -> p = (q, snd p).
  Proof. intros H. apply find_some in H. destruct H as [_ H]. apply Z.eqb_eq in H. destruct p. cbn in *. congruence. Qed.

  Lemma update_ok st M ids vals : represents st M -> NoDup ids -> length ids = length vals -> (forall i, In i ids -> int32 i) ->
    exists st', sparse_update dflt argsrt st ids vals = Some st' /\ represents st' (overwrite M ids vals).
  Proof.
    intros HR ND L R. assert (HI := fun q => represents_ids st M q HR). destruct HR as (HS & L0 & R0 & H0).
    set (keep := fun i => negb (memZ i ids)).
    set (ids' := mask_select (s_ids st) (map keep (s_ids st)) ++ ids).
    set (vals' := mask_select (s_vals st) (map keep (s_ids st)) ++ vals).
    destruct (mask_combine (s_ids st) (s_vals st) keep L0) as [ML MC].
    assert (MS : mask_select (s_ids st) (map keep (s_ids st)) = filter keep (s_ids st)).
    { clear. induction (s_ids st) as [|x t IH]; [reflexivity|]. cbn. destruct (keep x); rewrite IH; reflexivity. }
    assert (EU : sparse_update dflt argsrt st ids vals = make_sparse dflt argsrt ids' vals').
    { unfold sparse_update, ids', vals'. destruct (s_ids st) eqn:E; [|reflexivity].
      destruct (s_vals st); [reflexivity|discriminate]. }
    assert (ND' : NoDup ids').
    { unfold ids'. rewrite MS. assert (N1 : NoDup (filter keep (s_ids st))) by (apply NoDup_filter, StronglySortedZ_NoDup, HS).
      clear - N1 ND. induction (s_ids st) as [|x t IH]; cbn in *; [exact ND|]. destruct (keep x) eqn:K; [|auto].
      inversion N1 as [|? ? Hn N1']; subst. cbn. constructor; [|auto]. intros X. apply in_app_or in X. destruct X as [X|X]; [contradiction|].
      unfold keep in K. apply memZ_iff in X. rewrite X in K. discriminate. }
    assert (L' : length ids' = length vals') by (unfold ids', vals'; rewrite !app_length, ML, L; reflexivity).
    assert (R' : forall i, In i ids' -> int32 i).
    { intros i Hi. apply in_app_or in Hi. destruct Hi as [Hi|Hi]; [|auto]. rewrite MS in Hi. apply filter_In in Hi. apply R0, Hi. }
    destruct (make_ok ids' vals' ND' L' R') as (st' & E & S1 & S2 & PM).
    exists st'. split; [rewrite EU; exact E|]. split; [exact S1|]. split; [exact S2|]. split.
    - intros i Hi. apply R'. rewrite <- (combine_map_fst (s_ids st') (s_vals st') S2) in Hi.
      apply (Permutation_in _ (Permutation_sym (Permutation_map fst PM))) in Hi. rewrite combine_map_fst in Hi by exact L'. exact Hi.
    - intros q v. assert (C : combine ids' vals' = filter (fun p => keep (fst p)) (combine (s_ids st) (s_vals st)) ++ combine ids vals).
      { unfold ids', vals'. rewrite <- MC. clear - ML. revert ML.
        generalize (mask_select (s_ids st) (map keep (s_ids st))) as a. generalize (mask_select (s_vals st) (map keep (s_ids st))) as c.
        intros c a. revert c. induction a as [|x a IH]; intros [|y c] ML; try discriminate; [reflexivity|]. cbn in *. f_equal. apply IH. lia. }
      assert (X : In (q, v) (combine (s_ids st') (s_vals st')) <-> In (q, v) (combine ids' vals')).
      { split; apply Permutation_in; [apply Permutation_sym; exact PM|exact PM]. }
      rewrite X, C, in_app_iff, filter_In, H0. unfold overwrite.
      destruct (find (fun p => fst p =? q) (combine ids vals)) as [p|] eqn:F.
      + assert (Ep := find_fst _ _ _ _ F). rewrite Ep in F.
        assert (Hin : In (q, snd p) (combine ids vals)) by (apply find_combine; assumption).
        assert (Hid := in_combine_l _ _ _ _ Hin). unfold keep. cbn [fst]. rewrite (proj2 (memZ_iff q ids) Hid). cbn [negb].
        split; [intros [[_ Y]|Y]; [discriminate|]|].
        * apply (find_combine ids vals q v ND L) in Y. congruence.
        * intros Y. injection Y as <-. right. exact Hin.
      + assert (Hni := proj1 (find_combine_none ids vals q L) F). unfold keep. cbn [fst].
        assert (K : memZ q ids = false) by (destruct (memZ q ids) eqn:K; [apply memZ_iff in K; contradiction|reflexivity]).
        rewrite K. cbn [negb]. split; [intros [[Y _]|Y]; [exact Y|apply in_combine_l in Y; contradiction]|auto].
  Qed.
End Sparse.
