(** Property C48: the life of the assembly scratch arrays. *)
From Verif Require Import Base Csr_Model Csr_Proofs Ops_Proofs Assembly_Model Assembly_Spec
     Assembly_Proofs AssemblyMain_Proofs Values_Proofs Csr_Props Lifecycle_Model.
From Coq Require Import List Arith Lia.
Import ListNotations.

(** ** What each call must return, from the history alone *)

(** Operations that release the maps of the no-TracedStructure path. *)
Definition releases {K} (o : op K) : bool :=
  match o with OFree true | OFrom true => true | _ => false end.

(** Operations that release the reference arrays. *)
Definition frees {K} (o : op K) : bool :=
  match o with OFree _ | OFrom true => true | _ => false end.

Definition is_handle {K} (r : out K) : bool := match r with Handle _ => true | _ => false end.
Definition handles {K} (outs : list (out K)) : nat := length (filter is_handle outs).

(** The call with the never-released arrays: the pure assembly functions. *)
Definition pure_result {K Inp FInp} (pb : problem K Inp FInp) (bs0 : nat) (o : op K) (r : out K) : Prop :=
  match o with
  | OFrom _ => exists k, r = Handle k
  | OFree _ => r = Nothing
  | OJac _ sol => r = Vec (get_J_csr pb bs0 sol)
  | OResJac _ sol => r = Pair (fst (get_res_J_csr pb bs0 sol)) (snd (get_res_J_csr pb bs0 sol))
  | ORes sol => r = Vec (get_res pb bs0 sol)
  | OValues sol => r = Vec (jacobian_values pb bs0 sol)
  | OData V => r = Vec (csr_data_from_values (pr_pat pb) (pr_view pb) (all_pairs pb) V)
  end.

Section Proofs.
  Variable K : CRing.
  Variables (Inp FInp : Type).
  Variable pb : problem K Inp FInp.
  Variable bs0 : nat.
  Hypothesis Hbs : 0 < bs0.
  Hypothesis W : wf_problem pb.

  Let vs := slot_sort (vol_slots pb) (pr_nd pb * pr_nd pb) (p_nse (pr_pat pb)) bs0.
  Let rs := slot_sort (res_vol_dofs pb) (pr_nd pb) (pr_n pb) bs0.

  Definition expected (rel fr : bool) (nh : nat) (o : op K) : out K :=
    match o with
    | OFrom _ => if rel then Error else Handle nh
    | OFree _ => Nothing
    | OJac None sol => if rel then Error else Vec (get_J_csr pb bs0 sol)
    | OJac (Some k) sol => if k <? nh then Vec (get_J_csr pb bs0 sol) else Error
    | OResJac None sol =>
        if rel then Error else Pair (fst (get_res_J_csr pb bs0 sol)) (snd (get_res_J_csr pb bs0 sol))
    | OResJac (Some k) sol =>
        if k <? nh then Pair (fst (get_res_J_csr pb bs0 sol)) (snd (get_res_J_csr pb bs0 sol)) else Error
    | ORes sol => Vec (get_res pb bs0 sol)
    | OValues sol => if fr then Error else Vec (jacobian_values pb bs0 sol)
    | OData V => if fr then Error
                 else vec_out K (data_from_values K Inp FInp pb (fresh K Inp FInp pb) V)
    end.

  Record inv (w : world) (rel fr : bool) (nh : nat) : Prop := {
    i_sub : rel = true -> fr = true;
    i_ts : forall t, In t (snd w) -> t = {| t_vol := vs; t_res := rs |};
    i_nh : length (snd w) = nh;
    i_live : rel = false ->
      h_vmap (fst w) = Some (vol_slots pb) /\ h_rmap (fst w) = Some (res_vol_dofs pb) /\
      (h_vcache (fst w) = None \/ h_vcache (fst w) = Some vs) /\
      (h_rcache (fst w) = None \/ h_rcache (fst w) = Some rs);
    i_dead : rel = true ->
      h_vmap (fst w) = None /\ h_rmap (fst w) = None /\
      h_vcache (fst w) = None /\ h_rcache (fst w) = None;
    i_ref : fr = false ->
      h_I (fst w) = Some (all_pairs pb) /\
      h_filter (fst w) = filter_indices (pr_view pb) (all_pairs pb) /\
      h_perm (fst w) = Some (p_perm (pr_pat pb)) /\ h_seg (fst w) = Some (p_seg_ids (pr_pat pb));
    i_noref : fr = true -> h_I (fst w) = None /\ h_perm (fst w) = None /\ h_seg (fst w) = None
  }.

  Lemma inv_fresh : inv (fresh K Inp FInp pb, []) false false 0.
  Proof using. constructor; cbn; intros; try discriminate; auto; try tauto; repeat split; auto. Qed.

  Lemma with_J sol : volume_csr_with K Inp FInp pb bs0 vs sol = assemble_volume_csr_data pb bs0 sol.
  Proof using. reflexivity. Qed.
  Lemma with_RJ sol : volume_res_J_with K Inp FInp pb bs0 vs rs sol = assemble_volume_res_and_J pb bs0 sol.
  Proof using. reflexivity. Qed.

  (** The two lazily filled caches keep the invariant. *)
  Lemma vsort_live h tss fr nh : inv (h, tss) false fr nh ->
    exists h', vol_slot_sort K Inp FInp pb bs0 h = (h', Some vs) /\ inv (h', tss) false fr nh.
  Proof using.
    intros I0. destruct (i_live _ _ _ _ I0 eq_refl) as (A & B & C & D). cbn in *.
    unfold vol_slot_sort. destruct (h_vcache h) as [c|] eqn:E.
    - exists h. destruct C as [C|C]; [discriminate|]. inversion C; subst. split; [reflexivity|exact I0].
    - rewrite A. eexists. split; [reflexivity|].
      destruct I0 as [i1 i2 i3 i4 i5 i6 i7]; cbn in *.
      constructor; cbn; try assumption; intros; try discriminate. repeat split; auto.
  Qed.
  Lemma rsort_live h tss fr nh : inv (h, tss) false fr nh ->
    exists h', res_vol_slot_sort K Inp FInp pb bs0 h = (h', Some rs) /\ inv (h', tss) false fr nh.
  Proof using.
    intros I0. destruct (i_live _ _ _ _ I0 eq_refl) as (A & B & C & D). cbn in *.
    unfold res_vol_slot_sort. destruct (h_rcache h) as [c|] eqn:E.
    - exists h. destruct D as [D|D]; [discriminate|]. inversion D; subst. split; [reflexivity|exact I0].
    - rewrite B. eexists. split; [reflexivity|].
      destruct I0 as [i1 i2 i3 i4 i5 i6 i7]; cbn in *.
      constructor; cbn; try assumption; intros; try discriminate. repeat split; auto.
  Qed.
  Lemma vsort_dead h tss fr nh : inv (h, tss) true fr nh ->
    vol_slot_sort K Inp FInp pb bs0 h = (h, None).
  Proof using.
    intros I0. destruct (i_dead _ _ _ _ I0 eq_refl) as (A & B & C & D). cbn in *.
    unfold vol_slot_sort. rewrite C, A. reflexivity.
  Qed.

  Lemma inv_free drop h tss rel fr nh : inv (h, tss) rel fr nh ->
    inv (free_scratch drop h, tss) (rel || drop) true nh.
  Proof using.
    intros [i1 i2 i3 i4 i5 i6 i7]; cbn in *. constructor; cbn; try assumption; try tauto; try discriminate.
    - destruct rel, drop; cbn; try discriminate. intros _. apply i4; reflexivity.
    - destruct drop; [tauto|]. rewrite Bool.orb_false_r. exact i5.
  Qed.

  (** *** Lengths of the raw value arrays *)
  Lemma values_length sol : length (jacobian_values pb bs0 sol) = length (all_pairs pb).
  Proof using Hbs W.
    unfold jacobian_values. rewrite app_length.
    rewrite scan_vmap_batched_map by exact Hbs.
    unfold all_pairs, coo_pairs. rewrite app_length. f_equal.
    - rewrite (@concat_const_length _ (pr_nd pb * pr_nd pb)).
      + rewrite !map_length, (cell_inputs_length Hbs W).
        rewrite (flat_pairs_length pb (pr_cells pb)); [reflexivity|]. apply (w_cells W).
      + intros r Hr. apply in_map_iff in Hr. destruct Hr as (x & <- & Hx).
        apply in_map_iff in Hx. destruct Hx as (y & <- & Hy). unfold vkern.
        apply (w_kern W). apply (cell_inputs_in W sol). exact Hy.
    - rewrite (@faces_vals_length K Inp FInp pb bs0 Hbs W (@snd _ _) (pr_nd pb * pr_nd pb)).
      + rewrite (flat_pairs_length pb); [reflexivity|].
        intros d Hd. apply (w_cells W). apply (all_face_in W). exact Hd.
      + intros. apply (bkern_jac_len W); assumption.
  Qed.

  Lemma gather_filter (v : view) (all : list (nat * nat)) (V : list K) :
    length V = length all ->
    gather c0 V (map fst (filter (fun q => in_view v (snd q)) (combine (seq 0 (length all)) all))) =
    map snd (filter (fun q => in_view v (fst q)) (combine all V)).
  Proof using.
    clear Hbs W vs rs. intros L. unfold gather. rewrite map_map.
    assert (H : forall s (pre : list K), length pre = s ->
      map (fun x => nth (fst x) (pre ++ V) c0)
          (filter (fun q => in_view v (snd q)) (combine (seq s (length all)) all)) =
      map snd (filter (fun q => in_view v (fst q)) (combine all V))).
    { revert V L. induction all as [|p all IH]; intros V L s pre Hs; [reflexivity|].
      destruct V as [|x V]; [discriminate|]. cbn in L.
      assert (E : pre ++ x :: V = (pre ++ [x]) ++ V) by (rewrite <- app_assoc; reflexivity).
      specialize (IH V ltac:(lia) (S s) (pre ++ [x])).
      rewrite app_length in IH. cbn in IH. specialize (IH ltac:(lia)). rewrite <- E in IH.
      cbn. destruct (in_view v p); cbn.
      - f_equal; [|exact IH]. rewrite app_nth2 by lia. rewrite Hs, Nat.sub_diag. reflexivity.
      - exact IH. }
    apply (H 0 []). reflexivity.
  Qed.

  Lemma data_fresh (V : list K) : length V = length (all_pairs pb) ->
    data_from_values K Inp FInp pb (fresh K Inp FInp pb) V =
    Some (csr_data_from_values (pr_pat pb) (pr_view pb) (all_pairs pb) V).
  Proof using.
    clear Hbs W vs rs. intros L. unfold data_from_values, csr_data_from_values. cbn. unfold filter_indices.
    destruct (pr_view pb) eqn:E.
    - assert (V = map snd (filter (fun q => in_view FULL (fst q)) (combine (all_pairs pb) V))) as <-;
        [|reflexivity].
      clear -L. revert L. generalize (all_pairs pb). intros all L. revert V L.
      induction all as [|p all IH]; intros [|x V] L; try discriminate; [reflexivity|].
      cbn in *. f_equal. apply IH. lia.
    - rewrite (gather_filter UPPER) by exact L. reflexivity.
    - rewrite (gather_filter LOWER) by exact L. reflexivity.
  Qed.

  (** *** One step *)
  Lemma step_ok w rel fr nh o : inv w rel fr nh ->
    let r := snd (step K Inp FInp pb bs0 w o) in
    r = expected rel fr nh o /\
    inv (fst (step K Inp FInp pb bs0 w o)) (rel || releases o) (fr || frees o)
        (nh + if is_handle r then 1 else 0).
  Proof using Hbs W.
    intros I0. destruct w as [h tss]. pose proof (i_ts _ _ _ _ I0) as IT. pose proof (i_nh _ _ _ _ I0) as IN.
    cbn [fst snd] in IT, IN.
    destruct o as [free|drop|ts sol|ts sol|sol|sol|V]; cbn [step expected releases frees].
    - (* from_problem *)
      unfold from_problem. destruct rel.
      + rewrite (vsort_dead _ _ _ _ I0). cbn [fst snd is_handle]. rewrite Nat.add_0_r.
        split; [reflexivity|]. pose proof (i_sub _ _ _ _ I0 eq_refl) as ->. cbn. exact I0.
      + destruct (vsort_live _ _ _ _ I0) as (h1 & E1 & I1). rewrite E1.
        destruct (rsort_live _ _ _ _ I1) as (h2 & E2 & I2). rewrite E2.
        cbn [fst snd is_handle]. rewrite IN. split; [reflexivity|].
        assert (I3 : inv (h2, tss ++ [{| t_vol := vs; t_res := rs |}]) false fr (nh + 1)).
        { destruct I2 as [i1 i2 i3 i4 i5 i6 i7]; cbn in *. constructor; cbn; auto.
          - intros t Ht. apply in_app_or in Ht. destruct Ht as [Ht|[<-|[]]]; auto.
          - rewrite app_length. cbn. lia. }
        destruct free; cbn [orb].
        * apply (inv_free true) in I3. rewrite Bool.orb_true_r. exact I3.
        * rewrite Bool.orb_false_r. exact I3.
    - (* free *)
      cbn [fst snd is_handle]. split; [reflexivity|]. rewrite Nat.add_0_r.
      apply (inv_free drop) in I0. destruct drop; rewrite ?Bool.orb_true_r in *; exact I0.
    - (* Jacobian *)
      rewrite !Bool.orb_false_r. destruct ts as [k|].
      + destruct (nth_error tss k) as [t|] eqn:E.
        * assert (k <? nh = true) as -> by (apply Nat.ltb_lt; rewrite <- IN; apply nth_error_Some; congruence).
          assert (t = {| t_vol := vs; t_res := rs |}) as -> by (apply IT; eapply nth_error_In; eassumption).
          cbn. rewrite Nat.add_0_r. split; [reflexivity|exact I0].
        * assert (k <? nh = false) as -> by (apply Nat.ltb_ge; rewrite <- IN; apply nth_error_None, E).
          cbn. rewrite Nat.add_0_r. split; [reflexivity|exact I0].
      + unfold get_J_csr_ts. destruct rel.
        * rewrite (vsort_dead _ _ _ _ I0). cbn. rewrite Nat.add_0_r. split; [reflexivity|exact I0].
        * destruct (vsort_live _ _ _ _ I0) as (h1 & E1 & I1). rewrite E1. cbn [fst snd option_map vec_out is_handle].
          rewrite Nat.add_0_r. split; [rewrite with_J; reflexivity|exact I1].
    - (* fused *)
      rewrite !Bool.orb_false_r. destruct ts as [k|].
      + destruct (nth_error tss k) as [t|] eqn:E.
        * assert (k <? nh = true) as -> by (apply Nat.ltb_lt; rewrite <- IN; apply nth_error_Some; congruence).
          assert (t = {| t_vol := vs; t_res := rs |}) as -> by (apply IT; eapply nth_error_In; eassumption).
          cbn [get_res_J_csr_ts option_map fst snd is_handle]. rewrite Nat.add_0_r.
          split; [reflexivity|exact I0].
        * assert (k <? nh = false) as -> by (apply Nat.ltb_ge; rewrite <- IN; apply nth_error_None, E).
          cbn. rewrite Nat.add_0_r. split; [reflexivity|exact I0].
      + unfold get_res_J_csr_ts. destruct rel.
        * rewrite (vsort_dead _ _ _ _ I0). cbn. rewrite Nat.add_0_r. split; [reflexivity|exact I0].
        * destruct (vsort_live _ _ _ _ I0) as (h1 & E1 & I1). rewrite E1.
          destruct (rsort_live _ _ _ _ I1) as (h2 & E2 & I2). rewrite E2.
          cbn [fst snd option_map is_handle]. rewrite Nat.add_0_r. split; [reflexivity|exact I2].
    - rewrite !Bool.orb_false_r. cbn. rewrite Nat.add_0_r. split; [reflexivity|exact I0].
    - rewrite !Bool.orb_false_r. cbn [fst snd]. unfold assemble_values. destruct fr.
      + destruct (i_noref _ _ _ _ I0 eq_refl) as (A & _). cbn in A. rewrite A. cbn.
        rewrite Nat.add_0_r. split; [reflexivity|exact I0].
      + destruct (i_ref _ _ _ _ I0 eq_refl) as (A & _). cbn in A. rewrite A.
        rewrite values_length, Nat.eqb_refl. cbn. rewrite Nat.add_0_r. split; [reflexivity|exact I0].
    - rewrite !Bool.orb_false_r. cbn [fst snd]. destruct fr.
      + destruct (i_noref _ _ _ _ I0 eq_refl) as (_ & A & _). cbn in A.
        unfold data_from_values. rewrite A. cbn. rewrite Nat.add_0_r. split; [reflexivity|exact I0].
      + destruct (i_ref _ _ _ _ I0 eq_refl) as (_ & A & B & C). cbn in A, B, C.
        assert (data_from_values K Inp FInp pb h V =
                data_from_values K Inp FInp pb (fresh K Inp FInp pb) V) as ->.
        { unfold data_from_values. rewrite A, B, C. reflexivity. }
        destruct (data_from_values K Inp FInp pb (fresh K Inp FInp pb) V); cbn;
          rewrite Nat.add_0_r; (split; [reflexivity|exact I0]).
  Qed.

  Lemma run_ok ops : forall w rel fr nh, inv w rel fr nh ->
    forall k o, nth_error ops k = Some o ->
    nth_error (run K Inp FInp pb bs0 w ops) k =
    Some (expected (rel || existsb releases (firstn k ops)) (fr || existsb frees (firstn k ops))
            (nh + handles (firstn k (run K Inp FInp pb bs0 w ops))) o).
  Proof using Hbs W.
    induction ops as [|o0 t IH]; intros w rel fr nh I0 k o Hk; [destruct k; discriminate|].
    pose proof (step_ok w rel fr nh o0 I0) as (E & I1). cbn [run].
    destruct (step K Inp FInp pb bs0 w o0) as [w' r] eqn:ES. cbn [fst snd] in *.
    destruct k as [|k]; cbn [nth_error firstn] in *.
    - inversion Hk; subst o0. cbn. rewrite !Bool.orb_false_r. unfold handles. cbn. rewrite Nat.add_0_r.
      congruence.
    - rewrite (IH _ _ _ _ I1 k o Hk). cbn [existsb]. rewrite !Bool.orb_assoc. f_equal. f_equal.
      unfold handles. cbn [filter]. destruct (is_handle r); cbn; lia.
  Qed.

  Lemma session_ok ops k o : nth_error ops k = Some o ->
    nth_error (session K Inp FInp pb bs0 ops) k =
    Some (expected (existsb releases (firstn k ops)) (existsb frees (firstn k ops))
            (handles (firstn k (session K Inp FInp pb bs0 ops))) o).
  Proof using Hbs W.
    intros H. unfold session at 1. rewrite (run_ok ops _ _ _ _ (inv_fresh ) k o H). reflexivity.
  Qed.

  Lemma handle_count ops j m :
    nth_error (session K Inp FInp pb bs0 ops) j = Some (Handle m) ->
    m = handles (firstn j (session K Inp FInp pb bs0 ops)).
  Proof using Hbs W.
    intros H.
    destruct (nth_error ops j) as [o|] eqn:E.
    - rewrite (session_ok ops j o E) in H. inversion H as [H1]. clear -H1.
      destruct o as [free|drop|[k|] sol|[k|] sol|sol|sol|V]; cbn in H1;
        repeat match type of H1 with context [if ?b then _ else _] => destruct b end;
        try discriminate; try congruence.
    - exfalso. apply nth_error_None in E.
      assert (L : forall ops w, length (run K Inp FInp pb bs0 w ops) = length ops).
      { clear. induction ops as [|o t IH]; intros w; [reflexivity|]. cbn.
        destruct (step K Inp FInp pb bs0 w o). cbn. rewrite IH. reflexivity. }
      assert (nth_error (session K Inp FInp pb bs0 ops) j <> None) as N by congruence.
      apply nth_error_Some in N. unfold session in N. rewrite L in N. lia.
  Qed.
End Proofs.

Lemma handles_mono K (l : list (out K)) j k m : j < k -> nth_error l j = Some (Handle m) ->
  handles (firstn j l) < handles (firstn k l).
Proof.
  revert l k. induction j as [|j IH]; intros [|x l] [|k] Hk Hn; try lia; try discriminate.
  - cbn in Hn. inversion Hn; subst. unfold handles. cbn. lia.
  - unfold handles in *. cbn. specialize (IH l k ltac:(lia) Hn). destruct (is_handle x); cbn; lia.
Qed.

(** ** C48 *)

(** No history makes an assembly return anything but an error or exactly what it
    returns on a Problem whose arrays were never released. *)
Theorem C48_never_wrong :
  forall (K : CRing) (Inp FInp : Type) (pb : problem K Inp FInp) (bs0 : nat),
  0 < bs0 -> wf_problem pb ->
  forall (ops : list (op K)) k o, nth_error ops k = Some o ->
  (forall V, o = OData V -> length V = length (all_pairs pb)) ->
  exists r, nth_error (session K Inp FInp pb bs0 ops) k = Some r /\
    (r = Error \/ pure_result pb bs0 o r).
Proof.
  intros K Inp FInp pb bs0 Hbs W ops k o Ho HV.
  rewrite (session_ok K Inp FInp pb bs0 Hbs W ops k o Ho). eexists. split; [reflexivity|].
  destruct o as [free|drop|[m|] sol|[m|] sol|sol|sol|V]; cbn [expected pure_result];
    repeat match goal with |- context [if ?b then _ else _] => destruct b end; eauto.
  right. rewrite data_fresh by (apply HV; reflexivity). reflexivity.
Qed.
Print Assumptions C48_never_wrong.

(** With a TracedStructure that was built earlier, assembly always succeeds, no
    matter what has been released since. *)
Theorem C48_with_structure :
  forall (K : CRing) (Inp FInp : Type) (pb : problem K Inp FInp) (bs0 : nat),
  0 < bs0 -> wf_problem pb ->
  forall (ops : list (op K)) j m k o sol, j < k ->
  nth_error (session K Inp FInp pb bs0 ops) j = Some (Handle m) ->
  nth_error ops k = Some o -> (o = OJac (Some m) sol \/ o = OResJac (Some m) sol) ->
  exists r, nth_error (session K Inp FInp pb bs0 ops) k = Some r /\ pure_result pb bs0 o r.
Proof.
  intros K Inp FInp pb bs0 Hbs W ops j m k o sol Hjk Hj Ho Hor.
  rewrite (session_ok K Inp FInp pb bs0 Hbs W ops k o Ho). eexists. split; [reflexivity|].
  pose proof (handle_count K Inp FInp pb bs0 Hbs W ops j m Hj) as E.
  pose proof (handles_mono K _ j k m Hjk Hj) as M. rewrite <- E in M. apply Nat.ltb_lt in M.
  destruct Hor as [-> | ->]; cbn; rewrite M; reflexivity.
Qed.
Print Assumptions C48_with_structure.

(** Without one, assembly and building a TracedStructure raise exactly when an
    earlier call released the maps, and otherwise succeed. *)
Theorem C48_without_structure :
  forall (K : CRing) (Inp FInp : Type) (pb : problem K Inp FInp) (bs0 : nat),
  0 < bs0 -> wf_problem pb ->
  forall (ops : list (op K)) k o, nth_error ops k = Some o ->
  (exists sol, o = OJac None sol \/ o = OResJac None sol) \/ (exists free, o = OFrom free) ->
  exists r, nth_error (session K Inp FInp pb bs0 ops) k = Some r /\
    ((exists j o', j < k /\ nth_error ops j = Some o' /\ (o' = OFrom true \/ o' = OFree true)) /\
       r = Error \/
     (forall j o', j < k -> nth_error ops j = Some o' -> o' <> OFrom true /\ o' <> OFree true) /\
       pure_result pb bs0 o r).
Proof.
  intros K Inp FInp pb bs0 Hbs W ops k o Ho Hor.
  rewrite (session_ok K Inp FInp pb bs0 Hbs W ops k o Ho). eexists. split; [reflexivity|].
  assert (FN : forall j, j < k -> nth_error (firstn k ops) j = nth_error ops j).
  { clear. revert ops. induction k as [|k IH]; intros ops j Hj; [lia|].
    destruct ops; [reflexivity|]. destruct j; [reflexivity|]. cbn. apply IH. lia. }
  destruct (existsb releases (firstn k ops)) eqn:E.
  - left. split.
    + apply existsb_exists in E. destruct E as (o' & Hin & R). apply In_nth_error in Hin.
      destruct Hin as (j & Hj). exists j, o'.
      assert (j < k).
      { assert (j < length (firstn k ops)) as L by (apply nth_error_Some; congruence).
        rewrite firstn_length in L. lia. }
      rewrite FN in Hj by assumption. repeat split; auto.
      destruct o' as [[|]|[|]| | | | |]; try discriminate; auto.
    + destruct Hor as [(sol & [-> | ->])|(free & ->)]; reflexivity.
  - right. split.
    + intros j o' Hj Hn. rewrite <- FN in Hn by assumption. apply nth_error_In in Hn.
      assert (releases o' = false) as R.
      { destruct (releases o') eqn:R; [|reflexivity].
        assert (existsb releases (firstn k ops) = true) by (apply existsb_exists; eauto). congruence. }
      split; intros ->; discriminate.
    + destruct Hor as [(sol & [-> | ->])|(free & ->)]; cbn; eauto.
Qed.
Print Assumptions C48_without_structure.

(** The reference helpers raise after any release at all, also for the filtered
    (UPPER/LOWER) views whose index array then looks like the FULL view's. *)
Theorem C48_reference :
  forall (K : CRing) (Inp FInp : Type) (pb : problem K Inp FInp) (bs0 : nat),
  0 < bs0 -> wf_problem pb ->
  forall (ops : list (op K)) j o' k o, j < k -> nth_error ops j = Some o' ->
  (o' = OFrom true \/ exists d, o' = OFree d) ->
  nth_error ops k = Some o -> (exists x, o = OValues x \/ o = OData x) ->
  nth_error (session K Inp FInp pb bs0 ops) k = Some Error.
Proof.
  intros K Inp FInp pb bs0 Hbs W ops j o' k o Hjk Hj Ho' Ho (x & Hx).
  rewrite (session_ok K Inp FInp pb bs0 Hbs W ops k o Ho).
  assert (existsb frees (firstn k ops) = true) as E.
  { apply existsb_exists. exists o'. split; [|destruct Ho' as [->|([|] & ->)]; reflexivity].
    apply nth_error_In with (n := j). clear -Hjk Hj. revert ops j Hjk Hj.
    induction k as [|k IH]; intros ops j Hjk Hj; [lia|].
    destruct ops; [destruct j; discriminate|]. destruct j; cbn in *; [exact Hj|]. apply IH; [lia|exact Hj]. }
  destruct Hx as [-> | ->]; cbn; rewrite E; reflexivity.
Qed.
Print Assumptions C48_reference.

(** The error text of a released Problem advises to "rebuild TracedStructure with
    from_problem(problem, free_scratch=False)": that call raises too, in every
    history in which the maps have been released. *)
Theorem C48_rebuild_advice_refuted :
  forall (K : CRing) (Inp FInp : Type) (pb : problem K Inp FInp) (bs0 : nat),
  0 < bs0 -> wf_problem pb ->
  forall (before after : list (op K)),
  nth_error (session K Inp FInp pb bs0 (before ++ [OFrom true] ++ after ++ [OFrom false]))
            (length before + 1 + length after) = Some Error.
Proof.
  intros K Inp FInp pb bs0 Hbs W before after.
  set (ops := before ++ [OFrom true] ++ after ++ [OFrom false]).
  assert (N : nth_error ops (length before + 1 + length after) = Some (OFrom false)).
  { unfold ops. rewrite nth_error_app2 by lia. cbn [app].
    replace (length before + 1 + length after - length before) with (S (length after)) by lia.
    cbn. rewrite nth_error_app2 by lia. rewrite Nat.sub_diag. reflexivity. }
  rewrite (session_ok K Inp FInp pb bs0 Hbs W ops _ _ N). cbn.
  assert (existsb releases (firstn (length before + 1 + length after) ops) = true) as ->; [|reflexivity].
  apply existsb_exists. exists (OFrom true). split; [|reflexivity].
  unfold ops. rewrite firstn_app. apply in_or_app. right.
  replace (length before + 1 + length after - length before) with (S (length after)) by lia.
  cbn. left. reflexivity.
Qed.
Print Assumptions C48_rebuild_advice_refuted.

(** A session on the UPPER example problem: build a structure keeping the scratch,
    assemble both ways, release everything, assemble with the structure. *)
Example C48_example :
  session ZK Z Z (ex_pb UPPER false) 1
    [OJac None [1;2;3;4;5]%Z; OFrom false; OFree true; OJac (Some 0) [1;2;3;4;5]%Z;
     OJac None [1;2;3;4;5]%Z; OFrom true; OValues [1;2;3;4;5]%Z] =
  [Vec (get_J_csr (ex_pb UPPER false) 256 [1;2;3;4;5]%Z); Handle 0; Nothing;
   Vec (get_J_csr (ex_pb UPPER false) 256 [1;2;3;4;5]%Z); Error; Error; Error].
Proof. vm_compute. reflexivity. Qed.
Print Assumptions C48_example.
