(** Assembly computes the element-by-element sums of Assembly_Spec. *)
From Verif Require Import Base Csr_Model Csr_Proofs Ops_Proofs Assembly_Model Assembly_Spec Assembly_Proofs.
From Coq Require Import ZifyBool ZifyNat.
Set Implicit Arguments.

Definition pair_dec (x y : nat * nat) : {x = y} + {x <> y}.
Proof. decide equality; apply Nat.eq_dec. Defined.

Section Main.
  Variable K : CRing.
  Local Open Scope ring_K.
  Add Ring KringM : (cth K).
  Variables (Inp FInp : Type).
  Variable pb : problem K Inp FInp.
  Variable bs0 : nat.
  Hypothesis Hbs : 0 < bs0.
  Hypothesis W : wf_problem pb.
  Local Notation nd := (pr_nd pb).
  Local Notation n := (pr_n pb).
  Local Notation cells := (pr_cells pb).
  Local Notation pat := (pr_pat pb).

  (** *** DOF ranges *)
  Lemma face_dofs_in b d : In b (pr_bnd pb) -> In d (face_dofs pb b) -> In d cells.
  Proof.
    intros Hb Hd. unfold face_dofs in Hd. apply in_map_iff in Hd. destruct Hd as [c [<- Hc]].
    apply nth_In. apply (w_bcells W b); auto.
  Qed.

  Lemma all_face_in d : In d (all_face_dofs pb) -> In d cells.
  Proof.
    unfold all_face_dofs. rewrite in_flat_map. intros [b [Hb Hd]]. eapply face_dofs_in; eauto.
  Qed.

  Lemma elem_pairs_in d i j : In (i, j) (elem_pairs d) <-> In i d /\ In j d.
  Proof.
    unfold elem_pairs. rewrite in_flat_map. split.
    - intros [x [Hx Hin]]. apply in_map_iff in Hin. destruct Hin as [y [E Hy]].
      injection E as <- <-. auto.
    - intros [Hi Hj]. exists i. split; [exact Hi|]. apply in_map_iff. exists j. auto.
  Qed.

  Lemma all_pairs_range p : In p (all_pairs pb) -> fst p < n /\ snd p < n.
  Proof.
    destruct p as [i j]. unfold all_pairs, coo_pairs. rewrite in_app_iff, !in_flat_map. cbn.
    intros [[d [Hd Hp]]|[d [Hd Hp]]]; apply elem_pairs_in in Hp; destruct Hp as [Hi Hj].
    - split; eapply (w_dofs W); eauto.
    - apply all_face_in in Hd. split; eapply (w_dofs W); eauto.
  Qed.

  Lemma elem_pairs_length d : length (elem_pairs d) = (length d * length d)%nat.
  Proof.
    unfold elem_pairs. generalize d at 2 3. intros l. induction l as [|x t IH]; cbn; [reflexivity|].
    rewrite app_length, map_length, IH. reflexivity.
  Qed.

  (** *** Splitting the pattern maps *)
  Definition fslot (p : nat * nat) : nat := full_slot_of
      (mask_select (gather 0%nat (map (key_of n) (filter (in_view (pr_view pb)) (all_pairs pb)))
                      (argsort (map (key_of n) (filter (in_view (pr_view pb)) (all_pairs pb)))))
                   (is_new (gather 0%nat (map (key_of n) (filter (in_view (pr_view pb)) (all_pairs pb)))
                      (argsort (map (key_of n) (filter (in_view (pr_view pb)) (all_pairs pb)))))))
      (key_of n p).
  Local Notation fs := fslot.

  Lemma full_slot_eq : p_full_slot pat = map fs (all_pairs pb).
  Proof. reflexivity. Qed.

  Lemma flat_pairs_length (ds : list (list nat)) :
    (forall d, In d ds -> length d = nd) ->
    length (flat_map elem_pairs ds) = (length ds * (nd * nd))%nat.
  Proof.
    intros H. rewrite flat_map_concat_map. rewrite (@concat_const_length _ (nd * nd)%nat).
    - rewrite map_length. reflexivity.
    - intros r Hr. apply in_map_iff in Hr. destruct Hr as [d [<- Hd]].
      rewrite elem_pairs_length, H by exact Hd. reflexivity.
  Qed.

  Lemma firstn_app_exact A (a b : list A) k : length a = k -> firstn k (a ++ b) = a.
  Proof. intros <-. rewrite firstn_app, Nat.sub_diag, firstn_all. cbn. apply app_nil_r. Qed.
  Lemma skipn_app_exact A (a b : list A) k : length a = k -> skipn k (a ++ b) = b.
  Proof. intros <-. rewrite skipn_app, Nat.sub_diag, skipn_all. reflexivity. Qed.

  Lemma vol_slots_eq : vol_slots pb = map (fun d => map fs (elem_pairs d)) cells.
  Proof.
    unfold vol_slots, vol_len. rewrite full_slot_eq. unfold all_pairs at 1, coo_pairs.
    rewrite map_app, firstn_app_exact
      by (rewrite map_length, flat_pairs_length by apply (w_cells W); lia).
    rewrite flat_map_concat_map, concat_map, map_map.
    rewrite <- (map_length (fun d => map fs (elem_pairs d)) cells) at 1.
    apply reshape_concat. intros r Hr. apply in_map_iff in Hr. destruct Hr as [d [<- Hd]].
    rewrite map_length, elem_pairs_length, (w_cells W _ Hd). reflexivity.
  Qed.

  Lemma face_slots_eq :
    face_slots pb = map fs (flat_map elem_pairs (all_face_dofs pb)).
  Proof.
    unfold face_slots, vol_len. rewrite full_slot_eq. unfold all_pairs at 1, coo_pairs.
    rewrite map_app. apply skipn_app_exact.
    rewrite map_length, flat_pairs_length by apply (w_cells W). lia.
  Qed.

  Lemma concat_cells_length : length (concat cells) = (length cells * nd)%nat.
  Proof. apply concat_const_length. apply (w_cells W). Qed.

  Lemma res_vol_dofs_eq : res_vol_dofs pb = cells.
  Proof.
    unfold res_vol_dofs, res_vol_len, res_dofs, res_scatter_dofs.
    rewrite firstn_app_exact by apply concat_cells_length.
    apply reshape_concat. apply (w_cells W).
  Qed.

  Lemma res_face_dofs_eq : res_face_dofs pb = concat (all_face_dofs pb).
  Proof.
    unfold res_face_dofs, res_vol_len, res_dofs, res_scatter_dofs.
    apply skipn_app_exact, concat_cells_length.
  Qed.

  (** *** Inputs *)
  Lemma cell_inputs_length sol : length (cell_inputs pb sol) = length cells.
  Proof.
    unfold cell_inputs. rewrite combine_length, map_length, (w_inp W). lia.
  Qed.

  Lemma cell_inputs_in sol x : In x (cell_inputs pb sol) -> length (fst x) = nd.
  Proof.
    destruct x as [u i]. unfold cell_inputs. intros H. apply in_combine_l in H.
    apply in_map_iff in H. destruct H as [d [<- Hd]]. cbn. rewrite map_length. apply (w_cells W _ Hd).
  Qed.

  Lemma pad_input_len : length (fst (pad_input pb)) = nd.
  Proof. cbn. apply repeat_length. Qed.

  Lemma vkern_len x : length (fst x) = nd ->
    length (fst (vkern pb x)) = nd /\ length (snd (vkern pb x)) = (nd * nd)%nat.
  Proof. intros H. apply (w_kern W). exact H. Qed.

  Lemma compute_face_eq sol :
    compute_face pb bs0 sol =
    map (fun b => map (fun x => b_kern b (fst x) (snd x))
                    (combine (map (local_sol sol) (face_dofs pb b)) (b_inp b)))
        (pr_bnd pb).
  Proof.
    unfold compute_face. apply map_ext. intros b. rewrite scan_vmap_batched_map by exact Hbs.
    reflexivity.
  Qed.

  Lemma combine_cells_inputs A (g : list nat -> A) sol :
    combine (map g cells) (cell_inputs pb sol) =
    map (fun p => (g (fst p), (local_sol sol (fst p), snd p))) (combine cells (pr_inp pb)).
  Proof.
    unfold cell_inputs. revert g. generalize cells as l. generalize (pr_inp pb) as l'.
    intros l' l g. revert l'. induction l as [|d t IH]; intros [|x l']; cbn; [reflexivity..|].
    f_equal. apply IH.
  Qed.

  (** *** Element blocks *)
  Lemma hits_elem_res i d (r : list K) : length d = nd -> length r = nd -> hits i d r = elem_res nd d r i.
  Proof.
    intros Hd Hr. unfold hits, elem_res.
    rewrite (sumf_combine K (fun x y => if x =? i then y else 0) d r 0%nat 0) by congruence.
    rewrite Hd. reflexivity.
  Qed.

  Definition phits (q : nat * nat) (ps : list (nat * nat)) (vals : list K) : K :=
    sumf (fun p => if pair_eqb (fst p) q then snd p else 0) (combine ps vals).

  Lemma nth_elem_pairs_gen (l d : list nat) a b :
    a < length l -> b < length d ->
    nth (a * length d + b) (flat_map (fun i => map (fun j => (i, j)) d) l) (0%nat, 0%nat) =
    (nth a l 0%nat, nth b d 0%nat).
  Proof.
    revert a; induction l as [|x t IH]; intros a Ha Hb; cbn in Ha; [lia|].
    cbn [flat_map]. destruct a as [|a].
    - rewrite app_nth1 by (rewrite map_length; cbn; lia). cbn [Nat.mul Nat.add nth].
      rewrite nth_map_in with (d := 0%nat) by exact Hb. reflexivity.
    - rewrite app_nth2 by (rewrite map_length; lia). rewrite map_length.
      replace (S a * length d + b - length d)%nat with (a * length d + b)%nat by lia.
      rewrite IH by lia. reflexivity.
  Qed.

  Lemma seq_grid a b :
    seq 0 (a * b) = flat_map (fun i => map (fun j => (i * b + j)%nat) (seq 0 b)) (seq 0 a).
  Proof.
    induction a as [|a IH]; [reflexivity|].
    replace (S a * b)%nat with (a * b + b)%nat by lia.
    rewrite seq_app, IH, seq_S, flat_map_app. f_equal. cbn [flat_map app Nat.add]. rewrite app_nil_r.
    clear. generalize (a * b)%nat as o. intros o.
    replace (seq o b) with (seq (o + 0) b) by (f_equal; lia).
    generalize 0%nat as s. induction b as [|b IHb]; intros s; cbn; [reflexivity|].
    f_equal. rewrite <- IHb. f_equal. lia.
  Qed.

  Lemma phits_elem_jac i j d (m : list K) :
    length d = nd -> length m = (nd * nd)%nat ->
    phits (i, j) (elem_pairs d) m = elem_jac nd d m i j.
  Proof.
    intros Hd Hm. unfold phits, elem_jac.
    rewrite (sumf_combine K (fun x y => if pair_eqb x (i, j) then y else 0)
               (elem_pairs d) m (0%nat,0%nat) 0) by (rewrite elem_pairs_length; congruence).
    rewrite elem_pairs_length, Hd, seq_grid, sumf_flat_map. apply sumf_ext. intros a Ha.
    apply in_seq in Ha. rewrite sumf_map. apply sumf_ext. intros b Hb. apply in_seq in Hb.
    unfold elem_pairs. rewrite <- Hd at 1. rewrite nth_elem_pairs_gen by lia. reflexivity.
  Qed.

  (** *** Slots vs pairs *)
  Lemma pat_slots_len : length (slots pat) = p_nse pat.
  Proof. apply slots_length. Qed.

  Lemma fs_iff p s : In p (all_pairs pb) -> s < p_nse pat ->
    (fs p =? s) = (pair_eqb p (nth s (slots pat) (0%nat,0%nat))).
  Proof.
    intros Hp Hs. apply eq_true_iff_eq. rewrite Nat.eqb_eq, pair_eqb_eq. unfold fslot.
    destruct (in_view (pr_view pb) p) eqn:Ev.
    - assert (Hf : In p (filter (in_view (pr_view pb)) (all_pairs pb))) by (apply filter_In; auto).
      destruct (full_slot_hit _ _ all_pairs_range p Hf) as [H1 H2].
      split.
      + intros <-. symmetry. exact H2.
      + intros E. apply (proj1 (NoDup_nth (slots pat) (0%nat,0%nat)) (slots_NoDup _ _ all_pairs_range)).
        * rewrite pat_slots_len. exact H1.
        * rewrite pat_slots_len. exact Hs.
        * etransitivity; [exact H2 | exact E].
    - rewrite (full_slot_miss _ _ all_pairs_range p Hp Ev). split.
      + intros E. change (p_nse pat) with (length (mask_select (gather 0%nat (map (key_of n) (filter (in_view (pr_view pb)) (all_pairs pb)))
                      (argsort (map (key_of n) (filter (in_view (pr_view pb)) (all_pairs pb)))))
                   (is_new (gather 0%nat (map (key_of n) (filter (in_view (pr_view pb)) (all_pairs pb)))
                      (argsort (map (key_of n) (filter (in_view (pr_view pb)) (all_pairs pb)))))))) in Hs. lia.
      + intros E. exfalso.
        assert (Hin : In p (slots pat)).
        { rewrite E. apply nth_In. rewrite pat_slots_len. exact Hs. }
        apply (slots_in _ _ all_pairs_range) in Hin. apply filter_In in Hin. destruct Hin. congruence.
  Qed.

  Lemma hits_fs ps vals s :
    (forall p, In p ps -> In p (all_pairs pb)) -> s < p_nse pat ->
    hits s (map fs ps) vals = phits (nth s (slots pat) (0%nat,0%nat)) ps vals.
  Proof.
    intros Hps Hs. unfold hits, phits. rewrite combine_map_l, sumf_map.
    apply sumf_ext. intros [p x] Hin. cbn [fst snd]. apply in_combine_l in Hin.
    rewrite fs_iff by auto. reflexivity.
  Qed.

  Lemma cells_pairs_in d p : In d cells -> In p (elem_pairs d) -> In p (all_pairs pb).
  Proof.
    intros Hd Hp. unfold all_pairs, coo_pairs. apply in_app_iff. left. apply in_flat_map. eauto.
  Qed.

  Lemma face_pairs_in p : In p (flat_map elem_pairs (all_face_dofs pb)) -> In p (all_pairs pb).
  Proof. intros Hp. unfold all_pairs, coo_pairs. apply in_app_iff. right. exact Hp. Qed.

  (** *** Volume Jacobian *)
  Lemma volume_data_eq sol :
    assemble_volume_csr_data pb bs0 sol =
    batch_acc K (fun x => snd (vkern pb x)) (pad_input pb) (p_nse pat + 1) (p_nse pat) (nd * nd) bs0
              (vol_slots pb) (cell_inputs pb sol).
  Proof.
    unfold assemble_volume_csr_data, batch_acc.
    replace (length (vol_slots pb)) with (length cells)
      by (rewrite vol_slots_eq, map_length; reflexivity).
    reflexivity.
  Qed.

  Lemma volume_data_length sol : length (assemble_volume_csr_data pb bs0 sol) = (p_nse pat + 1)%nat.
  Proof. rewrite volume_data_eq. apply batch_acc_length. Qed.

  Lemma volume_data sol s : s < p_nse pat ->
    get (assemble_volume_csr_data pb bs0 sol) s =
    spec_vol_jac pb sol (fst (nth s (slots pat) (0%nat,0%nat))) (snd (nth s (slots pat) (0%nat,0%nat))).
  Proof.
    intros Hs. rewrite volume_data_eq, get_batch_acc.
    - unfold acc_spec, spec_vol_jac. rewrite vol_slots_eq, combine_cells_inputs, sumf_map.
      apply sumf_ext. intros [d x] Hin. cbn [fst snd].
      assert (Hd : In d cells) by (apply in_combine_l in Hin; exact Hin).
      rewrite hits_fs; [|intros p Hp; eapply cells_pairs_in; eauto | exact Hs].
      assert (Hlen : length (local_sol sol d) = nd)
        by (unfold local_sol; rewrite map_length; apply (w_cells W _ Hd)).
      rewrite <- phits_elem_jac.
      + destruct (nth s (slots pat) (0%nat, 0%nat)); reflexivity.
      + apply (w_cells W _ Hd).
      + apply (w_kern W). exact Hlen.
    - exact Hbs.
    - rewrite vol_slots_eq. intros r Hr. apply in_map_iff in Hr. destruct Hr as [d [<- Hd]].
      rewrite map_length, elem_pairs_length, (w_cells W _ Hd). reflexivity.
    - rewrite cell_inputs_length, vol_slots_eq, map_length. reflexivity.
    - intros x Hx. apply vkern_len. apply (cell_inputs_in _ _ Hx).
    - apply vkern_len, pad_input_len.
    - lia.
    - lia.
  Qed.

  (** *** Surface terms *)
  Lemma faces_flat (g : list K * list K -> list K) sol :
    concat (map (fun b => concat (map g b)) (compute_face pb bs0 sol)) =
    concat (map g (flat_map (fun b => map (fun x => b_kern b (fst x) (snd x))
                    (combine (map (local_sol sol) (face_dofs pb b)) (b_inp b))) (pr_bnd pb))).
  Proof.
    rewrite compute_face_eq. rewrite map_map.
    rewrite flat_map_concat_map, concat_map, concat_concat, !map_map. reflexivity.
  Qed.

  (** Sum over all faces, pairing each face's DOFs with its kernel output. *)
  Lemma faces_sum (g : list K * list K -> list K) (h : list nat -> list nat) w sol s :
    (forall d, length d = nd -> length (h d) = w) ->
    (forall b u x, In b (pr_bnd pb) -> length u = nd -> length (g (b_kern b u x)) = w) ->
    hits s (concat (map h (all_face_dofs pb)))
         (concat (map (fun b => concat (map g b)) (compute_face pb bs0 sol))) =
    sumf (fun b => sumf (fun q =>
            let d := nth (fst q) cells [] in
            hits s (h d) (g (b_kern b (local_sol sol d) (snd q))))
          (combine (b_cells b) (b_inp b))) (pr_bnd pb).
  Proof.
    intros Hh Hg. rewrite faces_flat. unfold all_face_dofs.
    assert (Hb : forall b, In b (pr_bnd pb) -> In b (pr_bnd pb)) by auto.
    revert Hb. generalize (pr_bnd pb) at 1 3 4 5 as bs.
    induction bs as [|b t IH]; intros Hb; [reflexivity|].
    cbn [flat_map sumf].
    assert (Hin : In b (pr_bnd pb)) by (apply Hb; left; reflexivity).
    rewrite !map_app, !concat_app.
    rewrite hits_app.
    2:{ rewrite (@concat_const_length _ w), (@concat_const_length _ w).
        - rewrite !map_length, combine_length, map_length. unfold face_dofs.
          rewrite map_length, (w_binp W _ Hin), Nat.min_id. reflexivity.
        - intros r Hr. apply in_map_iff in Hr. destruct Hr as [y [<- Hy]].
          apply in_map_iff in Hy. destruct Hy as [[u x] [<- Hx]]. apply Hg; [exact Hin|].
          apply in_combine_l in Hx. apply in_map_iff in Hx. destruct Hx as [d [<- Hd]].
          cbn [fst]. unfold local_sol. rewrite map_length. apply (w_cells W). eapply face_dofs_in; eauto.
        - intros r Hr. apply in_map_iff in Hr. destruct Hr as [d [<- Hd]]. apply Hh.
          apply (w_cells W). eapply face_dofs_in; eauto. }
    rewrite IH by (intros b' Hb'; apply Hb; right; exact Hb').
    f_equal.
    rewrite hits_concat.
    - unfold face_dofs. rewrite !map_map.
      rewrite combine_map_r, sumf_map.
      assert (L : length (b_inp b) = length (b_cells b)) by (apply (w_binp W); exact Hin).
      clear -L. revert L. generalize (b_cells b) as cs, (b_inp b) as xs.
      induction cs as [|c cs IHc]; intros [|x xs] L; cbn in *; try discriminate; [reflexivity|].
      rewrite IHc by lia. reflexivity.
    - rewrite !map_length, combine_length. unfold face_dofs. rewrite !map_length.
      rewrite (w_binp W _ Hin), Nat.min_id. reflexivity.
    - intros [r y] Hry. cbn [fst snd].
      pose proof (in_combine_l _ _ _ _ Hry) as H1. pose proof (in_combine_r _ _ _ _ Hry) as H2.
      apply in_map_iff in H1. destruct H1 as [d [<- Hd]].
      apply in_map_iff in H2. destruct H2 as [z [<- Hz]].
      apply in_map_iff in Hz. destruct Hz as [[u x] [<- Hx]].
      rewrite Hh by (apply (w_cells W); eapply face_dofs_in; eauto).
      symmetry. apply Hg; [exact Hin|].
      apply in_combine_l in Hx. apply in_map_iff in Hx. destruct Hx as [d' [<- Hd']].
      cbn. unfold local_sol. rewrite map_length. apply (w_cells W). eapply face_dofs_in; eauto.
  Qed.

  Lemma faces_vals_length (g : list K * list K -> list K) w sol :
    (forall b u x, In b (pr_bnd pb) -> length u = nd -> length (g (b_kern b u x)) = w) ->
    length (concat (map (fun b => concat (map g b)) (compute_face pb bs0 sol))) =
    (length (all_face_dofs pb) * w)%nat.
  Proof.
    intros Hg. rewrite faces_flat. unfold all_face_dofs.
    assert (Hb : forall b, In b (pr_bnd pb) -> In b (pr_bnd pb)) by auto.
    revert Hb. generalize (pr_bnd pb) at 1 3 4 as bs.
    induction bs as [|b t IH]; intros Hb; [reflexivity|].
    cbn [flat_map]. assert (Hin : In b (pr_bnd pb)) by (apply Hb; left; reflexivity).
    rewrite map_app, concat_app, !app_length.
    rewrite IH by (intros b' Hb'; apply Hb; right; exact Hb').
    rewrite (@concat_const_length _ w).
    - rewrite !map_length, combine_length. unfold face_dofs. rewrite !map_length.
      rewrite (w_binp W _ Hin), Nat.min_id. lia.
    - intros r Hr. apply in_map_iff in Hr. destruct Hr as [y [<- Hy]].
      apply in_map_iff in Hy. destruct Hy as [[u x] [<- Hx]]. apply Hg; [exact Hin|].
      apply in_combine_l in Hx. apply in_map_iff in Hx. destruct Hx as [d [<- Hd]].
      cbn. unfold local_sol. rewrite map_length. apply (w_cells W). eapply face_dofs_in; eauto.
  Qed.

  Lemma bkern_jac_len b u x : In b (pr_bnd pb) -> length u = nd -> length (snd (b_kern b u x)) = (nd * nd)%nat.
  Proof. intros Hb Hu. apply (w_bkern W b u x Hb Hu). Qed.
  Lemma bkern_res_len b u x : In b (pr_bnd pb) -> length u = nd -> length (fst (b_kern b u x)) = nd.
  Proof. intros Hb Hu. apply (w_bkern W b u x Hb Hu). Qed.

  Lemma face_slots_concat : face_slots pb = concat (map (fun d => map fs (elem_pairs d)) (all_face_dofs pb)).
  Proof. rewrite face_slots_eq, flat_map_concat_map, concat_map, map_map. reflexivity. Qed.

  Lemma face_slots_length : length (face_slots pb) = (length (all_face_dofs pb) * (nd * nd))%nat.
  Proof.
    rewrite face_slots_eq, map_length, flat_pairs_length; [reflexivity|].
    intros d Hd. apply (w_cells W), all_face_in, Hd.
  Qed.

  Lemma face_jac_sum sol s : s < p_nse pat ->
    hits s (face_slots pb) (concat (map (fun b => concat (map snd b)) (compute_face pb bs0 sol))) =
    spec_face_jac pb sol (fst (nth s (slots pat) (0%nat,0%nat))) (snd (nth s (slots pat) (0%nat,0%nat))).
  Proof.
    intros Hs. rewrite face_slots_concat.
    rewrite (@faces_sum snd (fun d => map fs (elem_pairs d)) (nd * nd)%nat).
    - unfold spec_face_jac. apply sumf_ext. intros b Hb. apply sumf_ext. intros [c x] Hin. cbn [fst snd].
      assert (Hc : In (nth c cells []) cells)
        by (apply nth_In, (w_bcells W b); auto; apply in_combine_l in Hin; exact Hin).
      assert (Hl : length (local_sol sol (nth c cells [])) = nd)
        by (unfold local_sol; rewrite map_length; apply (w_cells W _ Hc)).
      rewrite hits_fs; [|intros p Hp; eapply cells_pairs_in; eauto | exact Hs].
      rewrite <- phits_elem_jac.
      + destruct (nth s (slots pat) (0%nat, 0%nat)); reflexivity.
      + apply (w_cells W _ Hc).
      + apply bkern_jac_len; auto.
    - intros d Hd. rewrite map_length, elem_pairs_length, Hd. reflexivity.
    - apply bkern_jac_len.
  Qed.

  Lemma add_face_jac_spec skip sol data s :
    length data = (p_nse pat + 1)%nat -> s < p_nse pat ->
    get (add_face_jac pb bs0 skip sol data) s =
    get data s + (if skip then 0 else
      spec_face_jac pb sol (fst (nth s (slots pat) (0%nat,0%nat))) (snd (nth s (slots pat) (0%nat,0%nat)))).
  Proof.
    intros Hd Hs. unfold add_face_jac.
    destruct skip; [ring|].
    pose proof (face_jac_sum sol Hs) as F.
    destruct (compute_face pb bs0 sol) as [|x t] eqn:E.
    - rewrite <- F. unfold hits.
      replace (combine (face_slots pb) (concat (map (fun b : list (list K * list K) => concat (map snd b)) [])))
        with (@nil (nat * K)) by (cbn; destruct (face_slots pb); reflexivity).
      cbn [sumf]. ring.
    - rewrite <- E in F |- *. rewrite get_vadd by (rewrite sorted_seg_sum_length; exact Hd).
      rewrite get_sorted_seg_sum.
      + rewrite F. reflexivity.
      + lia.
      + rewrite (@faces_vals_length snd (nd * nd)%nat) by apply bkern_jac_len.
        rewrite face_slots_length. reflexivity.
  Qed.

  Lemma add_face_jac_length skip sol data :
    length data = (p_nse pat + 1)%nat -> length (add_face_jac pb bs0 skip sol data) = (p_nse pat + 1)%nat.
  Proof.
    intros Hd. unfold add_face_jac. destruct skip; [exact Hd|].
    destruct (compute_face pb bs0 sol); [exact Hd|].
    rewrite vadd_length; [exact Hd | rewrite sorted_seg_sum_length; exact Hd].
  Qed.

  Lemma get_firstn (l : list K) k i : i < k -> get (firstn k l) i = get l i.
  Proof.
    unfold get. revert k i; induction l as [|x t IH]; intros [|k] [|i] H; cbn; try lia; auto.
    apply IH. lia.
  Qed.

  Lemma get_J_csr_length sol : length (get_J_csr pb bs0 sol) = p_nse pat.
  Proof.
    unfold get_J_csr. rewrite firstn_length, add_face_jac_length by apply volume_data_length. lia.
  Qed.

  Definition eff_jac (sol : list K) (i j : nat) : K :=
    if pr_surface_jac_zero pb then spec_vol_jac pb sol i j else spec_jac pb sol i j.

  Lemma get_J_csr_slot sol s : s < p_nse pat ->
    get (get_J_csr pb bs0 sol) s =
    eff_jac sol (fst (nth s (slots pat) (0%nat,0%nat))) (snd (nth s (slots pat) (0%nat,0%nat))).
  Proof.
    intros Hs. unfold get_J_csr. rewrite get_firstn by exact Hs.
    rewrite add_face_jac_spec by (try apply volume_data_length; exact Hs).
    rewrite volume_data by exact Hs. unfold eff_jac, spec_jac.
    destruct (pr_surface_jac_zero pb); ring.
  Qed.

  (** Entries outside the pattern get no contribution. *)
  Lemma elem_jac_zero d (m : list K) i j :
    length d = nd -> ~ (In i d /\ In j d) -> elem_jac nd d m i j = 0.
  Proof.
    intros Hd Hn. unfold elem_jac. apply sumf_zero. intros a Ha. apply sumf_zero. intros b Hb.
    apply in_seq in Ha. apply in_seq in Hb.
    destruct (Nat.eqb_spec (nth a d 0%nat) i) as [<-|]; [|reflexivity].
    destruct (Nat.eqb_spec (nth b d 0%nat) j) as [<-|]; [|reflexivity].
    exfalso. apply Hn. split; apply nth_In; lia.
  Qed.

  Lemma spec_vol_jac_zero sol i j :
    ~ In (i, j) (all_pairs pb) -> spec_vol_jac pb sol i j = 0.
  Proof.
    intros Hn. unfold spec_vol_jac. apply sumf_zero. intros [d x] Hin. cbn [fst snd].
    apply in_combine_l in Hin. apply elem_jac_zero; [apply (w_cells W _ Hin)|].
    intros H. apply Hn. apply (cells_pairs_in _ _ Hin). apply elem_pairs_in. exact H.
  Qed.

  Lemma spec_face_jac_zero sol i j :
    ~ In (i, j) (all_pairs pb) -> spec_face_jac pb sol i j = 0.
  Proof.
    intros Hn. unfold spec_face_jac. apply sumf_zero. intros b Hb. apply sumf_zero.
    intros [c x] Hin. cbn [fst snd]. apply in_combine_l in Hin.
    assert (Hc : In (nth c cells []) cells) by (apply nth_In, (w_bcells W b); auto).
    apply elem_jac_zero; [apply (w_cells W _ Hc)|].
    intros H. apply Hn. apply (cells_pairs_in _ _ Hc). apply elem_pairs_in. exact H.
  Qed.

  Lemma eff_jac_zero sol i j : ~ In (i, j) (all_pairs pb) -> eff_jac sol i j = 0.
  Proof.
    intros H. unfold eff_jac, spec_jac. rewrite spec_vol_jac_zero, spec_face_jac_zero by exact H.
    destruct (pr_surface_jac_zero pb); ring.
  Qed.

  (** Main Jacobian statement. *)
  Lemma get_jacobian_dense sol i j :
    todense (get_jacobian pb bs0 sol) i j =
    if in_view (pr_view pb) (i, j) then eff_jac sol i j else 0.
  Proof.
    unfold get_jacobian.
    destruct (in_dec pair_dec (i, j) (slots pat)) as [Hin|Hnin].
    - pose proof Hin as Hin2. apply (slots_in _ _ all_pairs_range) in Hin2.
      apply filter_In in Hin2. destruct Hin2 as [_ ->].
      apply (In_nth _ _ (0%nat,0%nat)) in Hin. destruct Hin as [s [Hs Es]].
      rewrite pat_slots_len in Hs.
      pose proof (@built_todense_hit K n (pr_view pb) (all_pairs pb) all_pairs_range
                    (get_J_csr pb bs0 sol) s (get_J_csr_length sol) Hs) as E.
      change (build_csr n (pr_view pb) (all_pairs pb)) with pat in E, Es, Hs.
      rewrite Es in E. cbn [fst snd] in E. rewrite E.
      rewrite get_J_csr_slot by exact Hs. rewrite Es. reflexivity.
    - rewrite (@built_todense_miss K n (pr_view pb) (all_pairs pb) all_pairs_range)
        by (try apply get_J_csr_length; exact Hnin).
      destruct (in_view (pr_view pb) (i, j)) eqn:Ev; [|reflexivity].
      symmetry. apply eff_jac_zero. intros H. apply Hnin.
      apply (slots_in _ _ all_pairs_range). apply filter_In. auto.
  Qed.

  (** *** Residual *)
  Lemma res_dofs_length : length (res_dofs pb) = ((length cells + length (all_face_dofs pb)) * nd)%nat.
  Proof.
    unfold res_dofs, res_scatter_dofs. rewrite app_length, concat_cells_length.
    rewrite (@concat_const_length _ nd); [lia|].
    intros d Hd. apply (w_cells W), all_face_in, Hd.
  Qed.

  Lemma vol_res_sum sol i :
    hits i (concat cells) (concat (map fst (map (vkern pb) (cell_inputs pb sol)))) =
    sumf (fun p => elem_res nd (fst p) (fst (pr_kern pb (local_sol sol (fst p)) (snd p))) i)
         (combine cells (pr_inp pb)).
  Proof.
    rewrite map_map.
    rewrite (@hits_rows K _ (fun x => fst (vkern pb x)) nd).
    - rewrite <- (map_id cells) at 1. rewrite combine_cells_inputs, sumf_map.
      apply sumf_ext. intros [d x] Hin. cbn [fst snd]. apply in_combine_l in Hin.
      apply hits_elem_res; [apply (w_cells W _ Hin)|].
      apply (w_kern W). unfold local_sol. rewrite map_length. apply (w_cells W _ Hin).
    - symmetry. apply cell_inputs_length.
    - apply (w_cells W).
    - intros x Hx. apply vkern_len, (cell_inputs_in _ _ Hx).
  Qed.

  Lemma vol_res_vals_length sol :
    length (concat (map fst (map (vkern pb) (cell_inputs pb sol)))) = (length cells * nd)%nat.
  Proof.
    rewrite (@concat_const_length _ nd).
    - rewrite !map_length, cell_inputs_length. reflexivity.
    - intros r Hr. rewrite map_map in Hr. apply in_map_iff in Hr. destruct Hr as [x [<- Hx]].
      apply vkern_len, (cell_inputs_in _ _ Hx).
  Qed.

  Lemma face_res_sum sol i :
    hits i (concat (all_face_dofs pb))
         (concat (map (fun b => concat (map fst b)) (compute_face pb bs0 sol))) =
    sumf (fun b => sumf (fun q =>
              let d := nth (fst q) cells [] in
              elem_res nd d (fst (b_kern b (local_sol sol d) (snd q))) i)
            (combine (b_cells b) (b_inp b))) (pr_bnd pb).
  Proof.
    rewrite <- (map_id (all_face_dofs pb)).
    rewrite (@faces_sum fst (fun d => d) nd); [| auto | apply bkern_res_len].
    apply sumf_ext. intros b Hb. apply sumf_ext. intros [c x] Hin. cbn [fst snd].
    assert (Hc : In (nth c cells []) cells)
      by (apply nth_In, (w_bcells W b); auto; apply in_combine_l in Hin; exact Hin).
    apply hits_elem_res; [apply (w_cells W _ Hc)|].
    apply bkern_res_len; auto. unfold local_sol. rewrite map_length. apply (w_cells W _ Hc).
  Qed.

  Lemma get_res_length sol : length (get_res pb bs0 sol) = n.
  Proof. apply segment_sum_length. Qed.

  Lemma get_res_spec sol i : i < n -> get (get_res pb bs0 sol) i = spec_res pb sol i.
  Proof.
    intros Hi. unfold get_res. rewrite scan_vmap_batched_map by exact Hbs.
    rewrite get_sorted_seg_sum.
    - unfold res_dofs, res_scatter_dofs. rewrite hits_app.
      + rewrite vol_res_sum, face_res_sum. reflexivity.
      + rewrite concat_cells_length. symmetry. apply vol_res_vals_length.
    - exact Hi.
    - rewrite app_length, vol_res_vals_length, res_dofs_length.
      rewrite (@faces_vals_length fst nd) by apply bkern_res_len. lia.
  Qed.

  (** *** Fused path *)
  Lemma fold_pair A (f1 f2 : list K -> A -> list K) l c :
    fold_left (fun c b => (f1 (fst c) b, f2 (snd c) b)) l c =
    (fold_left f1 l (fst c), fold_left f2 l (snd c)).
  Proof. revert c; induction l as [|x t IH]; intros [a b]; cbn; [reflexivity | apply IH]. Qed.

  Lemma combine3_l A B C (f : list K -> A * B -> list K) (la : list A) (lb : list B) (lc : list C) c :
    length lb = length lc ->
    fold_left (fun c b => f c (fst b, fst (snd b))) (combine la (combine lb lc)) c =
    fold_left f (combine la lb) c.
  Proof.
    revert lb lc c; induction la as [|x t IH]; intros [|y lb] [|z lc] c H; cbn in *; try discriminate; auto.
  Qed.
  Lemma combine3_r A B C (f : list K -> A * C -> list K) (la : list A) (lb : list B) (lc : list C) c :
    length lb = length lc ->
    fold_left (fun c b => f c (fst b, snd (snd b))) (combine la (combine lb lc)) c =
    fold_left f (combine la lc) c.
  Proof.
    revert lb lc c; induction la as [|x t IH]; intros [|y lb] [|z lc] c H; cbn in *; try discriminate; auto.
  Qed.

  Lemma slot_sort_length m w fill : 
    length (slot_sort m w fill bs0) =
    let '(bs, cuts, np) := batching (length m) bs0 in if cuts <=? 1 then 1%nat else cuts.
  Proof.
    unfold slot_sort. destruct (batching (length m) bs0) as [[bs cuts] np].
    destruct (cuts <=? 1); [reflexivity|]. rewrite map_length, reshape_length. reflexivity.
  Qed.

  Lemma fused_volume_eq sol :
    assemble_volume_res_and_J pb bs0 sol =
    (batch_acc K (fun x => fst (vkern pb x)) (pad_input pb) (n + 1) n nd bs0
               (res_vol_dofs pb) (cell_inputs pb sol),
     assemble_volume_csr_data pb bs0 sol).
  Proof.
    assert (L1 : length (res_vol_dofs pb) = length cells) by (rewrite res_vol_dofs_eq; reflexivity).
    assert (L2 : length (vol_slots pb) = length cells) by (rewrite vol_slots_eq, map_length; reflexivity).
    assert (LL : length (slot_sort (vol_slots pb) (nd * nd) (p_nse pat) bs0) =
                 length (slot_sort (res_vol_dofs pb) nd n bs0))
      by (rewrite !slot_sort_length, L1, L2; reflexivity).
    unfold assemble_volume_res_and_J, assemble_volume_csr_data, batch_acc. rewrite L1.
    destruct (batching (length cells) bs0) as [[bs cuts] np].
    destruct (cuts <=? 1); [reflexivity|].
    rewrite (@fold_pair _
      (fun c b => vadd c (sorted_seg_sum (n + 1)%nat (concat (map fst (map (vkern pb) (fst b)))) (snd (snd b))))
      (fun c b => vadd c (sorted_seg_sum (p_nse pat + 1)%nat (concat (map snd (map (vkern pb) (fst b)))) (fst (snd b))))).
    cbn [fst snd]. f_equal.
    - etransitivity; [exact (@combine3_r _ _ _ (fun c b => vadd c (sorted_seg_sum (n + 1)%nat
               (concat (map fst (map (vkern pb) (fst b)))) (snd b))) _ _ _ _ LL)|].
      apply fold_left_ext_in. intros c b _. rewrite map_map. reflexivity.
    - etransitivity; [exact (@combine3_l _ _ _ (fun c b => vadd c (sorted_seg_sum (p_nse pat + 1)%nat
               (concat (map snd (map (vkern pb) (fst b)))) (snd b))) _ _ _ _ LL)|].
      apply fold_left_ext_in. intros c b _. rewrite map_map. reflexivity.
  Qed.

  Lemma fused_res_spec sol i : i < n ->
    get (fst (get_res_J_csr pb bs0 sol)) i = spec_res pb sol i.
  Proof.
    intros Hi. unfold get_res_J_csr. rewrite fused_volume_eq. cbn [fst snd].
    rewrite get_firstn by exact Hi.
    set (RC := batch_acc K _ _ _ _ _ _ _ _).
    assert (LR : length RC = (n + 1)%nat) by apply batch_acc_length.
    assert (HR : get RC i = sumf (fun p => elem_res nd (fst p)
                  (fst (pr_kern pb (local_sol sol (fst p)) (snd p))) i) (combine cells (pr_inp pb))).
    { unfold RC. rewrite res_vol_dofs_eq. rewrite get_batch_acc.
      - unfold acc_spec. rewrite <- (map_id cells) at 1.
        rewrite combine_cells_inputs, sumf_map.
        apply sumf_ext. intros [d x] Hin. cbn [fst snd]. apply in_combine_l in Hin.
        apply hits_elem_res; [apply (w_cells W _ Hin)|].
        apply (w_kern W). unfold local_sol. rewrite map_length. apply (w_cells W _ Hin).
      - exact Hbs.
      - apply (w_cells W).
      - apply cell_inputs_length.
      - intros x Hx. apply vkern_len, (cell_inputs_in _ _ Hx).
      - apply vkern_len, pad_input_len.
      - lia.
      - lia. }
    pose proof (face_res_sum sol i) as F.
    assert (G : spec_res pb sol i = get RC i + hits i (concat (all_face_dofs pb))
         (concat (map (fun b => concat (map fst b)) (compute_face pb bs0 sol)))).
    { rewrite HR, F. reflexivity. }
    rewrite G. clear F G HR.
    destruct (compute_face pb bs0 sol) as [|x t] eqn:E.
    - unfold hits.
      replace (combine (concat (all_face_dofs pb)) (concat (map (fun b : list (list K * list K) => concat (map fst b)) [])))
        with (@nil (nat * K)) by (cbn; destruct (concat (all_face_dofs pb)); reflexivity).
      cbn [sumf]. ring.
    - rewrite <- E. rewrite get_vadd by (rewrite sorted_seg_sum_length; exact LR).
      f_equal. rewrite get_sorted_seg_sum.
      + rewrite res_face_dofs_eq. reflexivity.
      + lia.
      + rewrite (@faces_vals_length fst nd) by apply bkern_res_len.
        rewrite res_face_dofs_eq, (@concat_const_length _ nd); [reflexivity|].
        intros d Hd. apply (w_cells W), all_face_in, Hd.
  Qed.

  Lemma fused_res_length sol : length (fst (get_res_J_csr pb bs0 sol)) = n.
  Proof.
    unfold get_res_J_csr. rewrite fused_volume_eq. cbn [fst snd].
    set (RC := batch_acc K _ _ _ _ _ _ _ _).
    assert (LR : length RC = (n + 1)%nat) by apply batch_acc_length.
    rewrite firstn_length. destruct (compute_face pb bs0 sol); [lia|].
    rewrite vadd_length by (rewrite sorted_seg_sum_length; exact LR). lia.
  Qed.

  Lemma list_get_ext (a b : list K) : length a = length b ->
    (forall i, i < length a -> get a i = get b i) -> a = b.
  Proof. intros L H. apply nth_ext with (d := 0) (d' := 0); auto. Qed.

  Lemma fused_res_eq sol : fst (get_res_J_csr pb bs0 sol) = get_res pb bs0 sol.
  Proof.
    apply list_get_ext; rewrite ?fused_res_length, ?get_res_length; [reflexivity|].
    intros i Hi. rewrite fused_res_spec, get_res_spec by exact Hi. reflexivity.
  Qed.

  Lemma fused_jac_length sol : length (snd (get_res_J_csr pb bs0 sol)) = p_nse pat.
  Proof.
    unfold get_res_J_csr. rewrite fused_volume_eq. cbn [fst snd].
    rewrite firstn_length, add_face_jac_length by apply volume_data_length. lia.
  Qed.

  Lemma fused_jac_slot sol s : s < p_nse pat ->
    get (snd (get_res_J_csr pb bs0 sol)) s =
    spec_jac pb sol (fst (nth s (slots pat) (0%nat,0%nat))) (snd (nth s (slots pat) (0%nat,0%nat))).
  Proof.
    intros Hs. unfold get_res_J_csr. rewrite fused_volume_eq. cbn [fst snd].
    rewrite get_firstn by exact Hs.
    rewrite add_face_jac_spec by (try apply volume_data_length; exact Hs).
    rewrite volume_data by exact Hs. reflexivity.
  Qed.

  Lemma fused_jac_eq sol :
    pr_surface_jac_zero pb = false \/ (forall i j, spec_face_jac pb sol i j = 0) ->
    snd (get_res_J_csr pb bs0 sol) = get_J_csr pb bs0 sol.
  Proof.
    intros H. apply list_get_ext; rewrite ?fused_jac_length, ?get_J_csr_length; [reflexivity|].
    intros s Hs. rewrite fused_jac_slot, get_J_csr_slot by exact Hs.
    unfold eff_jac. destruct H as [->|H]; [reflexivity|].
    unfold spec_jac. rewrite H. destruct (pr_surface_jac_zero pb); [ring | reflexivity].
  Qed.
End Main.
