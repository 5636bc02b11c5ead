(** Lemmas about Dirichlet boundary conditions. *)
From Verif Require Import Base Csr_Model Csr_Proofs Ops_Proofs Assembly_Model Assembly_Spec
     Assembly_Proofs AssemblyMain_Proofs Values_Proofs Dof_Model Dof_Spec Dof_Proofs Bc_Model.
From Coq Require Import ZifyBool ZifyNat.
Set Implicit Arguments.

(** A boundary condition as [create_bc] produces it: rows increasing and in
    range, one value per row, and the mask marks exactly the rows. *)
Record wf_bc (K : CRing) (bc : dirichlet K) (n : nat) : Prop := {
  wb_sorted : StronglySorted lt (bc_rows bc);
  wb_range : forall r, In r (bc_rows bc) -> r < n;
  wb_vals : length (bc_vals bc) = length (bc_rows bc);
  wb_mask_len : length (bc_mask bc) = n;
  wb_mask : forall i, nth i (bc_mask bc) false = true <-> In i (bc_rows bc)
}.

Section Apply.
  Variable K : CRing.
  Local Open Scope ring_K.
  Add Ring KringB : (cth K).

  Lemma get_scatter_const (base : list K) (targets : list nat) (c : K) s :
    s < length base ->
    get (scatter_set base (map (fun r => (r, c)) targets)) s =
    if existsb (Nat.eqb s) targets then c else get base s.
  Proof.
    intros Hs. unfold get. destruct (existsb (Nat.eqb s) targets) eqn:E.
    - apply existsb_exists in E. destruct E as [r [Hr E]]. apply Nat.eqb_eq in E. subst r.
      apply nth_scatter_set_const; assumption.
    - apply nth_scatter_set_notin. rewrite map_map. cbn. rewrite map_id. intros Hin.
      assert (existsb (Nat.eqb s) targets = true); [|congruence].
      apply existsb_exists. exists s. split; [exact Hin | apply Nat.eqb_refl].
  Qed.

  Definition bc_targets (bc : dirichlet K) (P : pattern) : list nat :=
    map (fun r => diag_index (p_nse P) (nth r (p_diag P) None)) (bc_rows bc).
  Definition bc_zero (bc : dirichlet K) (P : pattern) (sym : bool) (s : nat) : bool :=
    nth (nth s (p_rows P) 0%nat) (bc_mask bc) false
    || (sym && nth (nth s (p_indices P) 0%nat) (bc_mask bc) false).

  Lemma apply_J_length (bc : dirichlet K) P sym data : length (apply_J bc P sym data) = length data.
  Proof. unfold apply_J. rewrite scatter_set_length, map_length, seq_length. reflexivity. Qed.

  Lemma get_apply_J (bc : dirichlet K) P sym data s : s < length data ->
    get (apply_J bc P sym data) s =
    if existsb (Nat.eqb s) (bc_targets bc P) then 1
    else if bc_zero bc P sym s then 0 else get data s.
  Proof.
    intros Hs. unfold apply_J.
    assert (EM : map (fun r => (diag_index (p_nse P) (nth r (p_diag P) None), 1 : K)) (bc_rows bc)
            = map (fun t => (t, 1 : K)) (bc_targets bc P)) by (unfold bc_targets; rewrite map_map; reflexivity).
    rewrite EM, get_scatter_const by (rewrite map_length, seq_length; exact Hs).
    destruct (existsb _ _); [reflexivity|].
    rewrite get_map_seq by exact Hs. reflexivity.
  Qed.

  Lemma apply_J_idem (bc : dirichlet K) P sym data :
    apply_J bc P sym (apply_J bc P sym data) = apply_J bc P sym data.
  Proof.
    apply list_get_ext; [rewrite !apply_J_length; reflexivity|].
    intros s Hs. rewrite !apply_J_length in Hs.
    rewrite get_apply_J by (rewrite apply_J_length; exact Hs).
    rewrite get_apply_J by exact Hs.
    destruct (existsb _ _); [reflexivity|]. destruct (bc_zero bc P sym s); reflexivity.
  Qed.

  Section Pat.
    Variables (n : nat) (v : view) (all : list (nat * nat)) (bc : dirichlet K) (data : list K).
    Hypothesis Hr : forall p, In p all -> fst p < n /\ snd p < n.
    Local Notation P := (build_csr n v all).
    Hypothesis Hd : length data = p_nse P.
    Hypothesis Wb : wf_bc bc n.
    Hypothesis Hdiag : forall r, In r (bc_rows bc) -> In (r, r) (slots P).

    Lemma targets_iff s i j : s < p_nse P -> nth s (slots P) (0%nat,0%nat) = (i, j) ->
      existsb (Nat.eqb s) (bc_targets bc P) = (nth i (bc_mask bc) false && (i =? j)).
    Proof.
      intros Hs E. apply eq_true_iff_eq. rewrite existsb_exists, andb_true_iff, (wb_mask Wb), Nat.eqb_eq.
      assert (Hin : In (i, j) (slots P)) by (rewrite <- E; apply nth_In; rewrite slots_length; exact Hs).
      destruct (slots_range v all Hr _ Hin) as [Hi Hj]. cbn [fst snd] in Hi, Hj.
      split.
      - intros [t [Ht Et]]. apply Nat.eqb_eq in Et. subst t.
        unfold bc_targets in Ht. apply in_map_iff in Ht. destruct Ht as [r [Er Hrow]].
        pose proof (wb_range Wb _ Hrow) as Hrn.
        destruct (nth r (p_diag P) None) as [t|] eqn:Ed.
        + cbn [diag_index] in Er. subst t. apply (diag_some v all Hr s Hrn) in Ed. destruct Ed as [_ Ed].
          rewrite E in Ed. assert (i = r /\ j = r) as [-> ->] by (split; congruence). auto.
        + exfalso. apply (diag_none v all Hr Hrn) in Ed. apply Ed. apply Hdiag. exact Hrow.
      - intros [Hrow <-]. exists s. split; [|apply Nat.eqb_refl].
        unfold bc_targets. apply in_map_iff. exists i. split; [|exact Hrow].
        rewrite (proj2 (diag_some v all Hr s Hi) (conj Hs E)). reflexivity.
    Qed.

    Lemma zero_iff sym s i j : s < p_nse P -> nth s (slots P) (0%nat,0%nat) = (i, j) ->
      bc_zero bc P sym s = nth i (bc_mask bc) false || (sym && nth j (bc_mask bc) false).
    Proof.
      intros Hs E. unfold bc_zero. unfold slots in E.
      rewrite combine_nth in E by (rewrite rows_len, cols_len; reflexivity).
      pose proof (f_equal fst E) as E1. pose proof (f_equal snd E) as E2. unfold fst, snd in E1, E2.
      rewrite E1, E2. reflexivity.
    Qed.

    Lemma apply_J_dense sym i j :
      todense (csr_of P (apply_J bc P sym data)) i j =
      if nth i (bc_mask bc) false then (if i =? j then 1 else 0)
      else if sym && nth j (bc_mask bc) false then 0
      else todense (csr_of P data) i j.
    Proof.
      assert (Hd' : length (apply_J bc P sym data) = p_nse P) by (rewrite apply_J_length; exact Hd).
      destruct (in_dec pair_dec (i, j) (slots P)) as [Hin|Hnin].
      - apply (In_nth _ _ (0%nat,0%nat)) in Hin. destruct Hin as [s [Hs E]]. rewrite slots_length in Hs.
        pose proof (@built_todense_hit K n v all Hr (apply_J bc P sym data) s Hd' Hs) as A.
        pose proof (@built_todense_hit K n v all Hr data s Hd Hs) as B.
        rewrite E in A, B. cbn [fst snd] in A, B. rewrite A, B.
        rewrite get_apply_J by lia.
        rewrite (targets_iff Hs E), (zero_iff sym Hs E).
        destruct (nth i (bc_mask bc) false); cbn [andb orb]; [|reflexivity].
        destruct (i =? j); reflexivity.
      - rewrite (@built_todense_miss K n v all Hr (apply_J bc P sym data) i j Hd' Hnin).
        rewrite (@built_todense_miss K n v all Hr data i j Hd Hnin).
        destruct (nth i (bc_mask bc) false) eqn:M.
        + destruct (Nat.eqb_spec i j) as [<-|]; [|reflexivity].
          exfalso. apply Hnin, Hdiag, (wb_mask Wb). exact M.
        + destruct (_ && _); reflexivity.
    Qed.
  End Pat.

  (** Residual and initial guess. *)
  Lemma map_fst_pair A B C (f : A * B -> C) l : map fst (map (fun p : A * B => (fst p, f p)) l) = map fst l.
  Proof. rewrite map_map. reflexivity. Qed.

  Lemma sorted_NoDup_rows (bc : dirichlet K) n : wf_bc bc n -> NoDup (bc_rows bc).
  Proof. intros W. apply StronglySorted_lt_NoDup. apply (wb_sorted W). Qed.

  Lemma combine_NoDup_fst A B (a : list A) (b : list B) : length a = length b -> map fst (combine a b) = a.
  Proof. intros H. apply combine_map_fst. exact H. Qed.

  Lemma get_apply_res_row (bc : dirichlet K) n res sol scale k :
    wf_bc bc n -> length res = n -> k < length (bc_rows bc) ->
    let r := nth k (bc_rows bc) 0%nat in
    get (apply_res bc res sol scale) r = get sol r - get (bc_vals bc) k * scale.
  Proof.
    intros W Hl Hk r. unfold apply_res, get at 1.
    apply nth_scatter_set_in.
    - rewrite map_fst_pair, (combine_map_fst _ _ (eq_sym (wb_vals W))). eapply sorted_NoDup_rows; eauto.
    - rewrite Hl. apply (wb_range W). apply nth_In. exact Hk.
    - apply in_map_iff. exists (r, get (bc_vals bc) k). split; [reflexivity|].
      unfold r, get. rewrite <- combine_nth by (symmetry; apply (wb_vals W)).
      apply nth_In. rewrite combine_length, (wb_vals W). lia.
  Qed.

  Lemma get_apply_res_free (bc : dirichlet K) n res sol scale i :
    wf_bc bc n -> ~ In i (bc_rows bc) -> get (apply_res bc res sol scale) i = get res i.
  Proof.
    intros W H. unfold apply_res, get at 1. apply nth_scatter_set_notin.
    rewrite map_fst_pair, (combine_map_fst _ _ (eq_sym (wb_vals W))). exact H.
  Qed.

  Lemma apply_res_length (bc : dirichlet K) res sol scale : length (apply_res bc res sol scale) = length res.
  Proof. apply scatter_set_length. Qed.

  Lemma guess_row (bc : dirichlet K) n k :
    wf_bc bc n -> k < length (bc_rows bc) ->
    get (zero_like_initial_guess n bc) (nth k (bc_rows bc) 0%nat) = get (bc_vals bc) k.
  Proof.
    intros W Hk. unfold zero_like_initial_guess, get at 1.
    apply nth_scatter_set_in.
    - rewrite (combine_map_fst _ _ (eq_sym (wb_vals W))). eapply sorted_NoDup_rows; eauto.
    - unfold zeros. rewrite repeat_length. apply (wb_range W). apply nth_In. exact Hk.
    - unfold get. rewrite <- combine_nth by (symmetry; apply (wb_vals W)).
      apply nth_In. rewrite combine_length, (wb_vals W). lia.
  Qed.

  Lemma guess_free (bc : dirichlet K) n i :
    wf_bc bc n -> ~ In i (bc_rows bc) -> get (zero_like_initial_guess n bc) i = 0.
  Proof.
    intros W H. unfold zero_like_initial_guess, get at 1. rewrite nth_scatter_set_notin.
    - change (get (zeros n : list K) i = 0). apply get_zeros.
    - rewrite (combine_map_fst _ _ (eq_sym (wb_vals W))). exact H.
  Qed.

  (** ** Matrix-free product *)
  Section MatFree.
    Variables (Inp FInp : Type) (pb : problem K Inp FInp) (bs0 : nat).
    Hypothesis Hbs : 0 < bs0.
    Hypothesis W : wf_problem pb.
    Local Notation n := (pr_n pb).
    Local Notation nd := (pr_nd pb).

    Lemma block_mul_length m (du : list K) : length (block_mul K nd m du) = nd.
    Proof. unfold block_mul. rewrite map_length, seq_length. reflexivity. Qed.

    Lemma lin_wf sol : wf_problem (lin_problem pb sol).
    Proof.
      constructor; cbn [lin_problem pr_cells pr_nd pr_n pr_inp pr_kern pr_bnd].
      - apply (w_cells W).
      - apply (w_dofs W).
      - rewrite combine_length, map_length, (w_inp W). lia.
      - intros u [u0 x] Hu. cbn [fst snd]. rewrite block_mul_length. split; [reflexivity|].
        unfold zeros. apply repeat_length.
      - intros b c Hb Hc. apply in_map_iff in Hb. destruct Hb as [b' [<- Hb']]. cbn in Hc.
        apply (w_bcells W b'); assumption.
      - intros b Hb. apply in_map_iff in Hb. destruct Hb as [b' [<- Hb']]. cbn.
        rewrite combine_length, map_length. unfold face_dofs. rewrite map_length, (w_binp W _ Hb'). lia.
      - intros b u [u0 x] Hb Hu. apply in_map_iff in Hb. destruct Hb as [b' [<- Hb']].
        cbn [b_kern fst snd]. rewrite block_mul_length. split; [reflexivity|].
        unfold zeros. apply repeat_length.
    Qed.

    Lemma elem_res_lin d m (x : list K) i :
      length d = nd -> (forall k, In k d -> k < n) ->
      elem_res nd d (block_mul K nd m (map (get x) d)) i =
      sumf (fun j => elem_jac nd d m i j * get x j) (seq 0 n).
    Proof.
      intros Hd Hk. unfold elem_res, elem_jac.
      rewrite sumf_ext with (g := fun a => sumf (fun j => sumf (fun b =>
            (if (nth a d 0%nat =? i) && (nth b d 0%nat =? j) then get m (a * nd + b)%nat else 0) * get x j)
            (seq 0 nd)) (seq 0 n)).
      - rewrite sumf_swap. apply sumf_ext. intros j Hj.
        rewrite sumf_ext with (g := fun a => sumf (fun b =>
            (if (nth a d 0%nat =? i) && (nth b d 0%nat =? j) then get m (a * nd + b)%nat else 0))
            (seq 0 nd) * get x j).
        + apply sumf_mul_r.
        + intros a Ha. apply sumf_mul_r.
      - intros a Ha. apply in_seq in Ha. rewrite sumf_swap.
        destruct (nth a d 0%nat =? i) eqn:E; cbn [andb].
        + unfold block_mul. rewrite get_map_seq by lia. apply sumf_ext. intros b Hb. apply in_seq in Hb.
          assert (Hdb : nth b d 0%nat < n) by (apply Hk, nth_In; lia).
          rewrite sumf_ext with (g := fun j => if j =? nth b d 0%nat then get m (a * nd + b)%nat * get x j else 0).
          * rewrite (sumf_single_nat K (fun j => get m (a * nd + b)%nat * get x j) Hdb).
            f_equal. unfold get. rewrite nth_map_in with (d := 0%nat) by lia. reflexivity.
          * intros j _. rewrite (Nat.eqb_sym j). destruct (nth b d 0%nat =? j); ring.
        + symmetry. apply sumf_zero. intros b _. apply sumf_zero. intros j _. ring.
    Qed.

    (** The linearised residual is the tangent times the vector. *)
    Lemma residual_jvp_spec sol x i : i < n ->
      get (residual_jvp pb bs0 sol x) i = sumf (fun j => spec_jac pb sol i j * get x j) (seq 0 n).
    Proof.
      intros Hi. unfold residual_jvp.
      rewrite (get_res_spec Hbs (lin_wf sol)) by exact Hi.
      unfold spec_res, spec_jac.
      rewrite sumf_ext with (l := seq 0 n) (g := fun j => spec_vol_jac pb sol i j * get x j +
                                                          spec_face_jac pb sol i j * get x j)
        by (intros; ring).
      rewrite sumf_add. f_equal.
      - unfold spec_vol_jac. cbn [lin_problem pr_cells pr_inp pr_nd pr_kern].
        rewrite sumf_ext with (l := seq 0 n) (g := fun j => sumf (fun p => elem_jac nd (fst p)
              (snd (pr_kern pb (local_sol sol (fst p)) (snd p))) i j * get x j)
              (combine (pr_cells pb) (pr_inp pb))) by (intros j _; symmetry; apply sumf_mul_r).
        rewrite sumf_swap.
        assert (Lc : length (pr_cells pb) = length (pr_inp pb)) by (symmetry; apply (w_inp W)).
        set (C := pr_cells pb) in *.
        assert (G : forall (C : list (list nat)) (I : list Inp),
            (forall d, In d C -> length d = nd /\ forall k, In k d -> k < n) ->
            sumf (fun p : list nat * (list K * Inp) => elem_res nd (fst p)
               (block_mul K nd (snd (pr_kern pb (fst (snd p)) (snd (snd p)))) (local_sol x (fst p))) i)
              (combine C (combine (map (fun dofs => map (get sol) dofs) C) I)) =
            sumf (fun p => sumf (fun j => elem_jac nd (fst p)
              (snd (pr_kern pb (local_sol sol (fst p)) (snd p))) i j * get x j) (seq 0 n)) (combine C I)).
        { clear -Hbs W. induction C as [|d C IH]; intros [|y I] H; cbn [map combine sumf fst snd]; try reflexivity.
          destruct (H d (or_introl eq_refl)) as [H1 H2].
          unfold local_sol. rewrite elem_res_lin by assumption. f_equal. apply IH.
          intros d' Hd'. apply H. right. exact Hd'. }
        apply G. intros d Hdin. split; [apply (w_cells W _ Hdin)|]. intros k Hk. apply (w_dofs W _ _ Hdin Hk).
      - unfold spec_face_jac. cbn [lin_problem pr_cells pr_bnd pr_nd].
        rewrite sumf_ext with (l := seq 0 n) (g := fun j => sumf (fun b => sumf (fun q =>
              elem_jac nd (nth (fst q) (pr_cells pb) []) (snd (b_kern b (local_sol sol (nth (fst q) (pr_cells pb) [])) (snd q))) i j)
            (combine (b_cells b) (b_inp b)) * get x j) (pr_bnd pb)) by (intros j _; symmetry; apply sumf_mul_r).
        rewrite sumf_swap, sumf_map. apply sumf_ext. intros b Hb.
        cbn [b_cells b_inp b_kern].
        rewrite sumf_ext with (l := seq 0 n) (g := fun j => sumf (fun q =>
              elem_jac nd (nth (fst q) (pr_cells pb) []) (snd (b_kern b (local_sol sol (nth (fst q) (pr_cells pb) [])) (snd q))) i j * get x j)
            (combine (b_cells b) (b_inp b))) by (intros j _; symmetry; apply sumf_mul_r).
        rewrite sumf_swap. unfold face_dofs.
        pose proof (w_bcells W b) as Hc. specialize (fun c => Hc c Hb).
        revert Hc. generalize (b_cells b) as C. generalize (b_inp b) as I.
        intros I C. revert I. induction C as [|c C IH]; intros [|y I] Hc; cbn [map combine sumf fst snd]; try reflexivity.
        assert (Hin : In (nth c (pr_cells pb) []) (pr_cells pb)) by (apply nth_In, Hc; left; reflexivity).
        unfold local_sol. rewrite elem_res_lin.
        + f_equal. apply IH. intros c' Hc'. apply Hc. right. exact Hc'.
        + apply (w_cells W _ Hin).
        + intros k Hk. apply (w_dofs W _ _ Hin Hk).
    Qed.

    Lemma matfree_spec sym sol bc x :
      wf_bc bc n -> (forall r, In r (bc_rows bc) -> In (r, r) (slots (pr_pat pb))) ->
      pr_view pb = FULL ->
      pr_surface_jac_zero pb = false \/ (forall i j, spec_face_jac pb sol i j = 0) ->
      forall i, i < n ->
      get (snd (matfree_res_J pb bs0 sym sol bc) x) i = get (matvec (J_bc pb bs0 sym sol bc) x) i.
    Proof.
      intros Wb Hdiag HV Hflag i Hi.
      pose proof (all_pairs_range W) as Hr.
      assert (Hlen : length (get_J_csr pb bs0 sol) = p_nse (pr_pat pb)) by (apply (get_J_csr_length Hbs W)).
      assert (VB : valid_csr (J_bc pb bs0 sym sol bc)).
      { apply built_valid; [exact Hr|]. rewrite apply_J_length. exact Hlen. }
      rewrite (matvec_dense VB) by exact Hi.
      cbn [J_bc csr_of m_ncols]. change (p_n (pr_pat pb)) with n.
      rewrite sumf_ext with (l := seq 0 n) (g := fun j =>
        (if nth i (bc_mask bc) false then (if i =? j then 1 else 0)
         else if sym && nth j (bc_mask bc) false then 0 else spec_jac pb sol i j) * get x j).
      2:{ intros j _. rewrite <- (todense_entry VB) by exact Hi. f_equal. unfold J_bc.
          etransitivity; [exact (@apply_J_dense n (pr_view pb) (all_pairs pb) bc (get_J_csr pb bs0 sol) Hr Hlen Wb Hdiag sym i j)|].
          destruct (nth i (bc_mask bc) false); [reflexivity|].
          destruct (sym && nth j (bc_mask bc) false); [reflexivity|].
          etransitivity; [exact (get_jacobian_dense Hbs W sol i j)|]. rewrite HV. cbn [in_view].
          unfold eff_jac. destruct Hflag as [->|Hz]; [reflexivity|].
          unfold spec_jac. rewrite Hz. destruct (pr_surface_jac_zero pb); ring. }
      cbn [matfree_res_J snd]. rewrite get_map_seq by exact Hi.
      destruct (nth i (bc_mask bc) false) eqn:M.
      - rewrite sumf_ext with (g := fun j => if j =? i then get x j else 0).
        + symmetry. apply (sumf_single_nat K (get x) Hi).
        + intros j _. rewrite (Nat.eqb_sym i j). destruct (j =? i); ring.
      - rewrite residual_jvp_spec by exact Hi. apply sumf_ext. intros j Hj. apply in_seq in Hj.
        destruct sym; cbn [andb].
        + rewrite get_map_seq by lia. destruct (nth j (bc_mask bc) false); ring.
        + reflexivity.
    Qed.
  End MatFree.
End Apply.
