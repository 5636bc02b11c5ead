(** Lemmas about linear and adjoint solves. *)
From Verif Require Import Base Csr_Model Csr_Proofs Ops_Proofs Assembly_Model Assembly_Spec
     Assembly_Proofs AssemblyMain_Proofs Values_Proofs Csr_Props Assembly_Props
     Dof_Model Dof_Spec Dof_Proofs Bc_Model Bc_Proofs BcCreate_Proofs Bc_Props LinSolve_Model LinSolve_Spec.
From Coq Require Import ZifyBool ZifyNat.
Set Implicit Arguments.

Section P.
  Variable K : CRing.
  Local Open Scope ring_K.
  Add Ring KringLS : (cth K).

  Lemma vneg_length (v : list K) : length (vneg v) = length v.
  Proof. apply map_length. Qed.
  Lemma get_vneg (v : list K) i : get (vneg v) i = - get v i.
  Proof.
    unfold get, vneg. destruct (Nat.lt_ge_cases i (length v)).
    - rewrite nth_map_in with (d := 0) by assumption. reflexivity.
    - rewrite !nth_overflow by (rewrite ?map_length; assumption). ring.
  Qed.

  (** ** Sums *)
  Lemma sum_split (B : nat -> bool) (f : nat -> K) l :
    sumf f l = sumf (fun i => if B i then f i else 0) l + sumf (fun i => if B i then 0 else f i) l.
  Proof. rewrite <- sumf_add. apply sumf_ext. intros i _. destruct (B i); ring. Qed.

  Lemma sum_rows (rows : list nat) (f : nat -> K) n :
    NoDup rows -> (forall r, In r rows -> r < n) ->
    sumf f rows = sumf (fun i => if existsb (Nat.eqb i) rows then f i else 0) (seq 0 n).
  Proof.
    intros ND Hr. induction rows as [|r t IH]; cbn [sumf existsb].
    - symmetry. apply sumf_zero. reflexivity.
    - inversion ND as [|? ? Hn ND']; subst.
      rewrite IH by (auto; intros; apply Hr; right; assumption).
      assert (Hrn : r < n) by (apply Hr; left; reflexivity).
      rewrite <- (sumf_single_nat K f Hrn) at 1. rewrite <- sumf_add. apply sumf_ext. intros i _.
      destruct (Nat.eqb_spec i r) as [->|]; cbn [orb]; [|ring].
      destruct (existsb (Nat.eqb r) t) eqn:E; [|ring].
      exfalso. apply existsb_exists in E. destruct E as [x [Hx E]]. apply Nat.eqb_eq in E. subst x. contradiction.
  Qed.

  Lemma sumf_nth (l : list nat) (f : nat -> K) :
    sumf (fun k => f (nth k l 0%nat)) (seq 0 (length l)) = sumf f l.
  Proof.
    rewrite <- (sumf_map K (fun k => nth k l 0%nat) f). rewrite map_nth_seq. reflexivity.
  Qed.

  Lemma mask_existsb (bc : dirichlet K) n i : wf_bc bc n ->
    nth i (bc_mask bc) false = existsb (Nat.eqb i) (bc_rows bc).
  Proof.
    intros W. apply eq_true_iff_eq. rewrite (wb_mask W), existsb_exists. split.
    - intros H. exists i. split; [exact H | apply Nat.eqb_refl].
    - intros [x [Hx E]]. apply Nat.eqb_eq in E. subst. exact Hx.
  Qed.

  (** Setting the BC rows to a function of the row. *)
  Lemma get_set_rows (a : list K) (rows : list nat) (f : nat -> K) i :
    (forall r, In r rows -> r < length a) ->
    get (scatter_set a (map (fun r => (r, f r)) rows)) i =
    if existsb (Nat.eqb i) rows then f i else get a i.
  Proof.
    intros Hr. destruct (existsb (Nat.eqb i) rows) eqn:E.
    - apply existsb_exists in E. destruct E as [x [Hx E]]. apply Nat.eqb_eq in E. subst x.
      revert a Hr Hx. induction rows as [|r t IH]; intros a Hr Hx; [destruct Hx|].
      unfold scatter_set. cbn [map fold_left fst snd].
      destruct (in_dec Nat.eq_dec i t) as [Ht|Ht].
      + apply IH; [|exact Ht]. intros r' Hr'. rewrite upd_length. apply Hr. right. exact Hr'.
      + destruct Hx as [->|Hx]; [|contradiction].
        etransitivity; [apply (nth_scatter_set_notin (map (fun r => (r, f r)) t))|].
        * rewrite map_map. cbn. rewrite map_id. exact Ht.
        * rewrite nth_upd. rewrite Nat.eqb_refl.
          assert (Hlt : i < length a) by (apply Hr; left; reflexivity).
          apply Nat.ltb_lt in Hlt. rewrite Hlt. reflexivity.
    - unfold get. apply nth_scatter_set_notin. rewrite map_map. cbn. rewrite map_id.
      intros Hin. assert (existsb (Nat.eqb i) rows = true); [|congruence].
      apply existsb_exists. exists i. split; [exact Hin|apply Nat.eqb_refl].
  Qed.

  (** ** Adjoint algebra over an abstract tangent *)
  Section Core.
    Variables (n : nat) (B : nat -> bool) (A : nat -> nat -> K).

    Lemma elim_sum_T sym (lam : nat -> K) j : j < n ->
      sumf (fun i => eliminated sym B A i j * lam i) (seq 0 n) =
      (if B j then lam j else 0) +
      (if sym && B j then 0 else sumf (fun i => if B i then 0 else A i j * lam i) (seq 0 n)).
    Proof.
      intros Hj. rewrite (sum_split B). f_equal.
      - rewrite sumf_ext with (g := fun i => if i =? j then (if B i then lam i else 0) else 0).
        + apply (sumf_single_nat K (fun i => if B i then lam i else 0) Hj).
        + intros i _. unfold eliminated. destruct (B i); destruct (i =? j); ring.
      - destruct (sym && B j) eqn:E.
        + apply sumf_zero. intros i _. unfold eliminated. rewrite E. destruct (B i); ring.
        + apply sumf_ext. intros i _. unfold eliminated. rewrite E. destruct (B i); ring.
    Qed.

    Lemma elim_sum sym (x : nat -> K) i : i < n ->
      sumf (fun j => eliminated sym B A i j * x j) (seq 0 n) =
      if B i then x i else sumf (fun j => if sym && B j then 0 else A i j * x j) (seq 0 n).
    Proof.
      intros Hi. unfold eliminated. destruct (B i).
      - rewrite sumf_ext with (g := fun j => if j =? i then x j else 0).
        + apply (sumf_single_nat K x Hi).
        + intros j _. rewrite Nat.eqb_sym. destruct (j =? i); ring.
      - apply sumf_ext. intros j _. destruct (sym && B j); ring.
    Qed.

    (** Correcting the BC rows of the symmetric multiplier gives the multiplier of
        the row-eliminated operator. *)
    Lemma corrected_multiplier (lam0 lam v : nat -> K) :
      (forall j, j < n -> sumf (fun i => eliminated true B A i j * lam0 i) (seq 0 n) = v j) ->
      (forall j, j < n -> lam j = if B j then v j - sumf (fun i => if B i then 0 else A i j * lam0 i) (seq 0 n)
                                  else lam0 j) ->
      forall j, j < n -> sumf (fun i => eliminated false B A i j * lam i) (seq 0 n) = v j.
    Proof.
      intros H0 Hl j Hj. rewrite elim_sum_T by exact Hj. cbn [andb].
      rewrite sumf_ext with (g := fun i => if B i then 0 else A i j * lam0 i).
      2:{ intros i Hi. apply in_seq in Hi. destruct (B i) eqn:Bi; [reflexivity|].
          rewrite Hl by lia. rewrite Bi. reflexivity. }
      specialize (H0 j Hj). rewrite elim_sum_T in H0 by exact Hj. cbn [andb] in H0.
      destruct (B j) eqn:Bj.
      - rewrite Hl by exact Hj. rewrite Bj. ring.
      - exact H0.
    Qed.

    (** Duality. *)
    Lemma duality (E : nat -> nat -> K) (lam v du g : nat -> K) :
      (forall j, j < n -> sumf (fun i => E i j * lam i) (seq 0 n) = v j) ->
      (forall i, i < n -> sumf (fun j => E i j * du j) (seq 0 n) = g i) ->
      sumf (fun j => v j * du j) (seq 0 n) = sumf (fun i => lam i * g i) (seq 0 n).
    Proof.
      intros Hl Hd.
      rewrite sumf_ext with (g := fun j => sumf (fun i => E i j * lam i * du j) (seq 0 n)).
      2:{ intros j Hj. apply in_seq in Hj. rewrite <- Hl by lia. symmetry. apply sumf_mul_r. }
      rewrite sumf_swap. apply sumf_ext. intros i Hi. apply in_seq in Hi.
      rewrite <- Hd by lia. rewrite <- sumf_mul_l. apply sumf_ext. intros j _. ring.
    Qed.
  End Core.

  Section WithProblem.
    Variables (Inp FInp : Type) (pb : problem K Inp FInp) (bs0 : nat).
    Hypothesis Hbs : 0 < bs0.
    Hypothesis W : wf_problem pb.
    Local Notation n := (pr_n pb).
    Local Notation nd := (pr_nd pb).

    (** ** Transposed problem *)
    Lemma get_transpose_block (m : list K) a b : a < nd -> b < nd ->
      get (transpose_block K nd m) (a * nd + b)%nat = get m (b * nd + a)%nat.
    Proof.
      intros Ha Hb. unfold transpose_block.
      assert (Hlt : (a * nd + b < nd * nd)%nat) by nia.
      rewrite get_map_seq by exact Hlt. f_equal.
      rewrite (Nat.add_comm (a * nd) b).
      rewrite Nat.mod_add, Nat.mod_small by lia.
      rewrite Nat.div_add, Nat.div_small by lia. lia.
    Qed.

    Lemma elem_jac_transpose d (m : list K) i j :
      elem_jac nd d (transpose_block K nd m) i j = elem_jac nd d m j i.
    Proof.
      unfold elem_jac. rewrite sumf_swap. apply sumf_ext. intros a Ha. apply in_seq in Ha.
      apply sumf_ext. intros b Hb. apply in_seq in Hb.
      rewrite andb_comm. rewrite get_transpose_block by lia. reflexivity.
    Qed.

    Lemma transpose_block_length (m : list K) : length (transpose_block K nd m) = (nd * nd)%nat.
    Proof. unfold transpose_block. rewrite map_length, seq_length. reflexivity. Qed.

    Lemma transpose_wf : wf_problem (transpose_problem pb).
    Proof.
      destruct W as [A1 A2 A3 A4 A5 A6 A7].
      constructor; cbn [transpose_problem pr_cells pr_nd pr_n pr_inp pr_kern pr_bnd]; auto.
      - intros u x Hu. cbn [fst snd]. rewrite transpose_block_length. split; [apply A4; exact Hu | reflexivity].
      - intros b c Hb Hc. apply in_map_iff in Hb. destruct Hb as [b' [<- Hb']]. apply (A5 b'); assumption.
      - intros b Hb. apply in_map_iff in Hb. destruct Hb as [b' [<- Hb']]. apply (A6 b'); assumption.
      - intros b u x Hb Hu. apply in_map_iff in Hb. destruct Hb as [b' [<- Hb']]. cbn [b_kern fst snd].
        rewrite transpose_block_length. split; [apply (A7 b'); assumption | reflexivity].
    Qed.

    Lemma transpose_spec_jac sol i j : spec_jac (transpose_problem pb) sol i j = spec_jac pb sol j i.
    Proof.
      unfold spec_jac. f_equal.
      - unfold spec_vol_jac. cbn [transpose_problem pr_cells pr_nd pr_inp pr_kern snd].
        apply sumf_ext. intros p _. apply elem_jac_transpose.
      - unfold spec_face_jac. cbn [transpose_problem pr_cells pr_nd pr_bnd].
        rewrite sumf_map. apply sumf_ext. intros b _. cbn [b_cells b_inp b_kern snd].
        apply sumf_ext. intros q _. apply elem_jac_transpose.
    Qed.

    Lemma residual_vjp_spec sol w j : j < n ->
      get (residual_vjp pb bs0 sol w) j = sumf (fun i => spec_jac pb sol i j * get w i) (seq 0 n).
    Proof.
      intros Hj. unfold residual_vjp. rewrite (residual_jvp_spec Hbs transpose_wf) by exact Hj.
      cbn [transpose_problem pr_n]. apply sumf_ext. intros i _. rewrite transpose_spec_jac. reflexivity.
    Qed.

    Lemma residual_vjp_length sol w : length (residual_vjp pb bs0 sol w) = n.
    Proof. unfold residual_vjp, residual_jvp. rewrite get_res_length. reflexivity. Qed.

    (** ** The operators as eliminated tangents *)
    Variable bc : dirichlet K.
    Hypothesis Wb : wf_bc bc n.
    Local Notation B := (fun i => nth i (bc_mask bc) false).

    Lemma matfree_acts sym sol x i : i < n ->
      get (snd (matfree_res_J pb bs0 sym sol bc) x) i =
      sumf (fun j => eliminated sym B (spec_jac pb sol) i j * get x j) (seq 0 n).
    Proof.
      intros Hi. rewrite (elim_sum (fun i => nth i (bc_mask bc) false) (spec_jac pb sol) sym (get x) Hi).
      cbn [matfree_res_J snd]. rewrite get_map_seq by exact Hi.
      destruct (nth i (bc_mask bc) false); [reflexivity|].
      rewrite (residual_jvp_spec Hbs W) by exact Hi. apply sumf_ext. intros j Hj. apply in_seq in Hj.
      destruct sym; cbn [andb]; [|reflexivity].
      rewrite get_map_seq by lia. destruct (nth j (bc_mask bc) false); ring.
    Qed.

    Hypothesis Hcov : forall r, In r (bc_rows bc) -> exists d, In d (pr_cells pb) /\ In r d.
    Variable sol : list K.
    Hypothesis Hflag : pr_surface_jac_zero pb = false \/ (forall i j, spec_face_jac pb sol i j = 0).

    Lemma J_bc_valid sym : valid_csr (J_bc pb bs0 sym sol bc).
    Proof. apply (C09_problem sol sym Hbs W Wb Hcov). Qed.

    Lemma get_jacobian_full i j : pr_view pb = FULL -> todense (get_jacobian pb bs0 sol) i j = spec_jac pb sol i j.
    Proof.
      intros HV. rewrite (get_jacobian_dense Hbs W). rewrite HV. cbn [in_view].
      unfold eff_jac. destruct Hflag as [->|Hz]; [reflexivity|].
      unfold spec_jac. rewrite Hz. destruct (pr_surface_jac_zero pb); ring.
    Qed.

    Lemma J_bc_full sym i j : pr_view pb = FULL ->
      todense (J_bc pb bs0 sym sol bc) i j = eliminated sym B (spec_jac pb sol) i j.
    Proof.
      intros HV. destruct (C09_problem sol sym Hbs W Wb Hcov) as (_ & R & C & F). unfold eliminated.
      destruct (nth i (bc_mask bc) false) eqn:Bi.
      - apply R. apply (wb_mask Wb). exact Bi.
      - assert (Ni : ~ In i (bc_rows bc)) by (intros H; apply (wb_mask Wb) in H; congruence).
        destruct sym; cbn [andb].
        + destruct (nth j (bc_mask bc) false) eqn:Bj.
          * apply C; auto. apply (wb_mask Wb). exact Bj.
          * rewrite F; [apply get_jacobian_full; exact HV | exact Ni|].
            right. intros H. apply (wb_mask Wb) in H. congruence.
        + rewrite F by auto. apply get_jacobian_full. exact HV.
    Qed.

    Lemma J_bc_acts sym x i : pr_view pb = FULL -> i < n ->
      get (matvec (J_bc pb bs0 sym sol bc) x) i =
      sumf (fun j => eliminated sym B (spec_jac pb sol) i j * get x j) (seq 0 n).
    Proof.
      intros HV Hi. rewrite (matvec_dense (J_bc_valid sym)) by exact Hi.
      cbn [J_bc csr_of m_ncols]. change (p_n (pr_pat pb)) with n. apply sumf_ext. intros j Hj.
      rewrite <- (todense_entry (J_bc_valid sym)) by exact Hi. rewrite J_bc_full by exact HV. reflexivity.
    Qed.

    Lemma J_bc_T_acts sym x j : pr_view pb = FULL -> j < n ->
      get (matvec (adjoint_matrix pb bs0 sym sol bc) x) j =
      sumf (fun i => eliminated sym B (spec_jac pb sol) i j * get x i) (seq 0 n).
    Proof.
      intros HV Hj. unfold adjoint_matrix. rewrite HV.
      assert (Hd : length (apply_J bc (pr_pat pb) sym (get_J_csr pb bs0 sol)) = p_nse (pr_pat pb)).
      { rewrite apply_J_length. apply (get_J_csr_length Hbs W). }
      destruct (@C06_transpose_maps K n (pr_view pb) (all_pairs pb) _ (all_pairs_range W) Hd) as (_ & _ & _ & _ & M).
      etransitivity; [apply M; exact Hj|].
      rewrite (rmatvec_dense (J_bc_valid sym)) by exact Hj.
      change (m_nrows (csr_of _ _)) with n. apply sumf_ext. intros i Hi. apply in_seq in Hi.
      change (entry _ i j) with (entry (J_bc pb bs0 sym sol bc) i j).
      rewrite <- (todense_entry (J_bc_valid sym)) by (change (i < n); lia). rewrite J_bc_full by exact HV. reflexivity.
    Qed.

    Lemma rmatvec_full x j : pr_view pb = FULL -> j < n ->
      get (rmatvec (get_jacobian pb bs0 sol) x) j = sumf (fun i => spec_jac pb sol i j * get x i) (seq 0 n).
    Proof.
      intros HV Hj.
      assert (V : valid_csr (get_jacobian pb bs0 sol)).
      { apply built_valid; [apply (all_pairs_range W) | apply (get_J_csr_length Hbs W)]. }
      rewrite (rmatvec_dense V) by exact Hj. change (m_nrows _) with n.
      apply sumf_ext. intros i Hi. apply in_seq in Hi.
      rewrite <- (todense_entry V) by (change (i < n); lia). rewrite get_jacobian_full by exact HV. reflexivity.
    Qed.

    Lemma res_bc_vjp_acts w j : length w = n -> j < n ->
      get (res_bc_vjp pb bs0 sol bc w) j =
      sumf (fun i => eliminated false B (spec_jac pb sol) i j * get w i) (seq 0 n).
    Proof.
      intros Hw Hj. rewrite (elim_sum_T (fun i => nth i (bc_mask bc) false) (spec_jac pb sol) false (get w) Hj).
      cbn [andb]. unfold res_bc_vjp. rewrite get_scatter_add by (rewrite residual_vjp_length; exact Hj).
      rewrite residual_vjp_spec by exact Hj.
      rewrite sumf_map. cbn [fst snd].
      assert (E1 : sumf (fun r => if r =? j then get w r else 0) (bc_rows bc) =
                   if nth j (bc_mask bc) false then get w j else 0).
      { rewrite (@sum_rows (bc_rows bc) (fun r => if r =? j then get w r else 0) n
                   (sorted_NoDup_rows Wb) (wb_range Wb)).
        rewrite sumf_ext with (g := fun i => if i =? j then (if nth i (bc_mask bc) false then get w i else 0) else 0).
        - apply (sumf_single_nat K (fun i => if nth i (bc_mask bc) false then get w i else 0) Hj).
        - intros i _. rewrite <- (mask_existsb i Wb). destruct (nth i (bc_mask bc) false), (i =? j); reflexivity. }
      rewrite E1.
      rewrite sumf_ext with (l := seq 0 n) (g := fun i => if nth i (bc_mask bc) false then 0 else spec_jac pb sol i j * get w i).
      - ring.
      - intros i Hi. apply in_seq in Hi.
        rewrite (get_set_rows w (bc_rows bc) (fun _ => 0) i) by (intros r Hr; rewrite Hw; apply (wb_range Wb _ Hr)).
        rewrite <- (mask_existsb i Wb). destruct (nth i (bc_mask bc) false); ring.
    Qed.
  End WithProblem.

  (** ** Affine problems *)
  Section Affine.
    Variables (Inp FInp : Type) (pb : problem K Inp FInp).
    Hypothesis W : wf_problem pb.
    Hypothesis Aff : affine_problem pb.
    Local Notation n := (pr_n pb).
    Local Notation nd := (pr_nd pb).

    Lemma elem_res_affine X (k : list K -> X -> list K * list K) d x sol sol' i :
      affine_kernel nd k -> length d = nd -> (forall q, In q d -> q < n) ->
      elem_res nd d (fst (k (local_sol sol' d) x)) i =
      elem_res nd d (fst (k (local_sol sol d) x)) i +
      sumf (fun j => elem_jac nd d (snd (k (local_sol sol d) x)) i j * (get sol' j - get sol j)) (seq 0 n).
    Proof.
      intros Hk Hd Hr.
      assert (G : forall q, get (map (fun q => get sol' q - get sol q) (seq 0 n)) q =
                            if q <? n then get sol' q - get sol q else 0).
      { intros q. destruct (Nat.ltb_spec q n); [apply get_map_seq; assumption|].
        unfold get at 1. apply nth_overflow. rewrite map_length, seq_length. assumption. }
      rewrite sumf_ext with (l := seq 0 n) (g := fun j => elem_jac nd d (snd (k (local_sol sol d) x)) i j *
                 get (map (fun q => get sol' q - get sol q) (seq 0 n)) j).
      2:{ intros j Hj. apply in_seq in Hj. rewrite G. replace (j <? n) with true by lia. reflexivity. }
      rewrite <- (@elem_res_lin K Inp FInp pb 1 Nat.lt_0_1 d (snd (k (local_sol sol d) x)) _ i Hd Hr).
      unfold elem_res. rewrite <- sumf_add. apply sumf_ext. intros a Ha. apply in_seq in Ha.
      destruct (nth a d 0%nat =? i); [|ring].
      rewrite (Hk (local_sol sol d) (local_sol sol' d) x a) by (try (unfold local_sol; rewrite map_length; exact Hd); lia).
      f_equal. unfold block_mul. rewrite get_map_seq by lia. apply sumf_ext. intros b Hb. apply in_seq in Hb.
      f_equal. unfold local_sol.
      assert (GM : forall (h : nat -> K), get (map h d) b = h (nth b d 0%nat)).
      { intros h. unfold get. apply nth_map_in. lia. }
      rewrite !GM, G.
      assert (Hq : nth b d 0%nat < n) by (apply Hr, nth_In; lia).
      apply Nat.ltb_lt in Hq. rewrite Hq. reflexivity.
    Qed.

    Lemma spec_res_affine sol sol' i :
      spec_res pb sol' i = spec_res pb sol i +
      sumf (fun j => spec_jac pb sol i j * (get sol' j - get sol j)) (seq 0 n).
    Proof.
      destruct Aff as [Av Ab].
      unfold spec_res, spec_jac.
      rewrite sumf_ext with (l := seq 0 n) (g := fun j =>
         spec_vol_jac pb sol i j * (get sol' j - get sol j) + spec_face_jac pb sol i j * (get sol' j - get sol j))
        by (intros; ring).
      rewrite sumf_add.
      match goal with |- ?a' + ?b' = (?a + ?b) + (?c + ?d) =>
        cut (a' = a + c /\ b' = b + d); [intros [-> ->]; ring|] end.
      split.
      - unfold spec_vol_jac.
        rewrite sumf_ext with (l := seq 0 n) (g := fun j => sumf (fun p => elem_jac nd (fst p)
              (snd (pr_kern pb (local_sol sol (fst p)) (snd p))) i j * (get sol' j - get sol j))
              (combine (pr_cells pb) (pr_inp pb))) by (intros j _; symmetry; apply sumf_mul_r).
        rewrite sumf_swap, <- sumf_add. apply sumf_ext. intros [d x] Hp. cbn [fst snd].
        apply in_combine_l in Hp. apply elem_res_affine; [exact Av | apply (w_cells W _ Hp)|].
        intros q Hq. apply (w_dofs W _ _ Hp Hq).
      - unfold spec_face_jac.
        rewrite sumf_ext with (l := seq 0 n) (g := fun j => sumf (fun b => sumf (fun q =>
              elem_jac nd (nth (fst q) (pr_cells pb) []) (snd (b_kern b (local_sol sol (nth (fst q) (pr_cells pb) [])) (snd q))) i j)
            (combine (b_cells b) (b_inp b)) * (get sol' j - get sol j)) (pr_bnd pb)) by (intros j _; symmetry; apply sumf_mul_r).
        rewrite sumf_swap, <- sumf_add. apply sumf_ext. intros b Hb.
        rewrite sumf_ext with (l := seq 0 n) (g := fun j => sumf (fun q =>
              elem_jac nd (nth (fst q) (pr_cells pb) []) (snd (b_kern b (local_sol sol (nth (fst q) (pr_cells pb) [])) (snd q))) i j * (get sol' j - get sol j))
            (combine (b_cells b) (b_inp b))) by (intros j _; symmetry; apply sumf_mul_r).
        rewrite sumf_swap, <- sumf_add. apply sumf_ext. intros [c x] Hq. cbn [fst snd]. cbv zeta.
        apply in_combine_l in Hq.
        assert (Hin : In (nth c (pr_cells pb) []) (pr_cells pb)) by (apply nth_In, (w_bcells W b); assumption).
        apply elem_res_affine; [apply (Ab b Hb) | apply (w_cells W _ Hin)|].
        intros q Hq'. apply (w_dofs W _ _ Hin Hq').
    Qed.
  End Affine.
End P.
