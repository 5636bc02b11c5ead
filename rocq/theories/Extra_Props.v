(** Properties of Newton solves with an extra residual term. *)
From Verif Require Import Base Csr_Model Csr_Proofs Ops_Proofs Assembly_Model Assembly_Spec
     Assembly_Proofs AssemblyMain_Proofs Values_Proofs Csr_Props Assembly_Props
     Dof_Model Dof_Spec Dof_Proofs Bc_Model Bc_Proofs BcCreate_Proofs Bc_Props
     LinSolve_Model LinSolve_Spec LinSolve_Proofs LinSolve_Props Merge_Model Merge_Proofs Merge_Props Extra_Model.

(** * What the solves are supposed to satisfy *)
Section Spec.
  Variable K : CRing.
  Local Open Scope ring_K.
  Variables (Inp FInp : Type) (pb : problem K Inp FInp).
  Variable extra : list K -> list K.
  Variable etan : list K -> nat -> nat -> K.

  (** The tangent of the sum of both residuals. *)
  Definition total_jac (sol : list K) (i j : nat) : K := spec_jac pb sol i j + etan sol i j.
  (** Prescribed values attained, and the sum of both residuals zero in every free row. *)
  Definition solves_total (bc : dirichlet K) (sol : list K) : Prop :=
    (forall k, k < length (bc_rows bc) -> get sol (nth k (bc_rows bc) 0%nat) = get (bc_vals bc) k) /\
    (forall i, i < pr_n pb -> ~ In i (bc_rows bc) -> spec_res pb sol i + get (extra sol) i = 0).
  (** First-order response of the solution (implicit function theorem). *)
  Definition response_total (bc : dirichlet K) (sol dR dvals du : list K) : Prop :=
    (forall k, k < length (bc_rows bc) -> get du (nth k (bc_rows bc) 0%nat) = get dvals k) /\
    (forall i, i < pr_n pb -> ~ In i (bc_rows bc) ->
       sumf (fun j => total_jac sol i j * get du j) (seq 0 (pr_n pb)) + get dR i = 0).
  (** The extra term is affine with slope [etan]. *)
  Definition affine_extra : Prop :=
    forall u u' i, length u = pr_n pb -> length u' = pr_n pb -> i < pr_n pb ->
      get (extra u') i = get (extra u) i + sumf (fun j => etan u i j * (get u' j - get u j)) (seq 0 (pr_n pb)).
  (** What sparsity detection and decompression deliver: values of [E] at the detected positions, and
      nothing outside them. *)
  Definition detected (prow pcol : list nat) (vals : list K) (E : nat -> nat -> K) : Prop :=
    length prow = length pcol /\ length vals = length prow /\
    (forall r, In r prow -> r < pr_n pb) /\ (forall c, In c pcol -> c < pr_n pb) /\
    (forall k, k < length prow -> get vals k = E (nth k prow 0%nat) (nth k pcol 0%nat)) /\
    (forall i j, i < pr_n pb -> j < pr_n pb -> ~ (exists k, k < length prow /\ nth k prow 0%nat = i /\ nth k pcol 0%nat = j) -> E i j = 0).
  (** The tangent of the extra term with constrained rows (and, if [sym], columns) removed. *)
  Definition cleared (sym : bool) (rows : list nat) (E : nat -> nat -> K) (i j : nat) : K :=
    if existsb (Nat.eqb i) rows then 0 else if sym && existsb (Nat.eqb j) rows then 0 else E i j.
End Spec.
Arguments total_jac {K Inp FInp}. Arguments solves_total {K Inp FInp}. Arguments response_total {K Inp FInp}.
Arguments affine_extra {K Inp FInp}. Arguments detected {K Inp FInp}. Arguments cleared {K}.

Lemma csr_acts (K : CRing) n (M : csr K) (f : nat -> nat -> K) v i : valid_csr M -> m_nrows M = n -> m_ncols M = n ->
  (forall i j, i < n -> j < n -> todense M i j = f i j) -> i < n ->
  get (matvec M v) i = sumf (fun j => cmul (f i j) (get v j)) (seq 0 n).
Proof.
  intros V N C D Hi. rewrite (matvec_dense V) by (rewrite N; exact Hi). rewrite C. apply sumf_ext. intros j Hj. apply in_seq in Hj.
  rewrite <- (todense_entry V) by (rewrite N; exact Hi). rewrite D by lia. reflexivity.
Qed.

Section Lemmas.
  Variable K : CRing.
  Local Open Scope ring_K.
  Add Ring KringEX : (cth K).
  Variables (Inp FInp : Type) (pb : problem K Inp FInp) (bs0 : nat).
  Hypothesis Hbs : 0 < bs0.
  Hypothesis W : wf_problem pb.
  Variable bc : dirichlet K.
  Local Notation n := (pr_n pb).
  Hypothesis Wb : wf_bc bc n.
  Hypothesis Hcov : forall r, In r (bc_rows bc) -> exists d, In d (pr_cells pb) /\ In r d.
  Hypothesis HV : pr_view pb = FULL.
  Variable sol : list K.
  Hypothesis Hflag : pr_surface_jac_zero pb = false \/ (forall i j, spec_face_jac pb sol i j = 0).
  Variable etan : list K -> nat -> nat -> K.
  Local Notation B := (fun i => nth i (bc_mask bc) false).
  Local Notation A := (total_jac pb etan sol).

  Lemma zero_at_get v i : length v = n -> get (zero_at K (bc_rows bc) v) i = if nth i (bc_mask bc) false then 0 else get v i.
  Proof.
    intro L. unfold zero_at. rewrite (get_set_rows K v (bc_rows bc) (fun _ => 0) i) by (intros r Hr; rewrite L; apply (wb_range Wb _ Hr)).
    rewrite <- (mask_existsb i Wb). reflexivity.
  Qed.
  Lemma zero_at_length rs (v : list K) : length (zero_at K rs v) = length v.
  Proof. unfold zero_at. apply scatter_set_length. Qed.
  Lemma extra_jvp_length v : length (extra_jvp K Inp FInp pb etan sol v) = n.
  Proof. unfold extra_jvp. rewrite map_length, seq_length. reflexivity. Qed.
  Lemma extra_vjp_length v : length (extra_vjp K Inp FInp pb etan sol v) = n.
  Proof. unfold extra_vjp. rewrite map_length, seq_length. reflexivity. Qed.

  Lemma cleared_mask sym (E : nat -> nat -> K) i j : cleared sym (bc_rows bc) E i j = if B i then 0 else if sym && B j then 0 else E i j.
  Proof. unfold cleared. rewrite <- !(mask_existsb _ Wb). reflexivity. Qed.
  Lemma elim_total sym i j :
    eliminated sym B (spec_jac pb sol) i j + cleared sym (bc_rows bc) (etan sol) i j = eliminated sym B A i j.
  Proof. rewrite cleared_mask. unfold eliminated, total_jac. destruct (B i); [ destruct (i =? j); ring | ]. destruct (sym && B j); ring. Qed.

  Lemma jvp_acts sym v i : length v = n -> i < n ->
    get (extra_res_bc_jvp K Inp FInp pb sym (bc_rows bc) etan sol v) i =
    sumf (fun j => cleared sym (bc_rows bc) (etan sol) i j * get v j) (seq 0 n).
  Proof.
    intros L Hi. unfold extra_res_bc_jvp. rewrite zero_at_get by apply extra_jvp_length.
    destruct (B i) eqn:Bi.
    - symmetry. apply sumf_zero. intros j _. rewrite cleared_mask, Bi. ring.
    - unfold extra_jvp. rewrite get_map_seq by exact Hi. apply sumf_ext. intros j _. rewrite cleared_mask, Bi.
      destruct sym; cbn [andb]; [ | reflexivity ]. rewrite zero_at_get by exact L. destruct (B j); ring.
  Qed.
  Lemma rows_vjp_acts w j : length w = n -> j < n ->
    get (extra_rows_vjp K Inp FInp pb (bc_rows bc) etan sol w) j = sumf (fun i => if B i then 0 else etan sol i j * get w i) (seq 0 n).
  Proof.
    intros L Hj. unfold extra_rows_vjp, extra_vjp. rewrite get_map_seq by exact Hj. apply sumf_ext. intros i _.
    rewrite zero_at_get by exact L. destruct (B i); ring.
  Qed.
  Lemma vjp_acts sym w j : length w = n -> j < n ->
    get (extra_res_bc_vjp K Inp FInp pb sym (bc_rows bc) etan sol w) j =
    sumf (fun i => cleared sym (bc_rows bc) (etan sol) i j * get w i) (seq 0 n).
  Proof.
    intros L Hj. unfold extra_res_bc_vjp. cbv zeta.
    assert (E : get (extra_vjp K Inp FInp pb etan sol (zero_at K (bc_rows bc) w)) j = sumf (fun i => if B i then 0 else etan sol i j * get w i) (seq 0 n))
      by exact (rows_vjp_acts w j L Hj).
    destruct sym.
    - rewrite zero_at_get by apply extra_vjp_length. rewrite E. destruct (B j) eqn:Bj.
      + symmetry. apply sumf_zero. intros i _. rewrite cleared_mask, Bj. destruct (B i); cbn; ring.
      + apply sumf_ext. intros i _. rewrite cleared_mask, Bj. destruct (B i); cbn; ring.
    - rewrite E. apply sumf_ext. intros i _. rewrite cleared_mask. destruct (B i); cbn; ring.
  Qed.

  Lemma J_bc_nrows sym : m_nrows (J_bc pb bs0 sym sol bc) = n. Proof. reflexivity. Qed.
  Lemma J_bc_ncols sym : m_ncols (J_bc pb bs0 sym sol bc) = n. Proof. reflexivity. Qed.
  Lemma hybrid_acts sym v i : length v = n -> i < n ->
    get (hybrid_matvec K Inp FInp pb bs0 sym (bc_rows bc) etan sol bc v) i =
    sumf (fun j => eliminated sym B A i j * get v j) (seq 0 n).
  Proof.
    intros L Hi. unfold hybrid_matvec. rewrite get_vadd.
    - rewrite (J_bc_acts Hbs W Wb Hcov sol Hflag sym v HV Hi), (jvp_acts sym v i L Hi), <- sumf_add.
      apply sumf_ext. intros j _. rewrite <- elim_total. ring.
    - rewrite matvec_length. unfold extra_res_bc_jvp. rewrite zero_at_length, extra_jvp_length. reflexivity.
  Qed.
  Lemma adjoint_acts sym w j : length w = n -> j < n ->
    get (adjoint_matvec K Inp FInp pb bs0 sym (bc_rows bc) etan sol bc w) j =
    sumf (fun i => eliminated sym B A i j * get w i) (seq 0 n).
  Proof.
    intros L Hj. unfold adjoint_matvec. rewrite get_vadd.
    - rewrite (rmatvec_dense (J_bc_valid Hbs W Wb Hcov sol sym)) by exact Hj. rewrite J_bc_nrows, (vjp_acts sym w j L Hj), <- sumf_add.
      apply sumf_ext. intros i Hi. apply in_seq in Hi.
      rewrite <- (todense_entry (J_bc_valid Hbs W Wb Hcov sol sym)) by (change (i < n); lia).
      rewrite (J_bc_full Hbs W Wb Hcov sol Hflag sym i j HV), <- elim_total. ring.
    - rewrite rmatvec_length. unfold extra_res_bc_vjp. destruct sym; [ rewrite zero_at_length | ]; rewrite extra_vjp_length; reflexivity.
  Qed.

  (** The assembled tangent and its transpose. *)
  Variables (prow pcol : list nat) (pval : list K -> list K).
  Lemma merged_exists sym : detected pb prow pcol (pval sol) (cleared sym (bc_rows bc) (etan sol)) ->
    exists M T, J_merged K Inp FInp pb bs0 sym prow pcol pval sol bc = Some (M, T) /\
      valid_csr M /\ valid_csr T /\ m_nrows M = n /\ m_ncols M = n /\ m_nrows T = n /\ m_ncols T = n /\
      (forall i j, i < n -> j < n -> todense M i j = eliminated sym B A i j) /\
      (forall i j, i < n -> j < n -> todense T i j = eliminated sym B A j i).
  Proof.
    intros (D1 & D2 & D3 & D4 & D5 & D6).
    destruct (C34_producer K n n prow pcol (pval sol) (cleared sym (bc_rows bc) (etan sol)) D1 D2 D3 D4 D5) as (E & PE & VE & NE & CE & SE & EE & ZE).
    pose proof (J_bc_valid Hbs W Wb Hcov sol sym) as VA.
    assert (SA : rows_sorted (m_nrows (J_bc pb bs0 sym sol bc)) (m_indptr (J_bc pb bs0 sym sol bc)) (m_indices (J_bc pb bs0 sym sol bc)))
      by exact (built_rows_sorted n (pr_view pb) (all_pairs pb) (all_pairs_range W)).
    assert (SE' : rows_sorted (m_nrows E) (m_indptr E) (m_indices E)) by (rewrite NE; exact SE).
    destruct (C34_sum K (J_bc pb bs0 sym sol bc) E VA VE SA SE' (eq_sym NE) (eq_sym CE)) as (m & HM & H). cbv zeta in H.
    destruct H as (VM & DM & VT & DT).
    assert (DE : forall i j, i < n -> j < n -> todense E i j = cleared sym (bc_rows bc) (etan sol) i j).
    { intros i j Hi Hj.
      destruct (existsb (fun k => ((nth k prow 0 =? i) && (nth k pcol 0 =? j))%nat%bool) (seq 0 (length prow))) eqn:X.
      - apply existsb_exists in X. destruct X as (k & Hk & X). apply in_seq in Hk. apply andb_true_iff in X. destruct X as [X1 X2].
        apply Nat.eqb_eq in X1, X2. rewrite <- X1, <- X2. apply EE. lia.
      - assert (N : ~ (exists k, k < length prow /\ nth k prow 0%nat = i /\ nth k pcol 0%nat = j)).
        { intros (k & Hk & X1 & X2). assert (Y : existsb (fun k => ((nth k prow 0 =? i) && (nth k pcol 0 =? j))%nat%bool) (seq 0 (length prow)) = true); [ | congruence ].
          apply existsb_exists. exists k. split; [ apply in_seq; lia | ]. rewrite X1, X2, !Nat.eqb_refl. reflexivity. }
        rewrite (D6 i j Hi Hj N). apply ZE. exact N. }
    destruct (C34_union (pat_of (J_bc pb bs0 sym sol bc)) (pat_of E) m (pat_of_wf K _ VA) (pat_of_wf K _ VE) HM) as (G1 & G2 & _).
    eexists. eexists. split; [ unfold J_merged; cbv zeta; unfold jac_extra; rewrite PE, HM; reflexivity | ].
    split; [ exact VM | ]. split; [ exact VT | ].
    change (in_nr (pat_of (J_bc pb bs0 sym sol bc))) with n in G1. change (in_nc (pat_of (J_bc pb bs0 sym sol bc))) with n in G2.
    split; [ exact G1 | ]. split; [ exact G2 | ]. split; [ exact G2 | ]. split; [ exact G1 | ]. split.
    - intros i j Hi Hj. rewrite DM, (DE i j Hi Hj), (J_bc_full Hbs W Wb Hcov sol Hflag sym i j HV). apply elim_total.
    - intros i j Hi Hj. rewrite DT, (DE j i Hj Hi), (J_bc_full Hbs W Wb Hcov sol Hflag sym j i HV). apply elim_total.
  Qed.
  (** One exact step on affine terms. *)
  Variable extra : list K -> list K.
  Lemma total_res_row k : length (extra sol) = n -> k < length (bc_rows bc) ->
    get (total_res K Inp FInp pb bs0 (bc_rows bc) extra sol bc) (nth k (bc_rows bc) 0%nat) =
    get sol (nth k (bc_rows bc) 0%nat) - get (bc_vals bc) k.
  Proof.
    intros L Hk. unfold total_res, extra_res_bc. rewrite get_vadd by (rewrite apply_res_length, get_res_length, zero_at_length, L; reflexivity).
    rewrite (get_apply_res_row (get_res pb bs0 sol) sol 1 Wb (get_res_length _ _ _) Hk), zero_at_get by exact L.
    rewrite (mask_true _ Wb) by (apply nth_In; exact Hk). ring.
  Qed.
  Lemma total_res_free i : length (extra sol) = n -> i < n -> ~ In i (bc_rows bc) ->
    get (total_res K Inp FInp pb bs0 (bc_rows bc) extra sol bc) i = spec_res pb sol i + get (extra sol) i.
  Proof.
    intros L Hi Hn. unfold total_res, extra_res_bc. rewrite get_vadd by (rewrite apply_res_length, get_res_length, zero_at_length, L; reflexivity).
    rewrite (get_apply_res_free (get_res pb bs0 sol) sol 1 i Wb Hn), (get_res_spec Hbs W) by exact Hi.
    rewrite zero_at_get by exact L. rewrite (mask_false _ Wb Hn). reflexivity.
  Qed.
  Lemma step_core sym delta :
    affine_problem pb -> affine_extra pb extra etan -> length sol = n -> length (extra sol) = n -> length delta = n ->
    sym = false \/ (forall k, k < length (bc_rows bc) -> get sol (nth k (bc_rows bc) 0%nat) = get (bc_vals bc) k) ->
    (forall i, i < n -> sumf (fun j => eliminated sym B A i j * get delta j) (seq 0 n) =
                        - get (total_res K Inp FInp pb bs0 (bc_rows bc) extra sol bc) i) ->
    solves_total pb extra bc (vadd sol delta).
  Proof.
    intros Aff AffE Hs Le Hd Hsym Hex.
    assert (GA : forall i, get (vadd sol delta) i = get sol i + get delta i) by (intros i; apply get_vadd; congruence).
    assert (Drow : forall k, k < length (bc_rows bc) ->
              get delta (nth k (bc_rows bc) 0%nat) = get (bc_vals bc) k - get sol (nth k (bc_rows bc) 0%nat)).
    { intros k Hk. assert (Hr : nth k (bc_rows bc) 0%nat < n) by (apply (wb_range Wb), nth_In; exact Hk).
      specialize (Hex _ Hr). rewrite (elim_sum K _ _ sym (get delta) Hr) in Hex.
      rewrite (mask_true _ Wb) in Hex by (apply nth_In; exact Hk). rewrite Hex, (total_res_row k Le Hk). ring. }
    split.
    - intros k Hk. rewrite GA, Drow by exact Hk. ring.
    - intros i Hi Hn. specialize (Hex i Hi). rewrite (elim_sum K _ _ sym (get delta) Hi) in Hex.
      rewrite (mask_false _ Wb Hn), (total_res_free i Le Hi Hn) in Hex.
      rewrite (spec_res_affine W Aff sol (vadd sol delta) i).
      assert (Lv : length (vadd sol delta) = n) by (rewrite vadd_length; congruence).
      rewrite (AffE sol (vadd sol delta) i Hs Lv Hi).
      assert (S : sumf (fun j => spec_jac pb sol i j * (get (vadd sol delta) j - get sol j)) (seq 0 n) +
                  sumf (fun j => etan sol i j * (get (vadd sol delta) j - get sol j)) (seq 0 n) =
                  sumf (fun j => if sym && nth j (bc_mask bc) false then 0 else A i j * get delta j) (seq 0 n)).
      { rewrite <- sumf_add. apply sumf_ext. intros j _. rewrite GA. unfold total_jac.
        destruct (sym && nth j (bc_mask bc) false) eqn:E; [ | ring ].
        apply andb_true_iff in E. destruct E as [-> Ej]. destruct Hsym as [ | Hm ]; [ discriminate | ].
        apply (wb_mask Wb) in Ej. apply (In_nth _ _ 0%nat) in Ej. destruct Ej as [k [Hk <-]].
        rewrite Drow, (Hm k Hk) by exact Hk. ring. }
      rewrite Hex in S.
      transitivity (spec_res pb sol i + get (extra sol) i +
        (sumf (fun j => spec_jac pb sol i j * (get (vadd sol delta) j - get sol j)) (seq 0 n) +
         sumf (fun j => etan sol i j * (get (vadd sol delta) j - get sol j)) (seq 0 n))); [ ring | ].
      rewrite S. ring.
  Qed.

  (** The multiplier. *)
  Lemma correct_get sym v a j : length a = n -> j < n ->
    (forall j, j < n -> sumf (fun i => eliminated sym B A i j * get a i) (seq 0 n) = get v j) ->
    sumf (fun i => eliminated false B A i j * get (correct K Inp FInp pb bs0 sym (bc_rows bc) etan sol bc v a) i) (seq 0 n) = get v j.
  Proof.
    intros La Hj Hex. destruct sym; [ | apply Hex; exact Hj ].
    refine (corrected_multiplier K B A (get a) _ (get v) Hex _ Hj). clear j Hj. intros j Hj.
    unfold correct. cbv zeta. set (lf := zero_at K (bc_rows bc) a).
    assert (Ll : length lf = n) by (unfold lf; rewrite zero_at_length; exact La).
    set (c := vadd (rmatvec (get_jacobian pb bs0 sol) lf) (extra_rows_vjp K Inp FInp pb (bc_rows bc) etan sol lf)).
    rewrite (get_set_rows K a (bc_rows bc) (fun r => get v r - get c r) j) by (intros r Hr; rewrite La; apply (wb_range Wb _ Hr)).
    rewrite <- (mask_existsb j Wb). destruct (B j) eqn:Bj; [ | reflexivity ]. f_equal.
    unfold c. rewrite get_vadd.
    2:{ rewrite rmatvec_length. unfold extra_rows_vjp. rewrite extra_vjp_length. reflexivity. }
    rewrite (rmatvec_full Hbs W bc Hcov sol Hflag lf HV Hj), (rows_vjp_acts lf j Ll Hj), <- sumf_add.
    apply sumf_ext. intros i _. unfold lf. rewrite zero_at_get by exact La. unfold total_jac. destruct (B i); ring.
  Qed.
  Lemma correct_length sym v a : length (correct K Inp FInp pb bs0 sym (bc_rows bc) etan sol bc v a) = length a.
  Proof. unfold correct. destruct sym; [ apply scatter_set_length | reflexivity ]. Qed.

  Lemma cotangent_total lam v dR dvals du :
    length lam = n -> length dR = n ->
    (forall j, j < n -> sumf (fun i => eliminated false B A i j * get lam i) (seq 0 n) = get v j) ->
    response_total pb etan bc sol dR dvals du ->
    dot n v du =
    param_cotangent pb bc lam dR +
    sumf (fun k => get (vals_cotangent bc lam) k * get dvals k) (seq 0 (length (bc_rows bc))).
  Proof.
    intros Hl HdR Hlam [Rr Rf].
    assert (D : dot n v du = sumf (fun i => get lam i *
                 (if nth i (bc_mask bc) false then get du i else - get dR i)) (seq 0 n)).
    { apply (@duality K n B A (eliminated false B A) (get lam) (get v) (get du)); [ exact Hlam | ].
      intros i Hi. rewrite (elim_sum K _ _ false (get du) Hi). cbn [andb].
      destruct (nth i (bc_mask bc) false) eqn:Bi; [ reflexivity | ].
      assert (Ni : ~ In i (bc_rows bc)) by (intros H; apply (wb_mask Wb) in H; congruence).
      specialize (Rf i Hi Ni).
      transitivity ((sumf (fun j => A i j * get du j) (seq 0 n) + get dR i) - get dR i); [ ring | ].
      rewrite Rf. ring. }
    rewrite D. rewrite (sum_split K (fun i => nth i (bc_mask bc) false)).
    assert (E1 : sumf (fun k => get (vals_cotangent bc lam) k * get dvals k) (seq 0 (length (bc_rows bc))) =
                 sumf (fun i => if nth i (bc_mask bc) false
                    then get lam i * (if nth i (bc_mask bc) false then get du i else - get dR i) else 0) (seq 0 n)).
    { rewrite sumf_ext with (g := fun k => (fun r => get lam r * get du r) (nth k (bc_rows bc) 0%nat)).
      - rewrite (sumf_nth K (bc_rows bc) (fun r => get lam r * get du r)). rewrite (@sum_rows K (bc_rows bc) _ n (sorted_NoDup_rows Wb) (wb_range Wb)).
        apply sumf_ext. intros i _. rewrite <- (mask_existsb i Wb).
        destruct (nth i (bc_mask bc) false); reflexivity.
      - intros k Hk. apply in_seq in Hk. cbn beta. rewrite Rr by lia.
        unfold vals_cotangent, get at 1. rewrite nth_map_in with (d := 0%nat) by lia. ring. }
    rewrite E1.
    assert (E2 : param_cotangent pb bc lam dR =
                 sumf (fun i => if nth i (bc_mask bc) false then 0
                    else get lam i * (if nth i (bc_mask bc) false then get du i else - get dR i)) (seq 0 n)).
    { unfold param_cotangent. rewrite <- sumf_opp. apply sumf_ext. intros i _.
      rewrite (get_set_rows K dR (bc_rows bc) (fun _ => 0) i) by (intros r Hr; rewrite HdR; apply (wb_range Wb _ Hr)).
      rewrite <- (mask_existsb i Wb). destruct (nth i (bc_mask bc) false); ring. }
    rewrite E2. ring.
  Qed.
End Lemmas.

(** The setting of the theorems: a well formed problem with full storage, constrained rows that belong to
    some cell, the rows captured at construction, and a surface tangent that was not skipped wrongly. *)
Definition setting (K : CRing) (Inp FInp : Type) (pb : problem K Inp FInp) (bs0 : nat) (bc : dirichlet K) (rows : list nat) (sol : list K) : Prop :=
  0 < bs0 /\ wf_problem pb /\ wf_bc bc (pr_n pb) /\
  (forall r, In r (bc_rows bc) -> exists d, In d (pr_cells pb) /\ In r d) /\ pr_view pb = FULL /\ rows = bc_rows bc /\
  (pr_surface_jac_zero pb = false \/ (forall i j, spec_face_jac pb sol i j = c0)).
Arguments setting {K Inp FInp}.
Definition constrained {K : CRing} (bc : dirichlet K) (i : nat) : bool := existsb (Nat.eqb i) (bc_rows bc).
Lemma elim_constrained (K : CRing) (bc : dirichlet K) n sym (A : nat -> nat -> K) i j : wf_bc bc n ->
  eliminated sym (constrained bc) A i j = eliminated sym (fun r => nth r (bc_mask bc) false) A i j.
Proof. intro Wb. unfold eliminated, constrained. rewrite <- !(mask_existsb _ Wb). reflexivity. Qed.

(** ** The residual the loops drive to zero is the sum of both terms with the constraints *)
Theorem C95_residual : forall (K : CRing) (Inp FInp : Type) (pb : problem K Inp FInp) bs0 (bc : dirichlet K) rows sol (extra : list K -> list K),
  0 < bs0 -> wf_problem pb -> wf_bc bc (pr_n pb) -> rows = bc_rows bc -> length (extra sol) = pr_n pb ->
  ((forall i, i < pr_n pb -> get (total_res K Inp FInp pb bs0 rows extra sol bc) i = c0) <-> solves_total pb extra bc sol).
Proof.
  intros K Inp FInp pb bs0 bc rows sol extra Hbs W Wb -> L.
  split.
  - intro H. split.
    + intros k Hk. pose proof (total_res_row K Inp FInp pb bs0 bc Wb sol extra k L Hk) as E.
      rewrite H in E by (apply (wb_range Wb), nth_In; exact Hk).
      assert (X : forall a b : K, c0 = csub a b -> a = b).
      { intros a b Q. assert (a = cadd (csub a b) b) as ->; [ | rewrite <- Q ]; destruct (cth K).
        - rewrite Rsub_def, <- Radd_assoc, (Radd_comm (copp b)), Ropp_def, Radd_comm, Radd_0_l. reflexivity.
        - apply Radd_0_l. }
      exact (X _ _ E).
    + intros i Hi Hn. rewrite <- (total_res_free K Inp FInp pb bs0 Hbs W bc Wb sol extra i L Hi Hn). apply H; exact Hi.
  - intros [H1 H2] i Hi. destruct (in_dec Nat.eq_dec i (bc_rows bc)) as [Hin | Hn].
    + apply (In_nth _ _ 0) in Hin. destruct Hin as (k & Hk & <-).
      rewrite (total_res_row K Inp FInp pb bs0 bc Wb sol extra k L Hk), (H1 k Hk). destruct (cth K). rewrite Rsub_def. apply Ropp_def.
    + rewrite (total_res_free K Inp FInp pb bs0 Hbs W bc Wb sol extra i L Hi Hn). apply H2; assumption.
Qed.
Print Assumptions C95_residual.

(** ** Both tangents are the eliminated tangent of the sum, and both adjoint operators its transpose *)
Theorem C95_tangent : forall (K : CRing) (Inp FInp : Type) (pb : problem K Inp FInp) bs0 sym (bc : dirichlet K) rows sol
    (etan : list K -> nat -> nat -> K) prow pcol pval,
  setting pb bs0 bc rows sol ->
  let J := eliminated sym (constrained bc) (total_jac pb etan sol) in
  (forall v i, length v = pr_n pb -> i < pr_n pb ->
     get (hybrid_matvec K Inp FInp pb bs0 sym rows etan sol bc v) i = sumf (fun j => cmul (J i j) (get v j)) (seq 0 (pr_n pb)))
  /\ (forall w j, length w = pr_n pb -> j < pr_n pb ->
     get (adjoint_matvec K Inp FInp pb bs0 sym rows etan sol bc w) j = sumf (fun i => cmul (J i j) (get w i)) (seq 0 (pr_n pb)))
  /\ (detected pb prow pcol (pval sol) (cleared sym rows (etan sol)) ->
      exists M T, J_merged K Inp FInp pb bs0 sym prow pcol pval sol bc = Some (M, T) /\ valid_csr M /\ valid_csr T
      /\ (forall i j, i < pr_n pb -> j < pr_n pb -> todense M i j = J i j /\ todense T j i = J i j)).
Proof.
  intros K Inp FInp pb bs0 sym bc rows sol etan prow pcol pval (Hbs & W & Wb & Hcov & HV & -> & Hf) J.
  assert (EJ : forall i j, J i j = eliminated sym (fun r => nth r (bc_mask bc) false) (total_jac pb etan sol) i j)
    by (intros i j; apply (elim_constrained K bc (pr_n pb)); exact Wb).
  split; [ | split ].
  - intros v i Lv Hi. rewrite (hybrid_acts K Inp FInp pb bs0 Hbs W bc Wb Hcov HV sol Hf etan sym v i Lv Hi). apply sumf_ext. intros j _. rewrite EJ. reflexivity.
  - intros w j Lw Hj. rewrite (adjoint_acts K Inp FInp pb bs0 Hbs W bc Wb Hcov HV sol Hf etan sym w j Lw Hj). apply sumf_ext. intros i _. rewrite EJ. reflexivity.
  - intro D. destruct (merged_exists K Inp FInp pb bs0 Hbs W bc Wb Hcov HV sol Hf etan prow pcol pval sym D) as (M & T & E & VM & VT & _ & _ & _ & _ & DM & DT).
    exists M, T. split; [ exact E | ]. split; [ exact VM | ]. split; [ exact VT | ].
    intros i j Hi Hj. rewrite EJ. split; [ apply DM; assumption | apply DT; assumption ].
Qed.
Print Assumptions C95_tangent.

(** ** One full step solves a problem with affine terms: from any guess with row elimination, from a guess
    that meets the prescribed values with symmetric elimination *)
Definition admissible {K : CRing} (sym : bool) (bc : dirichlet K) (sol : list K) : Prop :=
  sym = false \/ (forall k, k < length (bc_rows bc) -> get sol (nth k (bc_rows bc) 0) = get (bc_vals bc) k).
Theorem C95_step_direct : forall (K : CRing) (Inp FInp : Type) (pb : problem K Inp FInp) bs0 sym (bc : dirichlet K) rows sol extra
    (etan : list K -> nat -> nat -> K) solve prow pcol pval du,
  setting pb bs0 bc rows sol -> affine_problem pb -> affine_extra pb extra etan ->
  length sol = pr_n pb -> length (extra sol) = pr_n pb -> admissible sym bc sol ->
  detected pb prow pcol (pval sol) (cleared sym rows (etan sol)) ->
  direction_direct K Inp FInp pb bs0 sym rows extra solve prow pcol pval sol bc = Some du ->
  (forall M T, J_merged K Inp FInp pb bs0 sym prow pcol pval sol bc = Some (M, T) ->
     exact_csr (pr_n pb) M (solve M (vneg (total_res K Inp FInp pb bs0 rows extra sol bc))) (vneg (total_res K Inp FInp pb bs0 rows extra sol bc))) ->
  solves_total pb extra bc (vadd sol du).
Proof.
  intros K Inp FInp pb bs0 sym bc rows sol extra etan solve prow pcol pval du (Hbs & W & Wb & Hcov & HV & -> & Hf) Aff AffE Ls Le Hadm D Hdu Hex.
  destruct (merged_exists K Inp FInp pb bs0 Hbs W bc Wb Hcov HV sol Hf etan prow pcol pval sym D) as (M & T & E & VM & VT & N1 & N2 & _ & _ & DM & DT).
  unfold direction_direct in Hdu. rewrite E in Hdu. cbn [option_map fst] in Hdu. injection Hdu as <-.
  destruct (Hex M T E) as [Hl H].
  apply (step_core K Inp FInp pb bs0 Hbs W bc Wb sol etan extra sym _ Aff AffE Ls Le Hl Hadm).
  intros i Hi. rewrite <- (csr_acts K (pr_n pb) M _ _ i VM N1 N2 DM Hi), (H i Hi). apply get_vneg.
Qed.
Print Assumptions C95_step_direct.
Theorem C95_step_hybrid : forall (K : CRing) (Inp FInp : Type) (pb : problem K Inp FInp) bs0 sym (bc : dirichlet K) rows sol extra
    (etan : list K -> nat -> nat -> K) ksolve,
  setting pb bs0 bc rows sol -> affine_problem pb -> affine_extra pb extra etan ->
  length sol = pr_n pb -> length (extra sol) = pr_n pb -> admissible sym bc sol ->
  (let A := hybrid_matvec K Inp FInp pb bs0 sym rows etan sol bc in let b := vneg (total_res K Inp FInp pb bs0 rows extra sol bc) in
   exact_op (pr_n pb) A (ksolve A b) b) ->
  solves_total pb extra bc (vadd sol (direction_hybrid K Inp FInp pb bs0 sym rows extra etan ksolve sol bc)).
Proof.
  intros K Inp FInp pb bs0 sym bc rows sol extra etan ksolve (Hbs & W & Wb & Hcov & HV & -> & Hf) Aff AffE Ls Le Hadm [Hl H].
  unfold direction_hybrid.
  apply (step_core K Inp FInp pb bs0 Hbs W bc Wb sol etan extra sym _ Aff AffE Ls Le Hl Hadm).
  intros i Hi. rewrite <- (hybrid_acts K Inp FInp pb bs0 Hbs W bc Wb Hcov HV sol Hf etan sym _ i Hl Hi), (H i Hi). apply get_vneg.
Qed.
Print Assumptions C95_step_hybrid.

(** ** The backward pass is exact for every tangent, symmetric or not, with a direct or a Krylov adjoint:
    its multiplier solves the transposed row-eliminated system of the sum, and the cotangents give the
    derivative along every first-order response, for parameters and for prescribed values *)
Theorem C95_adjoint : forall (K : CRing) (Inp FInp : Type) (pb : problem K Inp FInp) bs0 (sym direct : bool) (bc : dirichlet K) rows sol
    (etan : list K -> nat -> nat -> K) solve ksolve prow pcol pval v,
  setting pb bs0 bc rows sol ->
  (if direct
   then detected pb prow pcol (pval sol) (cleared sym rows (etan sol)) /\
        (forall M T, J_merged K Inp FInp pb bs0 sym prow pcol pval sol bc = Some (M, T) -> exact_csr (pr_n pb) T (solve T v) v)
   else let A := adjoint_matvec K Inp FInp pb bs0 sym rows etan sol bc in exact_op (pr_n pb) A (ksolve A v) v) ->
  exists lam, extra_multiplier K Inp FInp pb bs0 sym rows etan solve ksolve prow pcol pval direct sol bc v = Some lam /\
  (forall j, j < pr_n pb ->
     sumf (fun i => cmul (eliminated false (constrained bc) (total_jac pb etan sol) i j) (get lam i)) (seq 0 (pr_n pb)) = get v j) /\
  (forall dR dvals du, length dR = pr_n pb -> response_total pb etan bc sol dR dvals du ->
     dot (pr_n pb) v du =
     cadd (param_cotangent pb bc lam dR)
          (sumf (fun k => cmul (get (vals_cotangent bc lam) k) (get dvals k)) (seq 0 (length (bc_rows bc))))).
Proof.
  intros K Inp FInp pb bs0 sym direct bc rows sol etan solve ksolve prow pcol pval v (Hbs & W & Wb & Hcov & HV & -> & Hf) Hex.
  assert (X : exists a, raw_multiplier K Inp FInp pb bs0 sym (bc_rows bc) etan solve ksolve prow pcol pval direct sol bc v = Some a /\ length a = pr_n pb /\
     (forall j, j < pr_n pb -> sumf (fun i => cmul (eliminated sym (fun r => nth r (bc_mask bc) false) (total_jac pb etan sol) i j) (get a i)) (seq 0 (pr_n pb)) = get v j)).
  { destruct direct.
    - destruct Hex as [D Hex].
      destruct (merged_exists K Inp FInp pb bs0 Hbs W bc Wb Hcov HV sol Hf etan prow pcol pval sym D) as (M & T & E & VM & VT & _ & _ & N1 & N2 & DM & DT).
      destruct (Hex M T E) as [Hl H]. exists (solve T v). split; [ unfold raw_multiplier; rewrite E; reflexivity | ]. split; [ exact Hl | ].
      intros j Hj. rewrite <- (H j Hj). symmetry.
      exact (csr_acts K (pr_n pb) T (fun j i => eliminated sym (fun r => nth r (bc_mask bc) false) (total_jac pb etan sol) i j) (solve T v) j VT N1 N2 DT Hj).
    - destruct Hex as [Hl H]. eexists. split; [ reflexivity | ]. split; [ exact Hl | ].
      intros j Hj. rewrite <- (H j Hj). symmetry. exact (adjoint_acts K Inp FInp pb bs0 Hbs W bc Wb Hcov HV sol Hf etan sym _ j Hl Hj). }
  destruct X as (a & Ea & La & Ha). unfold extra_multiplier. rewrite Ea. eexists. split; [ reflexivity | ].
  assert (T := fun j Hj => correct_get K Inp FInp pb bs0 Hbs W bc Wb Hcov HV sol Hf etan sym v a j La Hj Ha). split.
  - intros j Hj. rewrite <- (T j Hj). apply sumf_ext. intros i _. rewrite (elim_constrained K bc (pr_n pb)) by exact Wb. reflexivity.
  - intros dR dvals du HdR HR.
    eapply cotangent_total; try eassumption.
    rewrite correct_length. exact La.
Qed.
Print Assumptions C95_adjoint.

(** ** With triangular storage the hybrid product is not the tangent, and nothing rejects it *)
Definition spring (u : list Z) : list Z := [5 * nth 1 u 0; 2 * nth 0 u 0; - nth 2 u 0]%Z.
Definition spring_tan (_ : list Z) (i j : nat) : Z :=
  match i, j with O, S O => 5%Z | S O, O => 2%Z | S (S O), S (S O) => (-1)%Z | _, _ => 0%Z end.
Theorem C95_triangular_refuted : exists (pb : problem ZK Z Z) (bc : dirichlet ZK) (sol v : list ZK),
  wf_problem pb /\ wf_bc bc (pr_n pb) /\ pr_view pb = UPPER /\ length v = pr_n pb /\
  (forall i j, i < pr_n pb -> j < pr_n pb -> spec_jac pb sol i j = spec_jac pb sol j i) /\
  exists i, i < pr_n pb /\
  get (hybrid_matvec ZK Z Z pb 256 true (bc_rows bc) spring_tan sol bc v) i <>
  sumf (fun j => cmul (eliminated true (constrained bc) (total_jac pb (spring_tan : list ZK -> nat -> nat -> ZK) sol) i j) (get v j)) (seq 0 (pr_n pb)).
Proof.
  exists (chain UPPER 1 (-1) (-1) 1), (chain_bc 5), [5; 11; 14]%Z, [0; 1; 0]%Z.
  split; [ apply chain_wf | ]. split; [ apply chain_bc_wf | ]. split; [ reflexivity | ]. split; [ reflexivity | ]. split.
  - intros [|[|[|i]]] [|[|[|j]]] Hi Hj; cbn in *; try lia; vm_compute; reflexivity.
  - exists 2. split; [ cbn; lia | ]. vm_compute. discriminate.
Qed.
Print Assumptions C95_triangular_refuted.

(** Hypotheses met by a chain of two springs with an extra coupling that touches the constrained DOF. *)
Definition inv_spring (b : list Z) : list Z := [nth 0 b 0; - nth 2 b 0; - nth 1 b 0 - 2 * nth 2 b 0]%Z.
Example C95_spring_example :
  let pb := chain FULL 1 (-1) (-1) 1 in let bc := chain_bc 5 in let sol := [5; 0; 0]%Z : list ZK in
  let prow := [2] in let pcol := [2] in let pval := fun _ : list ZK => [-1]%Z : list ZK in
  setting pb 256 bc [0] sol /\ affine_problem pb /\ affine_extra pb (spring : list ZK -> list ZK) (spring_tan : list ZK -> nat -> nat -> ZK) /\
  admissible true bc sol /\ detected pb prow pcol (pval sol) (cleared true [0] (spring_tan sol : nat -> nat -> ZK)) /\
  (exists du, direction_direct ZK Z Z pb 256 true [0] spring (fun _ => inv_spring) prow pcol pval sol bc = Some du /\
     solves_total pb (spring : list ZK -> list ZK) bc (vadd sol du)) /\
  extra_multiplier ZK Z Z pb 256 true [0] spring_tan (fun _ => inv_spring) (fun _ => inv_spring) prow pcol pval true sol bc [0; 0; 1]%Z = Some [1; -1; -2]%Z /\
  extra_multiplier ZK Z Z pb 256 true [0] spring_tan (fun _ => inv_spring) (fun _ => inv_spring) prow pcol pval false sol bc [0; 0; 1]%Z = Some [1; -1; -2]%Z.
Proof.
  cbv zeta.
  assert (S : setting (chain FULL 1 (-1) (-1) 1) 256 (chain_bc 5) [0] ([5; 0; 0]%Z : list ZK)).
  { split; [ lia | ]. split; [ apply chain_wf | ]. split; [ apply chain_bc_wf | ]. split; [ intro r; apply chain_cov | ]. split; [ reflexivity | ]. split; [ reflexivity | left; reflexivity ]. }
  assert (AE : affine_extra (chain FULL 1 (-1) (-1) 1) (spring : list ZK -> list ZK) (spring_tan : list ZK -> nat -> nat -> ZK)).
  { intros u u' i Lu Lu' Hi. cbn in Lu, Lu', Hi.
    destruct u as [|a [|b [|c [|]]]]; try discriminate. destruct u' as [|a' [|b' [|c' [|]]]]; try discriminate.
    destruct i as [|[|[|i]]]; [ | | | lia ]; cbv -[Z.add Z.mul Z.sub Z.opp]; ring. }
  assert (D : detected (chain FULL 1 (-1) (-1) 1) [2] [2] ([-1]%Z : list ZK) (cleared true [0] (spring_tan ([5; 0; 0]%Z) : nat -> nat -> ZK))).
  { split; [ reflexivity | ]. split; [ reflexivity | ]. split; [ intros r [<- | []]; cbn; lia | ]. split; [ intros r [<- | []]; cbn; lia | ]. split.
    - intros [|k] Hk; cbn in Hk; [ reflexivity | lia ].
    - intros [|[|[|i]]] [|[|[|j]]] Hi Hj N; cbn in Hi, Hj; try lia; try reflexivity. exfalso. apply N. exists 0. cbn. lia. }
  split; [ exact S | ]. split; [ apply chain_affine | ]. split; [ exact AE | ]. split.
  { right. intros [|k] Hk; cbn in Hk; [ reflexivity | lia ]. }
  split; [ exact D | ]. split; [ | split; vm_compute; reflexivity ].
  eexists. split; [ vm_compute; reflexivity | ].
  split.
  - intros [|k] Hk; cbn in Hk; [ reflexivity | lia ].
  - intros [|[|[|i]]] Hi; cbn in *; try lia; intros; vm_compute; reflexivity.
Qed.
