(** Properties C14, C15, C16 (linear solve and adjoints). *)
From Verif Require Import Base Csr_Model Csr_Proofs Ops_Proofs Assembly_Model Assembly_Spec
     Assembly_Proofs AssemblyMain_Proofs Values_Proofs Csr_Props Assembly_Props
     Dof_Model Dof_Spec Dof_Proofs Bc_Model Bc_Proofs BcCreate_Proofs Bc_Props
     LinSolve_Model LinSolve_Spec LinSolve_Proofs.
From Coq Require Import ZifyBool ZifyNat.
Set Implicit Arguments.

(** The linear solver did its job on this call. *)
Definition exact_csr (K : CRing) (n : nat) (A : csr K) (x b : list K) : Prop :=
  length x = n /\ forall i, i < n -> get (matvec A x) i = get b i.
Definition exact_op (K : CRing) (n : nat) (A : list K -> list K) (x b : list K) : Prop :=
  length x = n /\ forall i, i < n -> get (A x) i = get b i.

Arguments exact_csr {K} n A x b. Arguments exact_op {K} n A x b.

Section Lemmas.
  Variable K : CRing.
  Local Open Scope ring_K.
  Add Ring KringLP : (cth K).
  Lemma ring_x0 (v g : K) : v + (- g) = - (g - v * 1). Proof. ring. Qed.
  Lemma ring_m1 (a : K) : a * 1 = a. Proof. ring. Qed.
  Lemma ring_m0 (a : K) : a * 0 = 0. Proof. ring. Qed.
  Lemma ring_zz : (0 + - 0 : K) = 0. Proof. ring. Qed.
  Variables (Inp FInp : Type) (pb : problem K Inp FInp) (bs0 : nat).
  Hypothesis Hbs : 0 < bs0.
  Hypothesis W : wf_problem pb.
  Variable bc : dirichlet K.
  Local Notation n := (pr_n pb).
  Hypothesis Wb : wf_bc bc n.
  Local Notation B := (fun i => nth i (bc_mask bc) false).

  Lemma not_masked i : ~ In i (bc_rows bc) -> nth i (bc_mask bc) false = false.
  Proof. apply (mask_false i Wb). Qed.
  Lemma masked_row k : k < length (bc_rows bc) -> nth (nth k (bc_rows bc) 0%nat) (bc_mask bc) false = true.
  Proof. intros Hk. apply (mask_true _ Wb). apply nth_In. exact Hk. Qed.

  Definition meets_values (sol : list K) : Prop :=
    forall k, k < length (bc_rows bc) -> get sol (nth k (bc_rows bc) 0%nat) = get (bc_vals bc) k.

  Lemma forward_core sym guess delta :
    affine_problem pb -> length guess = n -> length delta = n ->
    sym = false \/ meets_values guess ->
    (forall i, i < n -> sumf (fun j => eliminated sym B (spec_jac pb guess) i j * get delta j) (seq 0 n) =
                        - get (apply_res bc (get_res pb bs0 guess) guess 1) i) ->
    solves_problem pb bc (vadd guess delta).
  Proof.
    intros Aff Hg Hd Hsym Hex.
    assert (GA : forall i, get (vadd guess delta) i = get guess i + get delta i)
      by (intros i; apply get_vadd; congruence).
    assert (Hlen : length (get_res pb bs0 guess) = n) by apply get_res_length.
    assert (Drow : forall k, k < length (bc_rows bc) ->
              get delta (nth k (bc_rows bc) 0%nat) = get (bc_vals bc) k - get guess (nth k (bc_rows bc) 0%nat)).
    { intros k Hk. specialize (Hex (nth k (bc_rows bc) 0%nat)).
      assert (Hr : nth k (bc_rows bc) 0%nat < n) by (apply (wb_range Wb), nth_In; exact Hk).
      specialize (Hex Hr). rewrite (elim_sum K _ _ sym (get delta) Hr) in Hex.
      rewrite (masked_row Hk) in Hex. rewrite Hex.
      rewrite (get_apply_res_row (get_res pb bs0 guess) guess 1 Wb Hlen Hk). ring. }
    split.
    - intros k Hk. rewrite GA, Drow by exact Hk. ring.
    - intros i Hi Hn.
      rewrite (spec_res_affine W Aff guess (vadd guess delta) i).
      specialize (Hex i Hi). rewrite (elim_sum K _ _ sym (get delta) Hi) in Hex.
      rewrite (not_masked _ Hn) in Hex.
      rewrite (get_apply_res_free (get_res pb bs0 guess) guess 1 i Wb Hn) in Hex.
      rewrite (get_res_spec Hbs W) in Hex by exact Hi.
      rewrite sumf_ext with (g := fun j => if sym && nth j (bc_mask bc) false then 0 else spec_jac pb guess i j * get delta j).
      + rewrite Hex. ring.
      + intros j _. rewrite GA. destruct (sym && nth j (bc_mask bc) false) eqn:E; [|ring].
        apply andb_true_iff in E. destruct E as [-> Ej].
        destruct Hsym as [|Hm]; [discriminate|].
        apply (wb_mask Wb) in Ej. apply (In_nth _ _ 0%nat) in Ej. destruct Ej as [k [Hk <-]].
        rewrite Drow, (Hm k Hk) by exact Hk. ring.
  Qed.

  (** Cotangent identity for a multiplier of the row-eliminated operator. *)
  Lemma cotangent_core sol lam v dR dvals du :
    length lam = n -> length dR = n ->
    (forall j, j < n -> sumf (fun i => eliminated false B (spec_jac pb sol) i j * get lam i) (seq 0 n) = get v j) ->
    response pb bc sol dR dvals du ->
    dot n v du =
    param_cotangent pb bc lam dR +
    sumf (fun k => get (vals_cotangent bc lam) k * get dvals k) (seq 0 (length (bc_rows bc))).
  Proof.
    intros Hl HdR Hlam [Rr Rf].
    assert (D : dot n v du = sumf (fun i => get lam i *
                 (if nth i (bc_mask bc) false then get du i else - get dR i)) (seq 0 n)).
    { apply (@duality K n B (spec_jac pb sol) (eliminated false B (spec_jac pb sol)) (get lam) (get v) (get du)); [exact Hlam|].
      intros i Hi. rewrite (elim_sum K _ _ false (get du) Hi). cbn [andb].
      destruct (nth i (bc_mask bc) false) eqn:Bi; [reflexivity|].
      assert (Ni : ~ In i (bc_rows bc)) by (intros H; apply (wb_mask Wb) in H; congruence).
      specialize (Rf i Hi Ni).
      transitivity ((sumf (fun j => spec_jac pb sol i j * get du j) (seq 0 n) + get dR i) - get dR i); [ring|].
      rewrite Rf. ring. }
    rewrite D. rewrite (sum_split K (fun i => nth i (bc_mask bc) false)).
    assert (E1 : sumf (fun k => get (vals_cotangent bc lam) k * get dvals k) (seq 0 (length (bc_rows bc))) =
                 sumf (fun i => if nth i (bc_mask bc) false
                    then get lam i * (if nth i (bc_mask bc) false then get du i else - get dR i) else 0) (seq 0 n)).
    { rewrite sumf_ext with (g := fun k => (fun r => get lam r * get du r) (nth k (bc_rows bc) 0%nat)).
      - rewrite (sumf_nth K (bc_rows bc) (fun r => get lam r * get du r)). rewrite (@sum_rows K (bc_rows bc) _ n (sorted_NoDup_rows Wb) (wb_range Wb)).
        apply sumf_ext. intros i _. rewrite <- (mask_existsb i Wb).
        destruct (nth i (bc_mask bc) false); reflexivity.
      - intros k Hk. apply in_seq in Hk. cbn beta. rewrite Rr by lia.
        unfold vals_cotangent, get at 1. rewrite nth_map_in with (d := 0%nat) by lia. ring. }
    rewrite E1.
    assert (E2 : param_cotangent pb bc lam dR =
                 sumf (fun i => if nth i (bc_mask bc) false then 0
                    else get lam i * (if nth i (bc_mask bc) false then get du i else - get dR i)) (seq 0 n)).
    { unfold param_cotangent. rewrite <- sumf_opp. apply sumf_ext. intros i _.
      rewrite (get_set_rows K dR (bc_rows bc) (fun _ => 0) i) by (intros r Hr; rewrite HdR; apply (wb_range Wb _ Hr)).
      rewrite <- (mask_existsb i Wb). destruct (nth i (bc_mask bc) false); ring. }
    rewrite E2. ring.
  Qed.

  (** The same for a multiplier of the symmetrically eliminated operator, when the
      prescribed values do not move. *)
  Lemma cotangent_core_sym sol lam v dR du :
    length lam = n -> length dR = n ->
    (forall j, j < n -> sumf (fun i => eliminated true B (spec_jac pb sol) i j * get lam i) (seq 0 n) = get v j) ->
    response pb bc sol dR (zeros (length (bc_rows bc))) du ->
    dot n v du = param_cotangent pb bc lam dR.
  Proof.
    intros Hl HdR Hlam [Rr Rf].
    assert (Du0 : forall i, nth i (bc_mask bc) false = true -> get du i = 0).
    { intros i Hi. apply (wb_mask Wb) in Hi. apply (In_nth _ _ 0%nat) in Hi. destruct Hi as [k [Hk <-]].
      rewrite Rr by exact Hk. apply get_zeros. }
    unfold dot.
    rewrite (@duality K n B (spec_jac pb sol) (eliminated true B (spec_jac pb sol)) (get lam) (get v) (get du)
               (fun i => if nth i (bc_mask bc) false then 0 else - get dR i)); [|exact Hlam|].
    - unfold param_cotangent. rewrite <- sumf_opp. apply sumf_ext. intros i _.
      rewrite (get_set_rows K dR (bc_rows bc) (fun _ => 0) i) by (intros r Hr; rewrite HdR; apply (wb_range Wb _ Hr)).
      rewrite <- (mask_existsb i Wb). destruct (nth i (bc_mask bc) false); ring.
    - intros i Hi. rewrite (elim_sum K _ _ true (get du) Hi). cbn [andb].
      destruct (nth i (bc_mask bc) false) eqn:Bi; [apply Du0; exact Bi|].
      assert (Ni : ~ In i (bc_rows bc)) by (intros H; apply (wb_mask Wb) in H; congruence).
      specialize (Rf i Hi Ni).
      rewrite sumf_ext with (g := fun j => spec_jac pb sol i j * get du j).
      + transitivity ((sumf (fun j => spec_jac pb sol i j * get du j) (seq 0 n) + get dR i) - get dR i); [ring|].
        rewrite Rf. ring.
      + intros j _. destruct (nth j (bc_mask bc) false) eqn:Bj; [rewrite (Du0 j Bj); ring | reflexivity].
  Qed.

  Lemma sym_elim_symmetric sol : free_block_symmetric pb bc sol ->
    forall i j, i < n -> j < n ->
    eliminated true B (spec_jac pb sol) i j = eliminated true B (spec_jac pb sol) j i.
  Proof.
    intros H i j Hi Hj. unfold eliminated. cbn [andb]. rewrite (Nat.eqb_sym j i).
    destruct (nth i (bc_mask bc) false) eqn:Bi, (nth j (bc_mask bc) false) eqn:Bj; try reflexivity.
    - destruct (Nat.eqb_spec i j); [subst; congruence|reflexivity].
    - destruct (Nat.eqb_spec i j); [subst; congruence|reflexivity].
    - apply H; auto; intros Hin; apply (wb_mask Wb) in Hin; congruence.
  Qed.

  (** What the correction step does. *)
  Lemma newton_multiplier_get direct solve ksolve sol v j :
    let a := linear_multiplier pb bs0 true solve ksolve direct sol bc v in
    length a = n -> j < n ->
    (forall w j, j < n ->
       get (if direct then rmatvec (get_jacobian pb bs0 sol) w else residual_vjp pb bs0 sol w) j =
       sumf (fun i => spec_jac pb sol i j * get w i) (seq 0 n)) ->
    get (newton_multiplier pb bs0 true solve ksolve direct sol bc v) j =
    if nth j (bc_mask bc) false
    then get v j - sumf (fun i => if nth i (bc_mask bc) false then 0 else spec_jac pb sol i j * get a i) (seq 0 n)
    else get a j.
  Proof.
    intros a Ha Hj HK. unfold newton_multiplier. fold a.
    rewrite (get_set_rows K a (bc_rows bc) (fun r => get v r - get
       (if direct then rmatvec (get_jacobian pb bs0 sol) (scatter_set a (map (fun r => (r, 0)) (bc_rows bc)))
        else residual_vjp pb bs0 sol (scatter_set a (map (fun r => (r, 0)) (bc_rows bc)))) r) j)
      by (intros r Hr; rewrite Ha; apply (wb_range Wb _ Hr)).
    rewrite <- (mask_existsb j Wb). destruct (nth j (bc_mask bc) false); [|reflexivity].
    f_equal. rewrite HK by exact Hj. apply sumf_ext. intros i _.
    rewrite (get_set_rows K a (bc_rows bc) (fun _ => 0) i) by (intros r Hr; rewrite Ha; apply (wb_range Wb _ Hr)).
    rewrite <- (mask_existsb i Wb). destruct (nth i (bc_mask bc) false); ring.
  Qed.

  Lemma newton_multiplier_length direct sym solve ksolve sol v :
    length (newton_multiplier pb bs0 sym solve ksolve direct sol bc v) =
    length (linear_multiplier pb bs0 sym solve ksolve direct sol bc v).
  Proof. unfold newton_multiplier. destruct sym; [apply scatter_set_length | reflexivity]. Qed.
End Lemmas.

(** ** C14: one linear solve satisfies the discrete equations. *)

(** Direct solver, full storage. *)
Theorem C14_direct :
  forall (K : CRing) (Inp FInp : Type) (pb : problem K Inp FInp) (bs0 : nat) (sym : bool)
         (solve : csr K -> list K -> list K) (guess : list K) (bc : dirichlet K),
  0 < bs0 -> wf_problem pb -> affine_problem pb -> wf_bc bc (pr_n pb) -> length guess = pr_n pb ->
  (forall r, In r (bc_rows bc) -> exists d, In d (pr_cells pb) /\ In r d) ->
  pr_view pb = FULL ->
  pr_surface_jac_zero pb = false \/ (forall i j, spec_face_jac pb guess i j = c0) ->
  (let b := vneg (apply_res bc (get_res pb bs0 guess) guess c1) in
   let A := J_bc pb bs0 sym guess bc in exact_csr (pr_n pb) A (solve A b) b) ->
  sym = false \/ (forall k, k < length (bc_rows bc) -> get guess (nth k (bc_rows bc) 0) = get (bc_vals bc) k) ->
  solves_problem pb bc (linear_direct pb bs0 sym solve guess bc).
Proof.
  intros K Inp FInp pb bs0 sym solve guess bc Hbs W Aff Wb Hg Hcov HV Hf [Hl Hex] Hsym.
  unfold linear_direct. apply (@forward_core _ _ _ pb bs0 Hbs W bc Wb sym guess _ Aff Hg Hl Hsym).
  intros i Hi. rewrite <- (J_bc_acts Hbs W Wb Hcov guess Hf sym _ HV Hi).
  rewrite (Hex i Hi). apply get_vneg.
Qed.
Print Assumptions C14_direct.

(** Krylov solver (matrix-free), any storage view. *)
Theorem C14_krylov :
  forall (K : CRing) (Inp FInp : Type) (pb : problem K Inp FInp) (bs0 : nat) (sym : bool)
         (ksolve : (list K -> list K) -> list K -> list K) (guess : list K) (bc : dirichlet K),
  0 < bs0 -> wf_problem pb -> affine_problem pb -> wf_bc bc (pr_n pb) -> length guess = pr_n pb ->
  (let b := vneg (fst (matfree_res_J pb bs0 sym guess bc)) in
   let A := snd (matfree_res_J pb bs0 sym guess bc) in exact_op (pr_n pb) A (ksolve A b) b) ->
  sym = false \/ (forall k, k < length (bc_rows bc) -> get guess (nth k (bc_rows bc) 0) = get (bc_vals bc) k) ->
  solves_problem pb bc (linear_krylov pb bs0 sym ksolve guess bc).
Proof.
  intros K Inp FInp pb bs0 sym ksolve guess bc Hbs W Aff Wb Hg [Hl Hex] Hsym.
  unfold linear_krylov. apply (@forward_core _ _ _ pb bs0 Hbs W bc Wb sym guess _ Aff Hg Hl Hsym).
  intros i Hi. rewrite <- (matfree_acts Hbs W bc sym guess _ Hi).
  rewrite (Hex i Hi). apply get_vneg.
Qed.
Print Assumptions C14_krylov.

(** Calling the solver without a guess and without a BC override always starts
    from an admissible guess, so both elimination modes are exact. *)
Theorem C14_default_call :
  forall (K : CRing) (Inp FInp : Type) (pb : problem K Inp FInp) (bs0 : nat) (sym : bool)
         solve (ksolve : (list K -> list K) -> list K -> list K) (bc : dirichlet K),
  0 < bs0 -> wf_problem pb -> affine_problem pb -> wf_bc bc (pr_n pb) ->
  let guess := zero_like_initial_guess (pr_n pb) bc in
  (let b := vneg (fst (matfree_res_J pb bs0 sym guess bc)) in
   let A := snd (matfree_res_J pb bs0 sym guess bc) in exact_op (pr_n pb) A (ksolve A b) b) ->
  solves_problem pb bc (linear_solver pb bs0 sym solve ksolve false bc None None).
Proof.
  intros K Inp FInp pb bs0 sym solve ksolve bc Hbs W Aff Wb guess Hex.
  unfold linear_solver. apply C14_krylov; auto.
  - unfold zero_like_initial_guess. rewrite scatter_set_length. unfold zeros. apply repeat_length.
  - right. intros k Hk. apply (guess_row Wb Hk).
Qed.
Print Assumptions C14_default_call.

(** The starting increment [create_x0] already holds the exact increment's
    constrained entries, and is zero elsewhere. *)
Theorem C14_x0 :
  forall (K : CRing) (Inp FInp : Type) (pb : problem K Inp FInp) (bs0 : nat) (sym : bool)
         (guess delta : list K) (bc : dirichlet K),
  0 < bs0 -> wf_problem pb -> wf_bc bc (pr_n pb) -> length guess = pr_n pb ->
  (let b := vneg (fst (matfree_res_J pb bs0 sym guess bc)) in
   exact_op (pr_n pb) (snd (matfree_res_J pb bs0 sym guess bc)) delta b) ->
  (forall k, k < length (bc_rows bc) ->
     get (create_x0 bc guess) (nth k (bc_rows bc) 0) = get delta (nth k (bc_rows bc) 0)) /\
  (forall i, ~ In i (bc_rows bc) -> get (create_x0 bc guess) i = c0).
Proof.
  intros K Inp FInp pb bs0 sym guess delta bc Hbs W Wb Hg [Hl Hex].
  assert (X : forall i, get (create_x0 bc guess) i =
     cadd (get (zero_like_initial_guess (pr_n pb) bc) i)
          (copp (get (scatter_set (zeros (pr_n pb)) (map (fun r => (r, get guess r)) (bc_rows bc))) i))).
  { intros i. unfold create_x0. rewrite Hg. unfold vsub.
    rewrite get_vadd; [rewrite get_vneg; reflexivity|].
    rewrite vneg_length, !scatter_set_length. reflexivity. }
  assert (Z : forall i, get (scatter_set (zeros (pr_n pb)) (map (fun r => (r, get guess r)) (bc_rows bc))) i =
                        if existsb (Nat.eqb i) (bc_rows bc) then get guess i else c0).
  { intros i. rewrite get_set_rows.
    - destruct (existsb _ _); [reflexivity|apply get_zeros].
    - intros r Hr. unfold zeros. rewrite repeat_length. apply (wb_range Wb _ Hr). }
  split.
  - intros k Hk. set (r := nth k (bc_rows bc) 0).
    assert (Hr : r < pr_n pb) by (apply (wb_range Wb), nth_In; exact Hk).
    rewrite X, Z, <- (mask_existsb r Wb).
    unfold r at 1 2. rewrite (guess_row Wb Hk). fold r.
    rewrite (mask_true r Wb) by (apply nth_In; exact Hk).
    specialize (Hex r Hr). rewrite (matfree_acts Hbs W bc sym guess delta Hr) in Hex.
    rewrite (elim_sum K _ _ sym (get delta) Hr) in Hex.
    rewrite (mask_true r Wb) in Hex by (apply nth_In; exact Hk).
    rewrite Hex, get_vneg. cbn [matfree_res_J fst].
    unfold r. rewrite (get_apply_res_row (get_res pb bs0 guess) guess c1 Wb (get_res_length _ _ _) Hk).
    apply (ring_x0 K).
  - intros i Hi. rewrite X, (guess_free i Wb Hi), Z, <- (mask_existsb i Wb), (mask_false i Wb Hi). apply (ring_zz K).
Qed.

Print Assumptions C14_x0.

(** ** C15: the Newton adjoint is exact. *)

(** Direct adjoint, full storage, both elimination modes: the returned multiplier
    solves the transposed row-eliminated system, and its cotangents reproduce the
    derivative of every linear functional [v] of the solution along every
    first-order response. *)
Theorem C15_direct :
  forall (K : CRing) (Inp FInp : Type) (pb : problem K Inp FInp) (bs0 : nat) (sym : bool)
         (solve : csr K -> list K -> list K) ksolve (sol : list K) (bc : dirichlet K) (v : list K),
  0 < bs0 -> wf_problem pb -> wf_bc bc (pr_n pb) ->
  (forall r, In r (bc_rows bc) -> exists d, In d (pr_cells pb) /\ In r d) ->
  pr_view pb = FULL ->
  pr_surface_jac_zero pb = false \/ (forall i j, spec_face_jac pb sol i j = c0) ->
  (let A := adjoint_matrix pb bs0 sym sol bc in exact_csr (pr_n pb) A (solve A v) v) ->
  let lam := newton_multiplier pb bs0 sym solve ksolve true sol bc v in
  (forall j, j < pr_n pb ->
     sumf (fun i => cmul (eliminated false (fun r => existsb (Nat.eqb r) (bc_rows bc)) (spec_jac pb sol) i j)
                         (get lam i)) (seq 0 (pr_n pb)) = get v j) /\
  (forall dR dvals du, length dR = pr_n pb -> response pb bc sol dR dvals du ->
     dot (pr_n pb) v du =
     cadd (param_cotangent pb bc lam dR)
          (sumf (fun k => cmul (get (vals_cotangent bc lam) k) (get dvals k)) (seq 0 (length (bc_rows bc))))).
Proof.
  intros K Inp FInp pb bs0 sym solve ksolve sol bc v Hbs W Wb Hcov HV Hf [Hl Hex] lam.
  assert (L : length lam = pr_n pb) by (unfold lam; rewrite newton_multiplier_length; exact Hl).
  assert (T : forall j, j < pr_n pb ->
     sumf (fun i => cmul (eliminated false (fun r => nth r (bc_mask bc) false) (spec_jac pb sol) i j)
                         (get lam i)) (seq 0 (pr_n pb)) = get v j).
  { assert (E : forall j, j < pr_n pb ->
      sumf (fun i => cmul (eliminated sym (fun r => nth r (bc_mask bc) false) (spec_jac pb sol) i j)
                 (get (linear_multiplier pb bs0 sym solve ksolve true sol bc v) i)) (seq 0 (pr_n pb)) = get v j).
    { intros j Hj. rewrite <- (J_bc_T_acts Hbs W Wb Hcov sol Hf sym _ HV Hj). apply Hex. exact Hj. }
    unfold lam. destruct sym.
    - eapply corrected_multiplier; [exact E|]. intros j Hj.
      apply (@newton_multiplier_get _ _ _ pb bs0 bc Wb true solve ksolve sol v j Hl Hj).
      intros w j' Hj'. apply (rmatvec_full Hbs W bc Hcov sol Hf w HV Hj').
    - exact E. }
  split.
  - intros j Hj. rewrite <- (T j Hj). apply sumf_ext. intros i _. unfold eliminated.
    rewrite <- !(mask_existsb _ Wb). reflexivity.
  - intros dR dvals du HdR HR. apply (@cotangent_core _ _ _ pb bs0 Hbs bc Wb sol lam v dR dvals du L HdR T HR).
Qed.
Print Assumptions C15_direct.

(** Krylov adjoint, any storage view: without symmetric elimination always, with
    it when the free block of the tangent is symmetric. *)
Theorem C15_krylov :
  forall (K : CRing) (Inp FInp : Type) (pb : problem K Inp FInp) (bs0 : nat) (sym : bool)
         solve (ksolve : (list K -> list K) -> list K -> list K) (sol : list K) (bc : dirichlet K) (v : list K),
  0 < bs0 -> wf_problem pb -> wf_bc bc (pr_n pb) ->
  sym = false \/ free_block_symmetric pb bc sol ->
  (let A := adjoint_operator pb bs0 sym sol bc in exact_op (pr_n pb) A (ksolve A v) v) ->
  let lam := newton_multiplier pb bs0 sym solve ksolve false sol bc v in
  (forall j, j < pr_n pb ->
     sumf (fun i => cmul (eliminated false (fun r => existsb (Nat.eqb r) (bc_rows bc)) (spec_jac pb sol) i j)
                         (get lam i)) (seq 0 (pr_n pb)) = get v j) /\
  (forall dR dvals du, length dR = pr_n pb -> response pb bc sol dR dvals du ->
     dot (pr_n pb) v du =
     cadd (param_cotangent pb bc lam dR)
          (sumf (fun k => cmul (get (vals_cotangent bc lam) k) (get dvals k)) (seq 0 (length (bc_rows bc))))).
Proof.
  intros K Inp FInp pb bs0 sym solve ksolve sol bc v Hbs W Wb Hsym [Hl Hex] lam.
  assert (L : length lam = pr_n pb) by (unfold lam; rewrite newton_multiplier_length; exact Hl).
  assert (T : forall j, j < pr_n pb ->
     sumf (fun i => cmul (eliminated false (fun r => nth r (bc_mask bc) false) (spec_jac pb sol) i j)
                         (get lam i)) (seq 0 (pr_n pb)) = get v j).
  { unfold lam. destruct sym.
    - destruct Hsym as [|Hsym]; [discriminate|].
      eapply corrected_multiplier.
      + intros j Hj. rewrite <- (Hex j Hj). cbn [adjoint_operator].
        unfold adjoint_operator. rewrite (matfree_acts Hbs W bc true sol _ Hj).
        apply sumf_ext. intros i Hi. apply in_seq in Hi. f_equal.
        apply (@sym_elim_symmetric _ _ _ pb bc Wb sol Hsym); lia.
      + intros j Hj. apply (@newton_multiplier_get _ _ _ pb bs0 bc Wb false solve ksolve sol v j Hl Hj).
        intros w j' Hj'. apply (residual_vjp_spec Hbs W sol w Hj').
    - intros j Hj. rewrite <- (Hex j Hj). symmetry. apply (res_bc_vjp_acts Hbs W Wb sol _ Hl Hj). }
  split.
  - intros j Hj. rewrite <- (T j Hj). apply sumf_ext. intros i _. unfold eliminated.
    rewrite <- !(mask_existsb _ Wb). reflexivity.
  - intros dR dvals du HdR HR. apply (@cotangent_core _ _ _ pb bs0 Hbs bc Wb sol lam v dR dvals du L HdR T HR).
Qed.
Print Assumptions C15_krylov.

(** ** C16: the linear solver's adjoint. *)

(** Krylov path under symmetric elimination: with a symmetric free block the
    parameter gradient is exact when the prescribed values are held. *)
Theorem C16_krylov_symmetric :
  forall (K : CRing) (Inp FInp : Type) (pb : problem K Inp FInp) (bs0 : nat)
         solve (ksolve : (list K -> list K) -> list K -> list K) (sol : list K) (bc : dirichlet K) (v : list K),
  0 < bs0 -> wf_problem pb -> wf_bc bc (pr_n pb) ->
  free_block_symmetric pb bc sol ->
  (let A := adjoint_operator pb bs0 true sol bc in exact_op (pr_n pb) A (ksolve A v) v) ->
  forall dR du, length dR = pr_n pb ->
  response pb bc sol dR (zeros (length (bc_rows bc))) du ->
  dot (pr_n pb) v du =
  param_cotangent pb bc (linear_multiplier pb bs0 true solve ksolve false sol bc v) dR.
Proof.
  intros K Inp FInp pb bs0 solve ksolve sol bc v Hbs W Wb Hsym [Hl Hex] dR du HdR HR.
  apply (@cotangent_core_sym _ _ _ pb bc Wb sol _ v dR du Hl HdR); [|exact HR].
  intros j Hj. rewrite <- (Hex j Hj). unfold adjoint_operator. rewrite (matfree_acts Hbs W bc true sol _ Hj).
  apply sumf_ext. intros i Hi. apply in_seq in Hi. f_equal.
  apply (@sym_elim_symmetric _ _ _ pb bc Wb sol Hsym); lia.
Qed.
Print Assumptions C16_krylov_symmetric.

(** Direct path (full storage): exact for every tangent. *)
Theorem C16_direct :
  forall (K : CRing) (Inp FInp : Type) (pb : problem K Inp FInp) (bs0 : nat)
         (solve : csr K -> list K -> list K) ksolve (sol : list K) (bc : dirichlet K) (v : list K),
  0 < bs0 -> wf_problem pb -> wf_bc bc (pr_n pb) ->
  (forall r, In r (bc_rows bc) -> exists d, In d (pr_cells pb) /\ In r d) ->
  pr_view pb = FULL ->
  pr_surface_jac_zero pb = false \/ (forall i j, spec_face_jac pb sol i j = c0) ->
  (let A := adjoint_matrix pb bs0 true sol bc in exact_csr (pr_n pb) A (solve A v) v) ->
  forall dR du, length dR = pr_n pb ->
  response pb bc sol dR (zeros (length (bc_rows bc))) du ->
  dot (pr_n pb) v du =
  param_cotangent pb bc (linear_multiplier pb bs0 true solve ksolve true sol bc v) dR.
Proof.
  intros K Inp FInp pb bs0 solve ksolve sol bc v Hbs W Wb Hcov HV Hf [Hl Hex] dR du HdR HR.
  apply (@cotangent_core_sym _ _ _ pb bc Wb sol _ v dR du Hl HdR); [|exact HR].
  intros j Hj. rewrite <- (J_bc_T_acts Hbs W Wb Hcov sol Hf true _ HV Hj). apply Hex. exact Hj.
Qed.
Print Assumptions C16_direct.

(** Without symmetric elimination the Krylov adjoint is exact for every tangent,
    including the gradient with respect to the prescribed values. *)
Theorem C16_krylov_unsymmetric :
  forall (K : CRing) (Inp FInp : Type) (pb : problem K Inp FInp) (bs0 : nat)
         solve (ksolve : (list K -> list K) -> list K -> list K) (sol : list K) (bc : dirichlet K) (v : list K),
  0 < bs0 -> wf_problem pb -> wf_bc bc (pr_n pb) ->
  (let A := adjoint_operator pb bs0 false sol bc in exact_op (pr_n pb) A (ksolve A v) v) ->
  forall dR dvals du, length dR = pr_n pb -> response pb bc sol dR dvals du ->
  let lam := linear_multiplier pb bs0 false solve ksolve false sol bc v in
  dot (pr_n pb) v du =
  cadd (param_cotangent pb bc lam dR)
       (sumf (fun k => cmul (get (vals_cotangent bc lam) k) (get dvals k)) (seq 0 (length (bc_rows bc)))).
Proof.
  intros K Inp FInp pb bs0 solve ksolve sol bc v Hbs W Wb Hex dR dvals du HdR HR.
  apply (proj2 (@C15_krylov K Inp FInp pb bs0 false solve ksolve sol bc v Hbs W Wb (or_introl eq_refl) Hex)
           dR dvals du HdR HR).
Qed.
Print Assumptions C16_krylov_unsymmetric.

(** The condition is necessary: the operator the Krylov adjoint solves with is the
    transpose of the symmetrically eliminated tangent for all multipliers only if
    the free block is symmetric. *)
Theorem C16_transpose_iff :
  forall (K : CRing) (Inp FInp : Type) (pb : problem K Inp FInp) (bs0 : nat)
         (sol : list K) (bc : dirichlet K),
  0 < bs0 -> wf_problem pb -> wf_bc bc (pr_n pb) ->
  (forall w j, length w = pr_n pb -> j < pr_n pb ->
     get (adjoint_operator pb bs0 true sol bc w) j =
     sumf (fun i => cmul (eliminated true (fun r => existsb (Nat.eqb r) (bc_rows bc)) (spec_jac pb sol) i j)
                         (get w i)) (seq 0 (pr_n pb)))
  <-> free_block_symmetric pb bc sol.
Proof.
  intros K Inp FInp pb bs0 sol bc Hbs W Wb. split.
  - intros H i j Hi Hj Ni Nj.
    set (e := upd (zeros (pr_n pb)) i c1 : list K).
    assert (Ge : forall k, get e k = if Nat.eqb k i then c1 else c0).
    { intros k. unfold get, e. rewrite nth_upd. unfold zeros at 1. rewrite repeat_length.
      change (nth k (zeros (pr_n pb)) c0) with (get (K:=K) (zeros (pr_n pb)) k). rewrite get_zeros.
      destruct (Nat.eqb_spec k i); destruct (Nat.eqb_spec i k); cbn; try congruence.
      destruct (Nat.ltb_spec i (pr_n pb)); [reflexivity|lia]. }
    assert (Le : length e = pr_n pb) by (unfold e, zeros; rewrite upd_length; apply repeat_length).
    specialize (H e j Le Hj). unfold adjoint_operator in H.
    rewrite (matfree_acts Hbs W bc true sol e Hj) in H.
    assert (S1 : forall f : nat -> K, sumf (fun k => cmul (f k) (get e k)) (seq 0 (pr_n pb)) = f i).
    { intros f. rewrite sumf_ext with (g := fun k => if Nat.eqb k i then f k else c0).
      - apply sumf_single_nat. exact Hi.
      - intros k _. rewrite Ge. destruct (Nat.eqb k i); [apply ring_m1 | apply ring_m0]. }
    rewrite !S1 in H. unfold eliminated in H. rewrite <- !(mask_existsb _ Wb) in H.
    rewrite !(mask_false _ Wb) in H by assumption. cbn in H. symmetry. exact H.
  - intros H w j Hw Hj. unfold adjoint_operator. rewrite (matfree_acts Hbs W bc true sol w Hj).
    apply sumf_ext. intros i Hi. apply in_seq in Hi. f_equal.
    transitivity (eliminated true (fun r => nth r (bc_mask bc) false) (spec_jac pb sol) i j).
    + apply (@sym_elim_symmetric _ _ _ pb bc Wb sol H); lia.
    + unfold eliminated. rewrite <- !(mask_existsb _ Wb). reflexivity.
Qed.
Print Assumptions C16_transpose_iff.

(** ** A concrete linear problem: two two-node elements in a chain, element matrix
    [[a b; c d]], loads [x] on both nodes of an element. *)
Definition chain (v : view) (a b c d : Z) : problem ZK Z Z :=
  @Build_problem ZK Z Z 3 v 2 [[0; 1]; [1; 2]] [0; 3]%Z 0%Z
    (fun u x => ([a * nth 0 u 0 + b * nth 1 u 0 - x; c * nth 0 u 0 + d * nth 1 u 0 - x], [a; b; c; d])%Z) [] false.
Definition chain_bc (val : Z) : dirichlet ZK := @Build_dirichlet ZK [0] [true; false; false] [val] 3.

Lemma chain_wf v a b c d : wf_problem (chain v a b c d).
Proof.
  constructor; cbn.
  - intros e [<-|[<-|[]]]; reflexivity.
  - intros e x [<-|[<-|[]]]; cbn; lia.
  - reflexivity.
  - intros u x _. auto.
  - intros b' c' [].
  - intros b' [].
  - intros b' u x [].
Qed.
Lemma chain_affine v a b c d : affine_problem (chain v a b c d).
Proof.
  split; [|intros b' []].
  intros u u' x i Hu Hu' Hi. cbn in Hu, Hu', Hi.
  destruct u as [|p [|q [|]]]; try discriminate. destruct u' as [|p' [|q' [|]]]; try discriminate.
  destruct i as [|[|i]]; [| |lia]; cbn; ring.
Qed.
Lemma chain_bc_wf val : wf_bc (chain_bc val) 3.
Proof.
  constructor; cbn; try reflexivity.
  - repeat constructor.
  - lia.
  - intros [|[|[|[|i]]]]; cbn; intuition (try discriminate; try lia).
Qed.
Lemma chain_cov v a b c d val r : In r (bc_rows (chain_bc val)) ->
  exists e, In e (pr_cells (chain v a b c d)) /\ In r e.
Proof. intros [<-|[]]. exists [0; 1]. cbn. auto. Qed.

(** Exact inverses of the eliminated chain [1 -1; -1 1] (and of [0 1; 0 1]). *)
Definition inv_sym (b : list Z) : list Z :=
  [nth 0 b 0; nth 1 b 0 + nth 2 b 0; nth 1 b 0 + 2 * nth 2 b 0]%Z.
Definition inv_row (b : list Z) : list Z :=
  [nth 0 b 0; nth 0 b 0 + nth 1 b 0 + nth 2 b 0; nth 0 b 0 + nth 1 b 0 + 2 * nth 2 b 0]%Z.

(** The hypotheses of [C14_direct], [C14_krylov] and [C14_default_call] are met. *)
Example C14_example :
  (let pb := chain FULL 1 (-1) (-1) 1 in let bc := chain_bc 5 in let g := [1; 1; 7]%Z : list ZK in
   exact_csr 3 (J_bc pb 256 false g bc) (inv_row (vneg (apply_res bc (get_res pb 256 g) g c1)))
             (vneg (apply_res bc (get_res pb 256 g) g c1)) /\
   solves_problem pb bc (linear_direct pb 256 false (fun _ => inv_row) g bc) /\
   linear_direct pb 256 false (fun _ => inv_row) g bc = [5; 11; 14]%Z) /\
  (let pb := chain UPPER 1 (-1) (-1) 1 in let bc := chain_bc 5 in
   solves_problem pb bc (linear_solver pb 256 true (fun _ => inv_sym) (fun _ => inv_sym) false bc None None)).
Proof.
  assert (E : forall (f g : nat -> Z), f 0 = g 0 -> f 1 = g 1 -> f 2 = g 2 -> forall i, i < 3 -> f i = g i)
    by (intros f g H0 H1 H2 [|[|[|i]]] Hi; [exact H0|exact H1|exact H2|lia]).
  split.
  - cbn zeta. split; [|split].
    + split; [reflexivity|]. apply E; vm_compute; reflexivity.
    + apply C14_direct; [lia|apply chain_wf|apply chain_affine|apply chain_bc_wf|reflexivity|
        intros r; apply chain_cov|reflexivity|left; reflexivity| |left; reflexivity].
      split; [reflexivity|]. apply E; vm_compute; reflexivity.
    + vm_compute. reflexivity.
  - cbn zeta. apply C14_default_call; [lia|apply chain_wf|apply chain_affine|apply chain_bc_wf|].
    split; [reflexivity|]. apply E; vm_compute; reflexivity.
Qed.

(** Overriding the BC at call time without passing a guess: the default guess still
    satisfies the construction-time values, and under symmetric elimination the
    result does not satisfy the free equations. *)
Theorem C14_override_refuted :
  exists (pb : problem ZK Z Z) (ksolve : (list Z -> list Z) -> list Z -> list Z) (bc0 bc : dirichlet ZK),
    wf_problem pb /\ affine_problem pb /\ wf_bc bc0 (pr_n pb) /\ wf_bc bc (pr_n pb) /\ bc_rows bc = bc_rows bc0 /\
    (forall val (g : list ZK), length g = 3 ->
      let RJ := matfree_res_J pb 256 true g (chain_bc val) in
      exact_op (pr_n pb) (snd RJ) (ksolve (snd RJ) (vneg (fst RJ))) (vneg (fst RJ))) /\
    ~ solves_problem pb bc (linear_solver pb 256 true (fun _ b => b) ksolve false bc0 None (Some bc)).
Proof.
  exists (chain FULL 1 (-1) (-1) 1), (fun _ => inv_sym), (chain_bc 0), (chain_bc 1).
  split; [apply chain_wf|]. split; [apply chain_affine|]. split; [apply chain_bc_wf|].
  split; [apply chain_bc_wf|]. split; [reflexivity|]. split.
  - intros val g Hg RJ. destruct g as [|x [|y [|z [|]]]]; try discriminate.
    split; [reflexivity|]. intros [|[|[|i]]] Hi; cbn in Hi; [| | |lia];
      cbv -[Z.add Z.mul Z.sub Z.opp]; ring.
  - intros [_ H]. specialize (H 1). cbn in H. assert (H' := H ltac:(lia) ltac:(lia)). vm_compute in H'. discriminate.
Qed.
Print Assumptions C14_override_refuted.

Example C15_example :
  let pb := chain FULL 1 (-1) (-1) 1 in let bc := chain_bc 5 in let sol := [5; 11; 14]%Z : list ZK in
  let lam := newton_multiplier pb 256 true (fun _ => inv_sym) (fun _ => inv_sym) true sol bc [0; 0; 1]%Z in
  free_block_symmetric pb bc sol /\ lam = [1; 1; 2]%Z /\
  response pb bc sol [0; 1; -1]%Z [1]%Z [1; 1; 2]%Z /\
  dot 3 ([0; 0; 1]%Z : list ZK) [1; 1; 2]%Z =
  (param_cotangent pb bc lam [0; 1; -1]%Z + nth 0 (vals_cotangent bc lam) 0 * 1)%Z.
Proof.
  cbn zeta. repeat split.
  - intros [|[|[|i]]] [|[|[|j]]] Hi Hj; cbn in *; try lia; intros; vm_compute; reflexivity.
  - intros [|k] Hk; cbn in Hk; [reflexivity|lia].
  - intros [|[|[|i]]] Hi; cbn in *; try lia; intros; vm_compute; reflexivity.
Qed.

(** With a triangular storage view the direct adjoint's correction of the BC rows
    uses the stored triangle only: the solve is exact as a solve with the symmetric
    matrix it stands for, the tangent is symmetric, and the gradient is wrong. *)
Theorem C15_triangular_refuted :
  exists (pb : problem ZK Z Z) (solve : csr ZK -> list Z -> list Z) (sol : list ZK) (bc : dirichlet ZK) (v dR dvals du : list ZK),
    wf_problem pb /\ wf_bc bc (pr_n pb) /\ pr_view pb = UPPER /\
    (forall i j, i < pr_n pb -> j < pr_n pb -> spec_jac pb sol i j = spec_jac pb sol j i) /\
    (let A := adjoint_matrix pb 256 true sol bc in
     forall i, i < pr_n pb -> get (matvec_with_view UPPER A (solve A v)) i = get v i) /\
    response pb bc sol dR dvals du /\
    (let lam := newton_multiplier pb 256 true solve (fun _ b => b) true sol bc v in
     dot (pr_n pb) v du <>
     cadd (param_cotangent pb bc lam dR)
          (sumf (fun k => cmul (get (vals_cotangent bc lam) k) (get dvals k)) (seq 0 (length (bc_rows bc))))).
Proof.
  exists (chain UPPER 1 (-1) (-1) 1), (fun _ => inv_sym), [5; 11; 14]%Z, (chain_bc 5),
    [0; 0; 1]%Z, [0; 0; 0]%Z, [1]%Z, [1; 1; 1]%Z.
  split; [apply chain_wf|]. split; [apply chain_bc_wf|]. split; [reflexivity|]. split; [|split; [|split]].
  - intros [|[|[|i]]] [|[|[|j]]] Hi Hj; cbn in *; try lia; vm_compute; reflexivity.
  - intros A [|[|[|i]]] Hi; cbn in Hi; try lia; vm_compute; reflexivity.
  - split.
    + intros [|k] Hk; cbn in Hk; [reflexivity|lia].
    + intros [|[|[|i]]] Hi; cbn in *; try lia; intros; vm_compute; reflexivity.
  - vm_compute. discriminate.
Qed.
Print Assumptions C15_triangular_refuted.

(** An unsymmetric tangent: the Krylov adjoint under symmetric elimination solves
    exactly and still returns a wrong parameter gradient. *)
Theorem C16_unsymmetric_refuted :
  exists (pb : problem ZK Z Z) ksolve (sol : list ZK) (bc : dirichlet ZK) (v dR du : list ZK),
    wf_problem pb /\ affine_problem pb /\ wf_bc bc (pr_n pb) /\
    (let A := adjoint_operator pb 256 true sol bc in exact_op (pr_n pb) A (ksolve A v) v) /\
    length dR = pr_n pb /\ response pb bc sol dR (zeros (length (bc_rows bc))) du /\
    dot (pr_n pb) v du <>
    param_cotangent pb bc (linear_multiplier pb 256 true (fun _ b => b) ksolve false sol bc v) dR.
Proof.
  exists (chain FULL 0 1 0 1),
    (fun (_ : list ZK -> list ZK) (b : list ZK) => [nth 0 b 0; nth 1 b 0 - nth 2 b 0; nth 2 b 0]%Z : list ZK),
    [0; 0; 0]%Z, (chain_bc 0), [0; 1; 0]%Z, [0; 0; 1]%Z, [0; 1; -1]%Z.
  split; [apply chain_wf|]. split; [apply chain_affine|]. split; [apply chain_bc_wf|].
  split; [|split; [|split]].
  - split; [reflexivity|]. intros [|[|[|i]]] Hi; cbn in Hi; try lia; vm_compute; reflexivity.
  - reflexivity.
  - split.
    + intros [|k] Hk; cbn in Hk; [reflexivity|lia].
    + intros [|[|[|i]]] Hi; cbn in *; try lia; intros; vm_compute; reflexivity.
  - vm_compute. discriminate.
Qed.
Print Assumptions C16_unsymmetric_refuted.

(** Under symmetric elimination the linear solver's gradient with respect to the
    prescribed values misses the coupling to the free DOFs, even for a symmetric
    tangent and an exact direct solve. *)
Theorem C16_values_refuted :
  exists (pb : problem ZK Z Z) (solve : csr ZK -> list Z -> list Z) (sol : list ZK) (bc : dirichlet ZK) (v dR dvals du : list ZK),
    wf_problem pb /\ affine_problem pb /\ wf_bc bc (pr_n pb) /\ pr_view pb = FULL /\
    (forall i j, i < pr_n pb -> j < pr_n pb -> spec_jac pb sol i j = spec_jac pb sol j i) /\
    (let A := adjoint_matrix pb 256 true sol bc in exact_csr (pr_n pb) A (solve A v) v) /\
    length dR = pr_n pb /\ response pb bc sol dR dvals du /\
    (let lam := linear_multiplier pb 256 true solve (fun _ b => b) true sol bc v in
     dot (pr_n pb) v du <>
     cadd (param_cotangent pb bc lam dR)
          (sumf (fun k => cmul (get (vals_cotangent bc lam) k) (get dvals k)) (seq 0 (length (bc_rows bc))))).
Proof.
  exists (chain FULL 1 (-1) (-1) 1), (fun _ => inv_sym), [5; 11; 14]%Z, (chain_bc 5),
    [0; 0; 1]%Z, [0; 0; 0]%Z, [1]%Z, [1; 1; 1]%Z.
  split; [apply chain_wf|]. split; [apply chain_affine|]. split; [apply chain_bc_wf|]. split; [reflexivity|].
  split; [|split; [|split; [|split]]].
  - intros [|[|[|i]]] [|[|[|j]]] Hi Hj; cbn in *; try lia; vm_compute; reflexivity.
  - split; [reflexivity|]. intros [|[|[|i]]] Hi; cbn in Hi; try lia; vm_compute; reflexivity.
  - reflexivity.
  - split.
    + intros [|k] Hk; cbn in Hk; [reflexivity|lia].
    + intros [|[|[|i]]] Hi; cbn in *; try lia; intros; vm_compute; reflexivity.
  - vm_compute. discriminate.
Qed.
Print Assumptions C16_values_refuted.

Example C16_example :
  let pb := chain FULL 1 (-1) (-1) 1 in let bc := chain_bc 5 in let sol := [5; 11; 14]%Z : list ZK in
  free_block_symmetric pb bc sol /\
  exact_op 3 (adjoint_operator pb 256 true sol bc) (inv_sym [0; 0; 1]%Z) ([0; 0; 1]%Z : list ZK) /\
  response pb bc sol [0; 1; -1]%Z (zeros 1) [0; 0; 1]%Z /\
  dot 3 ([0; 0; 1]%Z : list ZK) [0; 0; 1]%Z =
  param_cotangent pb bc (linear_multiplier pb 256 true (fun _ => inv_sym) (fun _ => inv_sym) false sol bc [0; 0; 1]%Z) [0; 1; -1]%Z.
Proof.
  cbn zeta. split; [|split; [|split]].
  - intros [|[|[|i]]] [|[|[|j]]] Hi Hj; cbn in *; try lia; intros; vm_compute; reflexivity.
  - split; [reflexivity|]. intros [|[|[|i]]] Hi; cbn in Hi; try lia; vm_compute; reflexivity.
  - split.
    + intros [|k] Hk; cbn in Hk; [reflexivity|lia].
    + intros [|[|[|i]]] Hi; cbn in *; try lia; intros; vm_compute; reflexivity.
  - vm_compute. reflexivity.
Qed.
