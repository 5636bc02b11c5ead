(** C36: the reduced (periodic) solve. *)
From Verif Require Import Base Csr_Model Assembly_Model Assembly_Spec Assembly_Proofs AssemblyMain_Proofs
  Values_Proofs Dof_Model Bc_Model Bc_Proofs Bc_Props LinSolve_Model LinSolve_Spec LinSolve_Proofs LinSolve_Props
  Reduced_Model Reduced_Spec Reduced_Proofs Pbc_Model Pbc_Spec Pbc_Props.
From Coq Require Import ZifyBool ZifyNat.

(** The linear solver returned an exact solution of the system it was given. *)
Definition exact_call (K : CRing) (m : nat) (ksolve : (list K -> list K) -> list K -> list K)
  (op : list K -> list K) (b : list K) : Prop :=
  length (ksolve op b) = m /\ forall c, c < m -> get (op (ksolve op b)) c = get b c.
Arguments exact_call {K}.

Section Lemmas.
  Variable K : CRing.
  Local Open Scope ring_K.
  Add Ring KringRP : (cth K).
  Lemma ring_red (a b c : K) : (a + c) - a = (b + c) - b. Proof. ring. Qed.
  Lemma ring_red2 (a b : K) : a - a = b - b. Proof. ring. Qed.
  Variables (Inp FInp : Type) (pb : problem K Inp FInp) (bs0 : nat).
  Hypothesis Hbs : 0 < bs0.
  Hypothesis W : wf_problem pb.
  Variable bc : dirichlet K.
  Local Notation n := (pr_n pb).
  Hypothesis Wb : wf_bc bc n.
  Variable P : bcoo K.
  Local Notation B := (fun i => nth i (bc_mask bc) false).

  Lemma matfree_length sol x : length (snd (matfree_res_J pb bs0 true sol bc) x) = n.
  Proof. cbn. rewrite map_length. apply seq_length. Qed.

  Lemma J_symmetric sol x y : free_block_symmetric pb bc sol ->
    dot n x (snd (matfree_res_J pb bs0 true sol bc) y) = dot n (snd (matfree_res_J pb bs0 true sol bc) x) y.
  Proof.
    intros Hs. unfold dot.
    rewrite sumf_ext with (g := fun i => sumf (fun j => get x i * (eliminated true B (spec_jac pb sol) i j * get y j)) (seq 0 n)).
    2:{ intros i Hi. apply in_seq in Hi. rewrite (matfree_acts Hbs W bc true sol y) by lia. rewrite sumf_mul_l. reflexivity. }
    rewrite sumf_swap. apply sumf_ext. intros j Hj. apply in_seq in Hj.
    rewrite (matfree_acts Hbs W bc true sol x) by lia. rewrite <- sumf_mul_r. apply sumf_ext.
    intros i Hi. apply in_seq in Hi. rewrite (sym_elim_symmetric Wb Hs (i := i) (j := j)) by lia. ring.
  Qed.

  Lemma op_symmetric sol x y : in_shape P n -> free_block_symmetric pb bc sol ->
    dot (P_cols P) x (reduced_operator pb bs0 P sol bc y) = dot (P_cols P) (reduced_operator pb bs0 P sol bc x) y.
  Proof.
    intros Hin Hs. unfold reduced_operator.
    rewrite <- (P_adjoint K P n x) by exact Hin. rewrite J_symmetric by exact Hs.
    rewrite (dot_comm K (P_cols P)). rewrite <- (P_adjoint K P n y) by exact Hin.
    apply dot_comm.
  Qed.

  Variable col : nat -> nat.
  Hypothesis MS : master_slave P n col.
  Hypothesis Hwhole : whole_classes n col (bc_rows bc).

  Lemma in_class c i : In i (filter (fun i => col i =? c) (seq 0 n)) <-> i < n /\ col i = c.
  Proof. rewrite filter_In, in_seq, Nat.eqb_eq. intuition lia. Qed.

  (** The reduced operator on a pinned class: (number of members) times the unknown. *)
  Lemma op_pinned sol x r : In r (bc_rows bc) ->
    get (reduced_operator pb bs0 P sol bc x) (col r) = class_sum n col (col r) (fun _ => get x (col r)).
  Proof.
    intros Hr. assert (Hrn := wb_range Wb r Hr). unfold reduced_operator.
    rewrite (ms_Tmul K P n col MS) by (apply MS; exact Hrn). unfold class_sum. apply sumf_ext.
    intros i Hi. apply in_class in Hi. destruct Hi as [Hi Hc].
    rewrite (matfree_acts Hbs W bc true sol _ Hi). rewrite (elim_sum K B _ true _ Hi).
    rewrite (mask_true i Wb (Hwhole r i Hr Hi Hc)). rewrite (ms_mul K P n col MS) by exact Hi. rewrite Hc. reflexivity.
  Qed.
  (** ... and on a free class: the class sum of the tangent without pinned columns. *)
  Lemma op_free sol x i : i < n -> ~ In i (bc_rows bc) ->
    get (reduced_operator pb bs0 P sol bc x) (col i) =
    class_sum n col (col i) (fun k => sumf (fun j => if nth j (bc_mask bc) false then 0
                                             else spec_jac pb sol k j * get x (col j)) (seq 0 n)).
  Proof.
    intros Hi Hn. unfold reduced_operator.
    rewrite (ms_Tmul K P n col MS) by (apply MS; exact Hi). unfold class_sum. apply sumf_ext.
    intros k Hk. apply in_class in Hk. destruct Hk as [Hk Hc].
    rewrite (matfree_acts Hbs W bc true sol _ Hk). rewrite (elim_sum K B _ true _ Hk).
    assert (Hkn : ~ In k (bc_rows bc)) by (intros Hin; apply Hn; apply (Hwhole k i Hin Hi); congruence).
    rewrite (mask_false k Wb Hkn). apply sumf_ext. intros j Hj. apply in_seq in Hj. cbn [andb].
    destruct (nth j (bc_mask bc) false); [reflexivity|]. rewrite (ms_mul K P n col MS) by lia. reflexivity.
  Qed.

  Variable ksolve : (list K -> list K) -> list K -> list K.
  Local Notation delta guess := (ksolve (reduced_operator pb bs0 P guess bc) (reduced_rhs pb bs0 P guess bc)).

  Lemma sol_get guess i : length guess = n -> i < n ->
    get (reduced_solve pb bs0 P ksolve guess bc) i = get guess i + get (delta guess) (col i).
  Proof.
    intros Hg Hi. unfold reduced_solve. rewrite get_vadd.
    - rewrite (ms_mul K P n col MS) by exact Hi. reflexivity.
    - rewrite P_mul_length. destruct MS as [-> _]. exact Hg.
  Qed.

  Lemma rhs_get guess c : c < P_cols P ->
    get (reduced_rhs pb bs0 P guess bc) c = - class_sum n col c (get (apply_res bc (get_res pb bs0 guess) guess 1)).
  Proof. intros Hc. unfold reduced_rhs. rewrite get_vneg, (ms_Tmul K P n col MS) by exact Hc. reflexivity. Qed.

  (** On a pinned class the correction solves [size * x = sum (val - guess)]. *)
  Lemma pinned_class guess k : exact_call (P_cols P) ksolve (reduced_operator pb bs0 P guess bc) (reduced_rhs pb bs0 P guess bc) ->
    k < length (bc_rows bc) ->
    class_sum n col (col (nth k (bc_rows bc) 0%nat)) (fun i =>
      get (delta guess) (col (nth k (bc_rows bc) 0%nat)) + get (apply_res bc (get_res pb bs0 guess) guess 1) i) = 0.
  Proof.
    intros [Hl Hex] Hk. set (r := nth k (bc_rows bc) 0%nat). assert (Hr : In r (bc_rows bc)) by (apply nth_In; exact Hk).
    assert (Hrn := wb_range Wb r Hr). assert (Hc : col r < P_cols P) by (apply MS; exact Hrn).
    specialize (Hex (col r) Hc). rewrite op_pinned in Hex by exact Hr. rewrite rhs_get in Hex by exact Hc.
    unfold class_sum in *. rewrite sumf_add, Hex. ring.
  Qed.
  Lemma sumf_const_len (a : K) X (l : list X) : sumf (fun _ => a) l = sumf (fun _ => a) (seq 0 (length l)).
  Proof.
    assert (G : forall m, sumf (fun _ : nat => a) (seq 0 (S m)) = a + sumf (fun _ => a) (seq 0 m)).
    { intros m. rewrite seq_S, sumf_app. cbn. ring. }
    induction l as [|x l IH]; [reflexivity|]. cbn [length]. rewrite G, <- IH. reflexivity.
  Qed.

  (** Prescribed values are attained if [val - guess] is the same over each class. *)
  Lemma values_attained guess : torsion_free K -> length guess = n ->
    exact_call (P_cols P) ksolve (reduced_operator pb bs0 P guess bc) (reduced_rhs pb bs0 P guess bc) ->
    (forall k l, k < length (bc_rows bc) -> l < length (bc_rows bc) ->
       col (nth k (bc_rows bc) 0%nat) = col (nth l (bc_rows bc) 0%nat) ->
       get (bc_vals bc) k - get guess (nth k (bc_rows bc) 0%nat) = get (bc_vals bc) l - get guess (nth l (bc_rows bc) 0%nat)) ->
    meets_values bc (reduced_solve pb bs0 P ksolve guess bc).
  Proof.
    intros TF Hg Hex Hag k Hk. set (r := nth k (bc_rows bc) 0%nat). assert (Hr : In r (bc_rows bc)) by (apply nth_In; exact Hk).
    assert (Hrn := wb_range Wb r Hr). rewrite sol_get by assumption.
    assert (H := pinned_class guess k Hex Hk). fold r in H.
    set (d := get (bc_vals bc) k - get guess r).
    assert (E : class_sum n col (col r) (fun _ => get (delta guess) (col r) - d) = 0).
    { rewrite <- H. unfold class_sum. apply sumf_ext. intros i Hi. apply in_class in Hi. destruct Hi as [Hi Hc].
      assert (Hin := Hwhole r i Hr Hi Hc). apply (In_nth _ _ 0%nat) in Hin. destruct Hin as (l & Hll & El).
      rewrite <- El. rewrite (get_apply_res_row (get_res pb bs0 guess) guess 1 Wb (get_res_length pb bs0 guess) Hll).
      assert (X : col (nth k (bc_rows bc) 0%nat) = col (nth l (bc_rows bc) 0%nat)) by (rewrite El; symmetry; exact Hc).
      assert (A := Hag k l Hk Hll X). fold r in A. unfold d. rewrite A. ring. }
    unfold class_sum in E. rewrite sumf_const_len in E. apply TF in E.
    - transitivity (get guess r + (d + (get (delta guess) (col r) - d))); [ring|]. rewrite E. unfold d. ring.
    - assert (Hin : In r (filter (fun i => col i =? col r) (seq 0 n))) by (apply in_class; auto).
      destruct (filter _ _); [destruct Hin|cbn; lia].
  Qed.

  (** Free classes are in equilibrium. *)
  Lemma class_equilibrium guess i : torsion_free K -> affine_problem pb -> length guess = n ->
    exact_call (P_cols P) ksolve (reduced_operator pb bs0 P guess bc) (reduced_rhs pb bs0 P guess bc) ->
    meets_values bc guess -> i < n -> ~ In i (bc_rows bc) ->
    class_sum n col (col i) (spec_res pb (reduced_solve pb bs0 P ksolve guess bc)) = 0.
  Proof.
    intros TF Aff Hg Hex Hm Hi Hn.
    assert (HV : meets_values bc (reduced_solve pb bs0 P ksolve guess bc)).
    { apply values_attained; auto. intros k l Hk Hl _. rewrite (Hm k Hk), (Hm l Hl). ring. }
    destruct Hex as [Hl Hex]. assert (Hc : col i < P_cols P) by (apply MS; exact Hi).
    specialize (Hex (col i) Hc). rewrite op_free in Hex by assumption. rewrite rhs_get in Hex by exact Hc.
    transitivity (class_sum n col (col i) (fun k => sumf (fun j => if nth j (bc_mask bc) false then 0
                    else spec_jac pb guess k j * get (delta guess) (col j)) (seq 0 n))
                  + class_sum n col (col i) (get (apply_res bc (get_res pb bs0 guess) guess 1))).
    2:{ rewrite Hex. ring. }
    unfold class_sum. rewrite <- sumf_add. apply sumf_ext. intros k Hk. apply in_class in Hk. destruct Hk as [Hk Hck].
    assert (Hkn : ~ In k (bc_rows bc)) by (intros Hin; apply Hn; apply (Hwhole k i Hin Hi); congruence).
    rewrite (get_apply_res_free (get_res pb bs0 guess) guess 1 k Wb Hkn). rewrite (get_res_spec Hbs W guess Hk).
    rewrite (spec_res_affine W Aff guess). transitivity (spec_res pb guess k + sumf (fun j => if nth j (bc_mask bc) false then 0
                    else spec_jac pb guess k j * get (delta guess) (col j)) (seq 0 n)); [|ring].
    f_equal. apply sumf_ext. intros j Hj. apply in_seq in Hj.
    destruct (nth j (bc_mask bc) false) eqn:E.
    - apply (wb_mask Wb) in E. apply (In_nth _ _ 0%nat) in E. destruct E as (l & Hll & <-).
      rewrite (HV l Hll), (Hm l Hll). ring.
    - rewrite sol_get by lia. ring.
  Qed.

  (** The adjoint gives the exact parameter derivative. *)
  Lemma reduced_gradient sol v dR du : length dR = n -> length du = n ->
    free_block_symmetric pb bc sol ->
    exact_call (P_cols P) ksolve (reduced_operator pb bs0 P sol bc) (P_Tmul P v) ->
    periodic_response pb col bc sol dR du ->
    param_cotangent pb bc (reduced_multiplier pb bs0 P ksolve sol bc v) dR = dot n v du.
  Proof.
    intros HdR Hdu Hs [Hl Hex] (R1 & R2 & R3).
    set (lr := ksolve (reduced_operator pb bs0 P sol bc) (P_Tmul P v)) in *.
    (* the reduced representative of du *)
    set (rep := fun c => hd 0%nat (filter (fun i => col i =? c) (seq 0 n))).
    set (dx := map (fun c => get du (rep c)) (seq 0 (P_cols P)) : list K).
    assert (Hdx : forall i, i < n -> get dx (col i) = get du i).
    { intros i Hi. assert (Hc : col i < P_cols P) by (apply MS; exact Hi).
      unfold dx, get at 1. rewrite nth_map_in with (d := 0%nat) by (rewrite seq_length; exact Hc). rewrite seq_nth by exact Hc. cbn [Nat.add].
      assert (Hin : In i (filter (fun k => col k =? col i) (seq 0 n))) by (apply in_class; auto).
      assert (Hrep : In (rep (col i)) (filter (fun k => col k =? col i) (seq 0 n))).
      { unfold rep. destruct (filter _ _); [destruct Hin|left; reflexivity]. }
      apply in_class in Hrep. apply R1; [apply Hrep|exact Hi|apply Hrep]. }
    assert (HPdx : forall i, i < n -> get (P_mul P dx) i = get du i).
    { intros i Hi. rewrite (ms_mul K P n col MS) by exact Hi. apply Hdx. exact Hi. }
    symmetry. transitivity (dot n v (P_mul P dx)).
    { unfold dot. apply sumf_ext. intros i Hi. apply in_seq in Hi. rewrite HPdx by lia. reflexivity. }
    rewrite (dot_comm K n). rewrite (P_adjoint K P n) by (apply (ms_shape K P n col MS)).
    transitivity (dot (P_cols P) dx (reduced_operator pb bs0 P sol bc lr)).
    { unfold dot. apply sumf_ext. intros c Hc. apply in_seq in Hc. rewrite Hex by lia. reflexivity. }
    rewrite op_symmetric by (auto; apply (ms_shape K P n col MS)). rewrite (dot_comm K (P_cols P)).
    unfold param_cotangent, reduced_multiplier. fold lr.
    (* class by class *)
    rewrite <- sumf_opp.
    transitivity (sumf (fun c => get lr c * - class_sum n col c (fun i => if existsb (Nat.eqb i) (bc_rows bc) then 0 else get dR i)) (seq 0 (P_cols P))).
    - unfold dot. apply sumf_ext. intros c Hc. apply in_seq in Hc. f_equal.
      destruct (filter (fun i => col i =? c) (seq 0 n)) as [|i0 rest] eqn:El.
      + unfold reduced_operator. rewrite (ms_Tmul K P n col MS) by lia. unfold class_sum. rewrite El. cbn. ring.
      + assert (Hi0 : In i0 (filter (fun i => col i =? c) (seq 0 n))) by (rewrite El; left; reflexivity).
        apply in_class in Hi0. destruct Hi0 as [Hi0 Ec].
        destruct (in_dec Nat.eq_dec i0 (bc_rows bc)) as [Hin|Hn].
        * rewrite <- Ec. rewrite op_pinned by exact Hin. unfold class_sum.
          rewrite !sumf_zero; [ring| |].
          -- intros i Hi. apply in_class in Hi. destruct Hi as [Hi Hci].
             assert (Hib := Hwhole i0 i Hin Hi Hci). rewrite <- (mask_existsb i Wb), (mask_true i Wb Hib). reflexivity.
          -- intros i Hi. rewrite Hdx by exact Hi0. apply R2. exact Hin.
        * rewrite <- Ec. rewrite op_free by assumption. specialize (R3 i0 Hi0 Hn).
          assert (E1 : class_sum n col (col i0) (fun k => sumf (fun j => if nth j (bc_mask bc) false then 0
                         else spec_jac pb sol k j * get dx (col j)) (seq 0 n)) =
                       class_sum n col (col i0) (fun k => sumf (fun j => spec_jac pb sol k j * get du j) (seq 0 n))).
          { unfold class_sum. apply sumf_ext. intros k _. apply sumf_ext. intros j Hj. apply in_seq in Hj.
            destruct (nth j (bc_mask bc) false) eqn:E.
            - apply (wb_mask Wb) in E. rewrite (R2 j E). ring.
            - rewrite Hdx by lia. reflexivity. }
          assert (E2 : class_sum n col (col i0) (fun i => if existsb (Nat.eqb i) (bc_rows bc) then 0 else get dR i) =
                       class_sum n col (col i0) (get dR)).
          { unfold class_sum. apply sumf_ext. intros k Hk. apply in_class in Hk. destruct Hk as [Hk Hck].
            assert (Hkn : ~ In k (bc_rows bc)) by (intros Hin; apply Hn; apply (Hwhole k i0 Hin Hi0); congruence).
            rewrite <- (mask_existsb k Wb), (mask_false k Wb Hkn). reflexivity. }
          rewrite E1, E2. unfold class_sum in *. rewrite sumf_add in R3.
          transitivity (sumf (fun k => sumf (fun j => spec_jac pb sol k j * get du j) (seq 0 n)) (filter (fun i => col i =? col i0) (seq 0 n))
                        + sumf (get dR) (filter (fun i => col i =? col i0) (seq 0 n))
                        - sumf (get dR) (filter (fun i => col i =? col i0) (seq 0 n))); [ring|].
          match goal with |- ?a + ?b - ?c = _ => transitivity (0 - c) end; [f_equal; exact R3|ring].
    - (* back to full DOFs *)
      transitivity (sumf (fun c => sumf (fun i => if col i =? c then - (get lr c * (if existsb (Nat.eqb i) (bc_rows bc) then 0 else get dR i)) else 0) (seq 0 n)) (seq 0 (P_cols P))).
      + apply sumf_ext. intros c _. unfold class_sum. rewrite <- sumf_if_sum, <- sumf_opp, <- sumf_mul_l.
        apply sumf_ext. intros i _. destruct (col i =? c); ring.
      + rewrite sumf_swap. apply sumf_ext. intros i Hi. apply in_seq in Hi.
        rewrite sumf_ext with (g := fun c => if c =? col i then - (get lr c * (if existsb (Nat.eqb i) (bc_rows bc) then 0 else get dR i)) else 0).
        2:{ intros c _. rewrite Nat.eqb_sym. reflexivity. }
        rewrite (sumf_single_nat K (fun c => - (get lr c * (if existsb (Nat.eqb i) (bc_rows bc) then 0 else get dR i)))) by (apply MS; lia).
        rewrite (ms_mul K P n col MS) by lia.
        rewrite (get_set_rows K dR (bc_rows bc) (fun _ => 0) i) by (intros r Hr; rewrite HdR; apply (wb_range Wb r Hr)).
        reflexivity.
  Qed.
End Lemmas.

(** ** Theorems *)

(** The matrices built by [prolongation_matrix] from independent pairings are master-slave. *)
Theorem C36_prolongation_is_master_slave :
  forall (K : CRing) (Pt : Type) (close : Pt -> Pt -> bool) (points : list Pt) (pt0 : Pt) (vec : nat)
         (pairings : list (pairing Pt)) (P : prolongation),
    (forall p, In p pairings -> pp_vec p < vec) ->
    prolongation_matrix close points pt0 vec pairings = Some P ->
    independent_masters close points pt0 vec pairings ->
    master_slave (K := K) (bcoo_of P) (length points * vec) (fun i => Z.to_nat (nth i (pm_col P) 0%Z)).
Proof.
  intros K Pt close points pt0 vec pairings P Hv HP HI.
  assert (H := proj2 (@C35_valid_columns_iff Pt close points pt0 vec pairings Hv P HP) HI).
  destruct (@C35_columns Pt close points pt0 vec pairings Hv P HP) as (E1 & _). split; [exact E1|]. split.
  - cbn. rewrite E1. reflexivity.
  - intros i Hi. specialize (H i Hi). cbn. lia.
Qed.
Print Assumptions C36_prolongation_is_master_slave.

(** The BC/periodicity check accepts exactly the BC sets made of whole periodic classes. *)
Theorem C36_check_iff :
  forall (K : CRing) (P : bcoo K) (n : nat) (col : nat -> nat) (rows : list nat),
    master_slave P n col -> (forall r, In r rows -> r < n) ->
    (validate_bc_pairing P rows = true <-> whole_classes n col rows).
Proof. intros K P n col rows MS Hr. exact (validate_iff K P n col MS rows Hr). Qed.
Print Assumptions C36_check_iff.

(** Construction fails exactly if the check fails. *)
Theorem C36_rejects_iff :
  forall (K : CRing) (Inp FInp : Type) (pb : problem K Inp FInp) bs0 (P : bcoo K) (col : nat -> nat) ksolve
         (bc0 : dirichlet K) guess bc,
    master_slave P (pr_n pb) col -> wf_bc bc0 (pr_n pb) ->
    (reduced_solver pb bs0 P ksolve bc0 guess bc = None <-> ~ whole_classes (pr_n pb) col (bc_rows bc0)).
Proof.
  intros K Inp FInp pb bs0 P col ksolve bc0 guess bc MS Wb.
  rewrite <- (C36_check_iff K P (pr_n pb) col (bc_rows bc0) MS (wb_range Wb)).
  unfold reduced_solver. destruct (validate_bc_pairing P (bc_rows bc0)); split; congruence.
Qed.
Print Assumptions C36_rejects_iff.

(** For any prolongation, the reduced operator is symmetric if the free block is. *)
Theorem C36_symmetric :
  forall (K : CRing) (Inp FInp : Type) (pb : problem K Inp FInp) bs0 (P : bcoo K) (bc : dirichlet K) sol x y,
    0 < bs0 -> wf_problem pb -> wf_bc bc (pr_n pb) -> in_shape P (pr_n pb) ->
    free_block_symmetric pb bc sol ->
    dot (P_cols P) x (reduced_operator pb bs0 P sol bc y) = dot (P_cols P) (reduced_operator pb bs0 P sol bc x) y.
Proof. intros. apply op_symmetric; assumption. Qed.
Print Assumptions C36_symmetric.

(** The solution: initial guess plus a periodic correction; prescribed values attained where
    [value - guess] agrees over each class. *)
Theorem C36_values :
  forall (K : CRing) (Inp FInp : Type) (pb : problem K Inp FInp) bs0 (P : bcoo K) (col : nat -> nat) ksolve
         (bc : dirichlet K) (guess sol : list K),
    0 < bs0 -> wf_problem pb -> wf_bc bc (pr_n pb) -> master_slave P (pr_n pb) col ->
    torsion_free K -> length guess = pr_n pb ->
    exact_call (P_cols P) ksolve (reduced_operator pb bs0 P guess bc) (reduced_rhs pb bs0 P guess bc) ->
    reduced_solver pb bs0 P ksolve bc (Some guess) None = Some sol ->
    (forall i j, i < pr_n pb -> j < pr_n pb -> col i = col j ->
       csub (get sol i) (get guess i) = csub (get sol j) (get guess j)) /\
    ((forall k l, k < length (bc_rows bc) -> l < length (bc_rows bc) ->
       col (nth k (bc_rows bc) 0) = col (nth l (bc_rows bc) 0) ->
       csub (get (bc_vals bc) k) (get guess (nth k (bc_rows bc) 0)) =
       csub (get (bc_vals bc) l) (get guess (nth l (bc_rows bc) 0))) ->
     forall k, k < length (bc_rows bc) -> get sol (nth k (bc_rows bc) 0) = get (bc_vals bc) k).
Proof.
  intros K Inp FInp pb bs0 P col ksolve bc guess sol Hbs W Wb MS TF Hg Hex HS.
  unfold reduced_solver in HS. destruct (validate_bc_pairing P (bc_rows bc)) eqn:V; [|discriminate].
  inversion HS; subst sol. clear HS.
  apply (C36_check_iff K P (pr_n pb) col (bc_rows bc) MS (wb_range Wb)) in V. split.
  - intros i j Hi Hj Hc.
    rewrite !(sol_get K Inp FInp pb bs0 bc P col MS) by assumption. rewrite Hc.
    generalize (get guess i) (get guess j) (get (ksolve (reduced_operator pb bs0 P guess bc) (reduced_rhs pb bs0 P guess bc)) (col j)).
    intros a b c. apply ring_red.
  - intros Hag. apply (values_attained K Inp FInp pb bs0 Hbs W bc Wb P col MS V ksolve guess TF Hg Hex Hag).
Qed.
Print Assumptions C36_values.

(** A linear periodic problem started from a guess that meets the prescribed values
    (the default guess does): the values are attained and the residual of every free
    class vanishes. *)
Theorem C36_solves :
  forall (K : CRing) (Inp FInp : Type) (pb : problem K Inp FInp) bs0 (P : bcoo K) (col : nat -> nat) ksolve
         (bc : dirichlet K) (guess : option (list K)) (sol : list K),
    let ig := match guess with Some g => g | None => zero_like_initial_guess (pr_n pb) bc end in
    0 < bs0 -> wf_problem pb -> wf_bc bc (pr_n pb) -> master_slave P (pr_n pb) col ->
    torsion_free K -> affine_problem pb ->
    (forall g, guess = Some g -> length g = pr_n pb /\ meets_values bc g) ->
    exact_call (P_cols P) ksolve (reduced_operator pb bs0 P ig bc) (reduced_rhs pb bs0 P ig bc) ->
    reduced_solver pb bs0 P ksolve bc guess None = Some sol ->
    meets_values bc sol /\
    (forall i, i < pr_n pb -> ~ In i (bc_rows bc) -> class_sum (pr_n pb) col (col i) (spec_res pb sol) = c0).
Proof.
  intros K Inp FInp pb bs0 P col ksolve bc guess sol ig Hbs W Wb MS TF Aff Hgu Hex HS.
  unfold reduced_solver in HS. destruct (validate_bc_pairing P (bc_rows bc)) eqn:V; [|discriminate].
  fold ig in HS. inversion HS; subst sol. clear HS.
  apply (C36_check_iff K P (pr_n pb) col (bc_rows bc) MS (wb_range Wb)) in V.
  assert (HI : length ig = pr_n pb /\ meets_values bc ig).
  { unfold ig. destruct guess as [g|]; [apply Hgu; reflexivity|]. split.
    - unfold zero_like_initial_guess. rewrite scatter_set_length. apply repeat_length.
    - intros k Hk. apply guess_row; assumption. }
  destruct HI as [Hl Hm]. split.
  - apply (values_attained K Inp FInp pb bs0 Hbs W bc Wb P col MS V ksolve ig TF Hl Hex).
    intros k l Hk Hl' _. rewrite (Hm k Hk), (Hm l Hl'). apply ring_red2.
  - intros i Hi Hn. apply (class_equilibrium K Inp FInp pb bs0 Hbs W bc Wb P col MS V ksolve ig i TF Aff Hl Hex Hm Hi Hn).
Qed.
Print Assumptions C36_solves.

(** Reverse mode: with a symmetric free block the parameter cotangent is the exact
    derivative along every periodic response. *)
Theorem C36_gradient :
  forall (K : CRing) (Inp FInp : Type) (pb : problem K Inp FInp) bs0 (P : bcoo K) (col : nat -> nat) ksolve
         (bc : dirichlet K) (sol v dR du : list K),
    0 < bs0 -> wf_problem pb -> wf_bc bc (pr_n pb) -> master_slave P (pr_n pb) col ->
    validate_bc_pairing P (bc_rows bc) = true ->
    length dR = pr_n pb -> length du = pr_n pb ->
    free_block_symmetric pb bc sol ->
    exact_call (P_cols P) ksolve (reduced_operator pb bs0 P sol bc) (P_Tmul P v) ->
    periodic_response pb col bc sol dR du ->
    param_cotangent pb bc (reduced_multiplier pb bs0 P ksolve sol bc v) dR = dot (pr_n pb) v du.
Proof.
  intros K Inp FInp pb bs0 P col ksolve bc sol v dR du Hbs W Wb MS V HdR Hdu Hs Hex HR.
  apply (C36_check_iff K P (pr_n pb) col (bc_rows bc) MS (wb_range Wb)) in V.
  apply (reduced_gradient K Inp FInp pb bs0 Hbs W bc Wb P col MS V ksolve sol v dR du); assumption.
Qed.
Print Assumptions C36_gradient.

(** ** Examples: the three-node chain closed to a ring (node 2 = node 0). *)
Definition ring_P : bcoo ZK := @Build_bcoo ZK 3 2 [(0, 0, 1%Z); (1, 1, 1%Z); (2, 0, 1%Z)].
Definition ring_col (i : nat) : nat := nth i [0; 1; 0] 0.
Lemma ring_ms : master_slave ring_P 3 ring_col.
Proof. split; [reflexivity|]. split; [reflexivity|]. intros [|[|[|i]]] Hi; cbn; lia. Qed.
Example C36_example_from_pairing :
  exists P, prolongation_matrix Z.eqb [0; 1; 2]%Z 0%Z 1 [zshift 0 2 0] = Some P /\ bcoo_of P = ring_P.
Proof. eexists. split; reflexivity. Qed.
Lemma Z_torsion_free : torsion_free ZK.
Proof.
  intros k a Hk H.
  assert (E : forall s m, @sumf ZK nat (fun _ => a) (seq s m) = (Z.of_nat m * a)%Z).
  { intros s m. revert s. induction m as [|m IH]; intros s; [reflexivity|].
    cbn [seq sumf]. rewrite IH. change (@cadd ZK) with Z.add. lia. }
  rewrite E in H. change (@c0 ZK) with 0%Z in *. nia.
Qed.
Definition mid_bc : dirichlet ZK := @Build_dirichlet ZK [1] [false; true; false] [0%Z] 3.
Lemma mid_bc_wf : wf_bc mid_bc 3.
Proof.
  constructor; cbn; try reflexivity.
  - repeat constructor.
  - lia.
  - intros [|[|[|[|i]]]]; cbn; intuition (try discriminate; try lia).
Qed.
(** Element matrix [[1 -1]; [-1 2]]: the ring operator is diag(3, 1) with node 1 pinned. *)
Definition ring_solve (op : list ZK -> list ZK) (b : list ZK) : list ZK := [(nth 0 b 0 / 3)%Z; nth 1 b 0%Z].
Example C36_example :
  let pb := chain FULL 1 (-1) (-1) 2 in
  exact_call (P_cols ring_P) ring_solve
    (reduced_operator pb 1 ring_P (zero_like_initial_guess 3 mid_bc) mid_bc)
    (reduced_rhs pb 1 ring_P (zero_like_initial_guess 3 mid_bc) mid_bc) /\
  reduced_solver pb 1 ring_P ring_solve mid_bc None None = Some [1; 0; 1]%Z /\
  class_sum 3 ring_col 0 (spec_res pb [1; 0; 1]%Z) = 0%Z /\
  free_block_symmetric pb mid_bc [1; 0; 1]%Z.
Proof.
  split; [|split; [|split]].
  - split; [reflexivity|]. intros [|[|c]] Hc; cbn in Hc; try lia; vm_compute; reflexivity.
  - vm_compute. reflexivity.
  - vm_compute. reflexivity.
  - intros i j Hi Hj _ _. cbn in Hi, Hj.
    destruct i as [|[|[|i]]], j as [|[|[|j]]]; try lia; vm_compute; reflexivity.
Qed.
(** A response and an exact adjoint call for the same problem. *)
Example C36_example_gradient :
  let pb := chain FULL 1 (-1) (-1) 2 in
  periodic_response pb ring_col mid_bc [1; 0; 1]%Z [-1; 7; -2]%Z [1; 0; 1]%Z /\
  exact_call (P_cols ring_P) ring_solve (reduced_operator pb 1 ring_P [1; 0; 1]%Z mid_bc) (P_Tmul ring_P [1; 5; 2]%Z) /\
  validate_bc_pairing ring_P (bc_rows mid_bc) = true.
Proof.
  split; [|split; [|reflexivity]].
  - split; [|split].
    + intros [|[|[|i]]] [|[|[|j]]] Hi Hj; cbn in *; try lia; intros; reflexivity.
    + intros i [<-|[]]. reflexivity.
    + intros i Hi Hn. cbn in Hi. destruct i as [|[|[|i]]]; try lia; [vm_compute; reflexivity| |vm_compute; reflexivity].
      exfalso. apply Hn. left. reflexivity.
  - split; [reflexivity|]. intros [|[|c]] Hc; cbn in Hc; try lia; vm_compute; reflexivity.
Qed.

(** A fully pinned class with different [value - guess]: the check accepts, the solve is
    exact, and the class gets the average instead. *)
Definition ends_bc (v w : Z) : dirichlet ZK := @Build_dirichlet ZK [0; 2] [true; false; true] [v; w] 3.
Lemma ends_bc_wf v w : wf_bc (ends_bc v w) 3.
Proof.
  constructor; cbn; try reflexivity.
  - repeat constructor.
  - lia.
  - intros [|[|[|[|i]]]]; cbn; intuition (try discriminate; try lia).
Qed.
Theorem C36_disagreeing_values_refuted :
  exists (pb : problem ZK Z Z) (P : bcoo ZK) (col : nat -> nat) (bc : dirichlet ZK) (guess sol : list ZK) ksolve,
    wf_problem pb /\ wf_bc bc (pr_n pb) /\ master_slave P (pr_n pb) col /\ length guess = pr_n pb /\
    exact_call (P_cols P) ksolve (reduced_operator pb 1 P guess bc) (reduced_rhs pb 1 P guess bc) /\
    reduced_solver pb 1 P ksolve bc (Some guess) None = Some sol /\
    exists k, k < length (bc_rows bc) /\ get sol (nth k (bc_rows bc) 0) <> get (bc_vals bc) k.
Proof.
  exists (chain FULL 1 (-1) (-1) 2), ring_P, ring_col, (ends_bc 1 3), [0; 0; 0]%Z, [2; 1; 2]%Z,
    (fun _ b => [(nth 0 b 0 / 2)%Z; (nth 1 b 0 / 3)%Z]).
  split; [apply chain_wf|]. split; [apply ends_bc_wf|]. split; [apply ring_ms|]. split; [reflexivity|].
  split; [split; [reflexivity|]; intros [|[|c]] Hc; cbn in Hc; try lia; vm_compute; reflexivity|].
  split; [vm_compute; reflexivity|]. exists 0. split; [cbn; lia|]. vm_compute. discriminate.
Qed.
Print Assumptions C36_disagreeing_values_refuted.

(** The check runs at construction only: a BC passed at call time that pins part of a
    class is accepted, and its value is not attained. *)
Theorem C36_override_unchecked_refuted :
  exists (pb : problem ZK Z Z) (P : bcoo ZK) (col : nat -> nat) (bc0 bc : dirichlet ZK) (guess sol : list ZK) ksolve,
    wf_problem pb /\ wf_bc bc0 (pr_n pb) /\ wf_bc bc (pr_n pb) /\ master_slave P (pr_n pb) col /\
    validate_bc_pairing P (bc_rows bc) = false /\
    exact_call (P_cols P) ksolve (reduced_operator pb 1 P guess bc) (reduced_rhs pb 1 P guess bc) /\
    reduced_solver pb 1 P ksolve bc0 (Some guess) (Some bc) = Some sol /\
    exists k, k < length (bc_rows bc) /\ get sol (nth k (bc_rows bc) 0) <> get (bc_vals bc) k.
Proof.
  exists (chain FULL 1 (-1) (-1) 2), ring_P, ring_col, mid_bc, (chain_bc 4), [0; 0; 0]%Z, [3; 2; 3]%Z,
    (fun _ b => [((3 * nth 0 b 0 + nth 1 b 0) / 8)%Z; ((nth 0 b 0 + 3 * nth 1 b 0) / 8)%Z]).
  split; [apply chain_wf|]. split; [apply mid_bc_wf|]. split; [apply chain_bc_wf|]. split; [apply ring_ms|].
  split; [reflexivity|].
  split; [split; [reflexivity|]; intros [|[|c]] Hc; cbn in Hc; try lia; vm_compute; reflexivity|].
  split; [vm_compute; reflexivity|]. exists 0. split; [cbn; lia|]. vm_compute. discriminate.
Qed.
Print Assumptions C36_override_unchecked_refuted.
