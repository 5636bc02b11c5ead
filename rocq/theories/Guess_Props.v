(** Prescribed values survive an unfinished iterative solve. *)
From Verif Require Import Base Csr_Model Assembly_Model Assembly_Spec Assembly_Proofs Values_Proofs AssemblyMain_Proofs Dof_Model Bc_Model Bc_Proofs Bc_Props LinSolve_Model LinSolve_Spec
                          LinSolve_Proofs LinSolve_Props Guess_Model.
From Coq Require Import List Arith Lia ZArith Sorted.
Import ListNotations.

(** [M] leaves the constrained entries of a vector zero when they are zero. *)
Definition keeps_zeros {K : CRing} (n : nat) (rows : list nat) (M : list K -> list K) : Prop :=
  forall v, length v = n -> length (M v) = n /\ ((forall r, In r rows -> get v r = c0) -> forall r, In r rows -> get (M v) r = c0).
(** Distance from the prescribed values. *)
Definition violation {K : CRing} (bc : dirichlet K) (sol : list K) (k : nat) : K := csub (get sol (nth k (bc_rows bc) 0)) (get (bc_vals bc) k).

Section Lemmas.
  Variable K : CRing.
  Local Open Scope ring_K.
  Add Ring KR : (cth K).
  Lemma kmul0r (a : K) : a * 0 = 0. Proof. ring. Qed.
  Lemma kmul0l (a : K) : 0 * a = 0. Proof. ring. Qed.
  Lemma kmul1l (a : K) : 1 * a = a. Proof. ring. Qed.
  Lemma kadd0r (a : K) : a + 0 = a. Proof. ring. Qed.
  Lemma kmul1r (a : K) : a * 1 = a. Proof. ring. Qed.
  Lemma ring_back (a b : K) : a + (b - a) = b. Proof. ring. Qed.
  Lemma ring_rem (a b c : K) : a * ((1 - b) * c) = (1 - b) * a * c. Proof. ring. Qed.
  Lemma ring_r1 (a : K) : (1 - 1) * a = 0. Proof. ring. Qed.
  Lemma ring_subadd (a b : K) : a - b = a + - b. Proof. ring. Qed.
  Lemma ring_z : (0 : K) + - 0 = 0. Proof. ring. Qed.
  Lemma ring_sub0 (a : K) : a - a = 0. Proof. ring. Qed.

  Lemma vscale_length (a : K) v : length (vscale a v) = length v.
  Proof. apply map_length. Qed.
  Lemma get_vscale (a : K) v i : get (vscale a v) i = a * get v i.
  Proof.
    unfold get, vscale. destruct (Nat.lt_ge_cases i (length v)) as [H|H].
    - rewrite (nth_indep _ 0 (a * 0)) by (rewrite map_length; exact H). rewrite (map_nth (cmul a)). reflexivity.
    - rewrite !nth_overflow by (try rewrite map_length; exact H). ring.
  Qed.

  Lemma search_zero n (A M : list K -> list K) rows r0 d :
    keeps_zeros n rows M -> (forall v, length (A v) = n) -> (forall v r, In r rows -> get (A v) r = get v r) ->
    length r0 = n -> (forall r, In r rows -> get r0 r = 0) -> search n A M r0 d ->
    length d = n /\ forall r, In r rows -> get d r = 0.
  Proof.
    intros KM AL AR L0 Z0 S. induction S as [| |v S IH|a b v w Sv IHv Sw IHw].
    - split; [apply repeat_length|]. intros r _. apply get_zeros.
    - destruct (KM r0 L0) as [L H]. split; [exact L|]. apply H. exact Z0.
    - destruct IH as [L H]. destruct (KM (A v) (AL v)) as [L1 H1]. split; [exact L1|]. apply H1. intros r Hr. rewrite AR by exact Hr. apply H. exact Hr.
    - destruct IHv as [Lv Hv]. destruct IHw as [Lw Hw]. assert (LL : length (vscale a v) = length (vscale b w)) by (rewrite !vscale_length; congruence).
      split; [rewrite vadd_length by exact LL; rewrite vscale_length; exact Lv|].
      intros r Hr. rewrite get_vadd by exact LL. rewrite !get_vscale, Hv, Hw by exact Hr. ring.
  Qed.
  (** Whatever the solver returns agrees with the guess at rows where the guess already solves the equations. *)
  Lemma iterate_rows n (A M : list K -> list K) rows b x0 x :
    keeps_zeros n rows M -> (forall v, length (A v) = n) -> (forall v r, In r rows -> get (A v) r = get v r) ->
    length b = n -> length x0 = n -> (forall r, In r rows -> get x0 r = get b r) -> iterate n A M b x0 x ->
    length x = n /\ forall r, In r rows -> get x r = get b r.
  Proof.
    intros KM AL AR Lb Lx E (d & S & ->).
    assert (Lr : length (vsub b (A x0)) = n) by (unfold vsub; rewrite vadd_length by (rewrite vneg_length, AL; exact Lb); exact Lb).
    destruct (search_zero n A M rows (vsub b (A x0)) d KM AL AR Lr) as [Ld Hd]; [|exact S|].
    - intros r Hr. unfold vsub. rewrite get_vadd by (rewrite vneg_length, AL; exact Lb). rewrite get_vneg, AR, E by exact Hr. ring.
    - split; [rewrite vadd_length by congruence; exact Lx|]. intros r Hr. rewrite get_vadd by congruence. rewrite Hd, E by exact Hr. ring.
  Qed.
End Lemmas.

Section Steps.
  Variable K : CRing.
  Local Open Scope ring_K.
  Add Ring KR2 : (cth K).
  Variables (Inp FInp : Type) (pb : problem K Inp FInp) (bs0 : nat) (bc : dirichlet K) (sym : bool).
  Hypothesis Wb : wf_bc bc (pr_n pb).

  Lemma op_length sol v : length (snd (matfree_res_J pb bs0 sym sol bc) v) = pr_n pb.
  Proof. cbn [matfree_res_J snd]. rewrite map_length. apply seq_length. Qed.
  Lemma op_rows sol v r : In r (bc_rows bc) -> get (snd (matfree_res_J pb bs0 sym sol bc) v) r = get v r.
  Proof.
    intros Hr. cbn [matfree_res_J snd]. rewrite get_map_seq by (apply (wb_range Wb); exact Hr). rewrite (mask_true r Wb Hr). reflexivity.
  Qed.
  Lemma rhs_length sol : length (vneg (fst (matfree_res_J pb bs0 sym sol bc))) = pr_n pb.
  Proof. rewrite vneg_length. cbn [matfree_res_J fst]. rewrite apply_res_length. apply get_res_length. Qed.
  Lemma rhs_rows sol k : k < length (bc_rows bc) ->
    get (vneg (fst (matfree_res_J pb bs0 sym sol bc))) (nth k (bc_rows bc) 0%nat) = get (bc_vals bc) k - get sol (nth k (bc_rows bc) 0%nat).
  Proof.
    intros Hk. rewrite get_vneg. cbn [matfree_res_J fst]. rewrite (get_apply_res_row (get_res pb bs0 sol) sol 1 Wb (get_res_length _ _ _) Hk). ring.
  Qed.
  Lemma x0_length sol : length sol = pr_n pb -> length (x0_parametric sol bc) = pr_n pb.
  Proof. intros L. unfold x0_parametric, vsub. rewrite vadd_length; rewrite ?vneg_length, !scatter_set_length; [rewrite <- L; apply repeat_length|reflexivity]. Qed.
  Lemma x0_rows sol k : length sol = pr_n pb -> k < length (bc_rows bc) ->
    get (x0_parametric sol bc) (nth k (bc_rows bc) 0%nat) = get (bc_vals bc) k - get sol (nth k (bc_rows bc) 0%nat).
  Proof.
    intros L Hk. unfold x0_parametric, vsub. rewrite get_vadd by (rewrite vneg_length, !scatter_set_length; reflexivity).
    rewrite get_vneg, L. change (scatter_set (zeros (pr_n pb)) (combine (bc_rows bc) (bc_vals bc))) with (zero_like_initial_guess (pr_n pb) bc).
    rewrite (guess_row Wb Hk), get_set_rows.
    - rewrite <- (mask_existsb _ Wb), (mask_true _ Wb) by (apply nth_In; exact Hk). ring.
    - intros r Hr. unfold zeros. rewrite repeat_length. apply (wb_range Wb). exact Hr.
  Qed.
  Lemma x0_free sol i : length sol = pr_n pb -> ~ In i (bc_rows bc) -> get (x0_parametric sol bc) i = 0.
  Proof.
    intros L Hi. unfold x0_parametric, vsub. rewrite get_vadd by (rewrite vneg_length, !scatter_set_length; reflexivity).
    rewrite get_vneg, L. change (scatter_set (zeros (pr_n pb)) (combine (bc_rows bc) (bc_vals bc))) with (zero_like_initial_guess (pr_n pb) bc).
    rewrite (guess_free i Wb Hi), get_set_rows.
    - rewrite <- (mask_existsb _ Wb), (mask_false _ Wb) by exact Hi. rewrite get_zeros. ring.
    - intros r Hr. unfold zeros. rewrite repeat_length. apply (wb_range Wb). exact Hr.
  Qed.

  Lemma step_rows M sol a sol' : keeps_zeros (pr_n pb) (bc_rows bc) M -> length sol = pr_n pb -> step_from pb bs0 sym M bc sol a sol' ->
    length sol' = pr_n pb /\ forall k, k < length (bc_rows bc) -> violation bc sol' k = (1 - a) * violation bc sol k.
  Proof.
    intros KM L (du & HI & ->).
    destruct (iterate_rows K (pr_n pb) _ M (bc_rows bc) _ _ du KM (op_length sol) (fun v r => op_rows sol v r) (rhs_length sol) (x0_length sol L)) as [Ld Hd]; [|exact HI|].
    - intros r Hr. apply (In_nth _ _ 0%nat) in Hr. destruct Hr as (k & Hk & <-). rewrite x0_rows, rhs_rows by assumption. reflexivity.
    - assert (LL : length sol = length (vscale a du)) by (rewrite vscale_length; congruence).
      split; [rewrite vadd_length by exact LL; exact L|]. intros k Hk. unfold violation. rewrite get_vadd by exact LL.
      rewrite get_vscale, Hd by (apply nth_In; exact Hk). rewrite rhs_rows by exact Hk. ring.
  Qed.
End Steps.

Lemma sorted_nodup l : StronglySorted lt l -> NoDup l.
Proof. induction 1 as [|a l S IH F]; constructor; [|exact IH]. intros Hin. rewrite Forall_forall in F. specialize (F a Hin). lia. Qed.

(** ** Theorems *)
(** No preconditioner, and the Jacobi preconditioner, for any diagonal. *)
Theorem C112_preconditioners : forall (K : CRing) n rows, keeps_zeros (K := K) n rows (fun v => v) /\
  forall dinv : list K, keeps_zeros n rows (jacobi dinv).
Proof.
  intros K n rows. split; [intros v L; split; [exact L|auto]|]. intros dinv v L. split; [unfold jacobi; rewrite map_length, seq_length; exact L|].
  intros Z r Hr. unfold jacobi. destruct (Nat.lt_ge_cases r (length v)) as [H|H].
  - rewrite get_map_seq by exact H. rewrite Z by exact Hr. apply (kmul0r K).
  - unfold get. apply nth_overflow. rewrite map_length, seq_length. exact H.
Qed.
Print Assumptions C112_preconditioners.

(** The Jacobi preconditioner divides every entry by its own shifted diagonal entry. *)
Theorem C112_jacobi : forall (K : CRing) (d dinv v : list K) (shift : K) i, (forall j, j < length v -> cmul (cadd (get d j) shift) (get dinv j) = c1) -> i < length v ->
  length (jacobi dinv v) = length v /\ cmul (cadd (get d i) shift) (get (jacobi dinv v) i) = get v i.
Proof.
  intros K d dinv v shift i H Hi. unfold jacobi. split; [rewrite map_length, seq_length; reflexivity|].
  rewrite get_map_seq by exact Hi. pose proof (H i Hi) as E. generalize dependent (get v i). intros w. pose proof (cth K) as th.
  rewrite (Rmul_assoc th), E. apply (Rmul_1_l th).
Qed.
Print Assumptions C112_jacobi.

(** One solve from any state, stopped after any number of iterations: the updated state attains every prescribed value exactly. *)
Theorem C112_early_stop :
  forall (K : CRing) (Inp FInp : Type) (pb : problem K Inp FInp) bs0 sym M (bc : dirichlet K) (sol du : list K),
  wf_bc bc (pr_n pb) -> length sol = pr_n pb -> keeps_zeros (pr_n pb) (bc_rows bc) M ->
  let RJ := matfree_res_J pb bs0 sym sol bc in
  iterate (pr_n pb) (snd RJ) M (vneg (fst RJ)) (create_x0 bc sol) du ->
  forall k, k < length (bc_rows bc) -> get (vadd sol du) (nth k (bc_rows bc) 0) = get (bc_vals bc) k.
Proof.
  intros K Inp FInp pb bs0 sym M bc sol du Wb L KM RJ HI k Hk.
  destruct (iterate_rows K (pr_n pb) _ M (bc_rows bc) _ _ du KM (op_length K _ _ pb bs0 bc sym sol) (fun v r => op_rows K _ _ pb bs0 bc sym Wb sol v r)
             (rhs_length K _ _ pb bs0 bc sym sol) (x0_length K _ _ pb bc sol L)) as [Ld Hd]; [|exact HI|].
  - intros r Hr. apply (In_nth _ _ 0) in Hr. destruct Hr as (j & Hj & <-). rewrite (x0_rows K _ _ pb bc Wb sol j L Hj), (rhs_rows K _ _ pb bs0 bc sym Wb sol j Hj). reflexivity.
  - rewrite get_vadd by congruence. rewrite Hd by (apply nth_In; exact Hk). unfold RJ. rewrite (rhs_rows K _ _ pb bs0 bc sym Wb sol k Hk). apply (ring_back K).
Qed.
Print Assumptions C112_early_stop.

(** The Newton loop with any accepted step lengths and linear solves of any accuracy: each pass multiplies the distance from the prescribed
    values by [1 - alpha]. So they hold exactly from the first full step on, and always when the start satisfies them. *)
Definition remaining {K : CRing} (alphas : list K) : K := fold_right (fun a t => cmul (csub c1 a) t) c1 alphas.
Theorem C112_newton :
  forall (K : CRing) (Inp FInp : Type) (pb : problem K Inp FInp) bs0 sym M (bc : dirichlet K) (sol sol' alphas : list K),
  wf_bc bc (pr_n pb) -> length sol = pr_n pb -> keeps_zeros (pr_n pb) (bc_rows bc) M ->
  passes pb bs0 sym M bc sol alphas sol' ->
  (forall k, k < length (bc_rows bc) -> violation bc sol' k = cmul (remaining alphas) (violation bc sol k)) /\
  (In c1 alphas \/ (forall k, k < length (bc_rows bc) -> get sol (nth k (bc_rows bc) 0) = get (bc_vals bc) k) ->
   forall k, k < length (bc_rows bc) -> get sol' (nth k (bc_rows bc) 0) = get (bc_vals bc) k).
Proof.
  intros K Inp FInp pb bs0 sym M bc sol sol' alphas Wb L KM H.
  assert (V : forall k, k < length (bc_rows bc) -> violation bc sol' k = cmul (remaining alphas) (violation bc sol k)).
  { induction H as [sol|sol a sol1 l sol2 S H IH]; intros k Hk; [cbn; symmetry; apply (kmul1l K)|].
    destruct (step_rows K _ _ pb bs0 bc sym Wb M sol a sol1 KM L S) as [L1 V1]. rewrite (IH L1 k Hk), (V1 k Hk). cbn [remaining fold_right]. fold (remaining l). apply (ring_rem K). }
  split; [exact V|]. intros HO k Hk. apply (@sub_zero_iff K). rewrite (kmul1r K). fold (violation bc sol' k). rewrite (V k Hk). destruct HO as [HO|HO].
  - assert (R0 : remaining alphas = c0).
    { clear V H. induction alphas as [|a l IH]; [destruct HO|]. cbn [remaining fold_right]. destruct HO as [->|HO]; [apply (ring_r1 K)|]. fold (remaining l). rewrite (IH HO). apply (kmul0r K). }
    rewrite R0. apply (kmul0l K).
  - unfold violation. rewrite (HO k Hk), (ring_sub0 K). apply (kmul0r K).
Qed.
Print Assumptions C112_newton.

(** The closure and the parametric guess are the same function; added to the state it attains the prescribed values and changes nothing else. *)
Theorem C112_guess :
  forall (K : CRing) (bc : dirichlet K) (sol : list K), wf_bc bc (length sol) ->
  x0_parametric sol bc = create_x0 bc sol /\
  (forall k, k < length (bc_rows bc) -> get (vadd sol (create_x0 bc sol)) (nth k (bc_rows bc) 0) = get (bc_vals bc) k) /\
  (forall i, ~ In i (bc_rows bc) -> get (vadd sol (create_x0 bc sol)) i = get sol i).
Proof.
  intros K bc sol Wb. split; [reflexivity|].
  set (pb := {| pr_n := length sol; pr_view := FULL; pr_nd := 0; pr_cells := []; pr_inp := []; pr_inp0 := tt; pr_kern := fun _ _ => ([] : list K, []);
                pr_bnd := @nil (boundary K unit); pr_surface_jac_zero := false |}).
  assert (L : length sol = length (create_x0 bc sol)) by (symmetry; exact (x0_length K _ _ pb bc sol eq_refl)).
  split.
  - intros k Hk. rewrite get_vadd by exact L. change (create_x0 bc sol) with (x0_parametric sol bc). rewrite (x0_rows K _ _ pb bc Wb sol k eq_refl Hk). apply (ring_back K).
  - intros i Hi. rewrite get_vadd by exact L. change (create_x0 bc sol) with (x0_parametric sol bc). rewrite (x0_free K _ _ pb bc Wb sol i eq_refl Hi). apply (kadd0r K).
Qed.
Print Assumptions C112_guess.

(** The guess of the adjoint solve, symmetric elimination: whatever the solver returns agrees with the incoming cotangent at every
    constrained unknown, as the exact multiplier does. *)
Theorem C112_adjoint :
  forall (K : CRing) (Inp FInp : Type) (pb : problem K Inp FInp) bs0 M (bc : dirichlet K) (sol v lam : list K),
  wf_bc bc (pr_n pb) -> length v = pr_n pb -> keeps_zeros (pr_n pb) (bc_rows bc) M ->
  iterate (pr_n pb) (adjoint_operator pb bs0 true sol bc) M v (adjoint_x0 bc v) lam ->
  forall r, In r (bc_rows bc) -> get lam r = get v r.
Proof.
  intros K Inp FInp pb bs0 M bc sol v lam Wb L KM HI.
  apply (fun a b c d e f => proj2 (iterate_rows K (pr_n pb) (adjoint_operator pb bs0 true sol bc) M (bc_rows bc) v (adjoint_x0 bc v) lam KM a b c d e f)); try assumption.
  - exact (op_length K _ _ pb bs0 bc true sol).
  - exact (fun w r => op_rows K _ _ pb bs0 bc true Wb sol w r).
  - unfold adjoint_x0. rewrite scatter_set_length. unfold zeros. rewrite repeat_length. exact L.
  - intros r Hr. unfold adjoint_x0. rewrite get_set_rows.
    + rewrite <- (mask_existsb r Wb), (mask_true r Wb Hr). reflexivity.
    + intros r' Hr'. unfold zeros. rewrite repeat_length, L. apply (wb_range Wb). exact Hr'.
Qed.
Print Assumptions C112_adjoint.

(** Without symmetric elimination the exact multiplier differs from the guess at a constrained unknown. *)
Theorem C112_adjoint_refuted :
  exists (pb : problem ZK Z Z) (bc : dirichlet ZK) (sol v lam : list ZK) r,
    wf_problem pb /\ wf_bc bc (pr_n pb) /\ length v = pr_n pb /\ length lam = pr_n pb /\ In r (bc_rows bc) /\
    adjoint_operator pb 256 false sol bc lam = v /\ get lam r <> get (adjoint_x0 bc v) r.
Proof.
  exists (chain FULL 1 (-1) (-1) 1), (chain_bc 5), [5; 11; 14]%Z, [-1; 2; -1]%Z, [0; 1; 0]%Z, 0.
  split; [apply chain_wf|]. split; [apply chain_bc_wf|]. split; [reflexivity|]. split; [reflexivity|]. split; [left; reflexivity|]. split; [vm_compute; reflexivity|]. vm_compute. discriminate.
Qed.
Print Assumptions C112_adjoint_refuted.

(** With a prolongation matrix the guess adds up what every constrained full unknown asks of a reduced one. *)
Theorem C112_reduced_guess :
  forall (K : CRing) N m (P : nat -> nat -> K) (bc : dirichlet K) (sol : list K) j,
  wf_bc bc N -> j < m ->
  get (x0_reduced N m P bc sol) j =
  sumf (fun k => let r := nth k (bc_rows bc) 0 in cmul (P r j) (csub (get (bc_vals bc) k) (get (pmul N m P sol) r))) (seq 0 (length (bc_rows bc))).
Proof.
  intros K N m P bc sol j Wb Hj. unfold x0_reduced, ptmul. rewrite get_map_seq by exact Hj.
  set (full := pmul N m P sol).
  assert (X : forall i, i < N -> get (vsub (scatter_set (zeros N) (combine (bc_rows bc) (bc_vals bc)))
                      (scatter_set (zeros N) (map (fun r => (r, get full r)) (bc_rows bc)))) i =
     sumf (fun k => if i =? nth k (bc_rows bc) 0 then csub (get (bc_vals bc) k) (get full i) else c0) (seq 0 (length (bc_rows bc)))).
  { intros i Hi. unfold vsub. rewrite get_vadd by (rewrite vneg_length, !scatter_set_length; reflexivity). rewrite get_vneg.
    rewrite get_set_rows by (intros r Hr; unfold zeros; rewrite repeat_length; apply (wb_range Wb); exact Hr).
    change (scatter_set (zeros N) (combine (bc_rows bc) (bc_vals bc))) with (zero_like_initial_guess N bc).
    rewrite <- (mask_existsb i Wb).
    destruct (in_dec Nat.eq_dec i (bc_rows bc)) as [Hin|Hin].
    - rewrite (mask_true i Wb Hin). apply (In_nth _ _ 0) in Hin. destruct Hin as (k0 & Hk0 & E). rewrite <- E at 1. rewrite (guess_row Wb Hk0).
      transitivity (sumf (fun k => if k =? k0 then csub (get (bc_vals bc) k) (get full i) else c0) (seq 0 (length (bc_rows bc)))).
      { rewrite (@sumf_single_nat K (fun k => csub (get (bc_vals bc) k) (get full i)) k0 _ Hk0). symmetry. apply (ring_subadd K). }
      apply sumf_ext.
      intros k Hk. apply in_seq in Hk. destruct (Nat.eqb_spec i (nth k (bc_rows bc) 0)) as [E2|E2].
      + assert (k = k0). { apply (NoDup_nth (bc_rows bc) 0); [exact (sorted_nodup _ (wb_sorted Wb))|lia|exact Hk0|congruence]. } subst. rewrite Nat.eqb_refl. reflexivity.
      + destruct (Nat.eqb_spec k k0) as [->|]; [congruence|reflexivity].
    - rewrite (mask_false i Wb Hin), (guess_free i Wb Hin), get_zeros. rewrite sumf_zero; [apply (ring_z K)|].
      intros k Hk. apply in_seq in Hk. destruct (Nat.eqb_spec i (nth k (bc_rows bc) 0)) as [E2|E2]; [|reflexivity]. exfalso. apply Hin. rewrite E2. apply nth_In. lia. }
  erewrite sumf_ext; [|intros i Hi; apply in_seq in Hi; rewrite X by lia; rewrite <- sumf_mul_l; reflexivity].
  rewrite sumf_swap. apply sumf_ext. intros k Hk. apply in_seq in Hk. cbn zeta.
  assert (Hr : nth k (bc_rows bc) 0 < N) by (apply (wb_range Wb); apply nth_In; lia).
  rewrite <- (@sumf_single_nat K (fun i => cmul (P i j) (csub (get (bc_vals bc) k) (get full i))) _ _ Hr).
  apply sumf_ext. intros i Hi. destruct (Nat.eqb i (nth k (bc_rows bc) 0)); [reflexivity|apply (kmul0r K)].
Qed.
Print Assumptions C112_reduced_guess.

(** So a reduced unknown that stands for two constrained full unknowns is overshot: starting from zero with both held at 1 the guess is 2. *)
Theorem C112_reduced_refuted :
  exists (P : nat -> nat -> ZK) (bc : dirichlet ZK) (sol : list ZK),
    wf_bc bc 3 /\ (forall i, i < 3 -> exists j, j < 2 /\ P i j = 1%Z) /\
    get (pmul 3 2 P (vadd sol (x0_reduced 3 2 P bc sol))) 0 = 2%Z /\ get (bc_vals bc) 0 = 1%Z /\ nth 0 (bc_rows bc) 0 = 0.
Proof.
  exists (fun i j => if (i mod 2) =? j then 1%Z else 0%Z), (@Build_dirichlet ZK [0; 2] [true; false; true] [1; 1]%Z 3), [0; 0]%Z.
  split; [constructor; cbn; try reflexivity|].
  - repeat constructor.
  - lia.
  - intros [|[|[|[|i]]]]; cbn; intuition (try discriminate; try lia).
  - split; [intros [|[|[|i]]] Hi; [exists 0|exists 1|exists 0|lia]; split; try lia; reflexivity|]. vm_compute. auto.
Qed.
Print Assumptions C112_reduced_refuted.

(** A chain of two elements held at 5 on the left: one unit step along the residual from [[1; 1; 7]] gives [[5; 14; 4]], not the solution
    [[5; 11; 14]], with the prescribed value attained; two updates with step lengths 3 and 2 multiply the gap by (1 - 3)(1 - 2) = 2. *)
Example C112_example :
  let pb := chain FULL 1 (-1) (-1) 1 in let bc := chain_bc 5 in let sol := [1; 1; 7]%Z : list ZK in
  wf_bc bc (pr_n pb) /\ length sol = pr_n pb /\
  (exists du, iterate (pr_n pb) (snd (matfree_res_J pb 256 false sol bc)) (fun v => v) (vneg (fst (matfree_res_J pb 256 false sol bc))) (create_x0 bc sol) du /\
     vadd sol du = [5; 14; 4]%Z) /\
  (exists sol', passes pb 256 false (fun v => v) bc sol [3; 2]%Z sol' /\ get sol' 0 = (5 + 2 * (1 - 5))%Z /\ violation bc sol 0 = (-4)%Z).
Proof.
  cbn zeta. split; [apply chain_bc_wf|]. split; [reflexivity|]. split.
  - eexists. split; [exists (vadd (vscale (1%Z : ZK) (vsub (vneg (fst (matfree_res_J (chain FULL 1 (-1) (-1) 1) 256 false [1; 1; 7]%Z (chain_bc 5)))) (snd (matfree_res_J (chain FULL 1 (-1) (-1) 1) 256 false [1; 1; 7]%Z (chain_bc 5)) (create_x0 (chain_bc 5) [1; 1; 7]%Z)))) (vscale (0%Z : ZK) (zeros 3))); split; [|reflexivity]; apply s_comb; [apply (s_start ZK 3 _ (fun v => v))|apply s_zero]|]. vm_compute. reflexivity.
  - eexists. split.
    + eapply p_step; [eexists; split; [eexists; split; [apply s_zero|reflexivity]|reflexivity]|].
      eapply p_step; [eexists; split; [eexists; split; [apply s_zero|reflexivity]|reflexivity]|]. apply p_done.
    + vm_compute. auto.
Qed.
