(** Properties C02, C03, C04, C05 and the storage part of C08 (assembly). *)
From Verif Require Import Base Csr_Model Csr_Proofs Ops_Proofs Assembly_Model Assembly_Spec
     Assembly_Proofs AssemblyMain_Proofs Values_Proofs Csr_Props.
From Coq Require Import ZifyBool ZifyNat.
Set Implicit Arguments.

(** ** C02: the assembled matrix is the sum of the element contributions. *)
Theorem C02_assembled_sum :
  forall (K : CRing) (Inp FInp : Type) (pb : problem K Inp FInp) (bs0 : nat) (sol : list K),
  0 < bs0 -> wf_problem pb -> pr_surface_jac_zero pb = false ->
  valid_csr (get_jacobian pb bs0 sol) /\
  forall i j,
    (kept (pr_view pb) i j -> todense (get_jacobian pb bs0 sol) i j = spec_jac pb sol i j) /\
    (~ kept (pr_view pb) i j -> todense (get_jacobian pb bs0 sol) i j = c0) /\
    (~ coupled (pr_cells pb) i j -> spec_jac pb sol i j = c0).
Proof.
  intros K Inp FInp pb bs0 sol Hbs W Hf. split.
  - apply built_valid; [apply (all_pairs_range W) | apply (get_J_csr_length Hbs W)].
  - intros i j. rewrite (get_jacobian_dense Hbs W). unfold eff_jac. rewrite Hf.
    rewrite <- !in_view_kept. split; [|split].
    + intros ->. reflexivity.
    + intros H. destruct (in_view (pr_view pb) (i, j)); [congruence | reflexivity].
    + rewrite <- (all_pairs_coupled W). intros H.
      pose proof (eff_jac_zero Hbs W sol i j H) as E. unfold eff_jac in E. rewrite Hf in E. exact E.
Qed.
Print Assumptions C02_assembled_sum.

(** The two other value paths of the repository give the same data. *)
Theorem C02_value_paths :
  forall (K : CRing) n v all (V : list K), (forall p, In p all -> fst p < n /\ snd p < n) ->
  length V = length all ->
  let P := build_csr n v all in
  let d := csr_data_from_values P v all V in
  length d = p_nse P /\
  forall i j s, i < n -> stored P i j s ->
    get d s = sumf (fun k => if (fst (nth k all (0, 0)) =? i) && (snd (nth k all (0, 0)) =? j)
                             then get V k else c0) (seq 0 (length all)).
Proof.
  intros K n v all V Hr HV P d. split; [apply csr_data_from_values_length|].
  intros i j s Hi Hs. apply (@stored_slots n v all Hr i j s Hi) in Hs. destruct Hs as [Hs E].
  unfold d, P. rewrite (@csr_data_from_values_slot K n v all V Hr HV s Hs), E.
  unfold phits. rewrite (sumf_combine K (fun p x => if pair_eqb p (i, j) then x else c0) all V (0,0) c0)
    by (symmetry; exact HV).
  reflexivity.
Qed.
Print Assumptions C02_value_paths.

Example C02_example :
  map (fun i => map (todense (get_jacobian (ex_pb FULL false) 1 [1;2;3;4;5]%Z) i) [0;1;2;3;4]) [0;1;2;3;4] =
  [[16; 20; 25; 0; 0]; [25; 70; 62; 41; 0]; [35; 64; 68; 31; 0]; [0; 44; 37; 56; 0]; [0;0;0;0;0]]%Z.
Proof. vm_compute. reflexivity. Qed.

(** ** C03: batching and padding do not matter. *)
Theorem C03_batch_independent :
  forall (K : CRing) (Inp FInp : Type) (pb : problem K Inp FInp) (bs1 bs2 : nat) (sol : list K),
  0 < bs1 -> 0 < bs2 -> wf_problem pb ->
  get_J_csr pb bs1 sol = get_J_csr pb bs2 sol /\
  get_res pb bs1 sol = get_res pb bs2 sol /\
  get_res_J_csr pb bs1 sol = get_res_J_csr pb bs2 sol.
Proof.
  intros K Inp FInp pb bs1 bs2 sol H1 H2 W. split; [|split].
  - apply list_get_ext; [rewrite !get_J_csr_length by assumption; reflexivity|].
    intros s Hs. rewrite get_J_csr_length in Hs by assumption.
    rewrite !get_J_csr_slot by assumption. reflexivity.
  - apply list_get_ext; [rewrite !get_res_length; reflexivity|].
    intros s Hs. rewrite get_res_length in Hs.
    rewrite !get_res_spec by assumption. reflexivity.
  - rewrite (surjective_pairing (get_res_J_csr pb bs1 sol)), (surjective_pairing (get_res_J_csr pb bs2 sol)).
    f_equal.
    + apply list_get_ext; [rewrite !fused_res_length by assumption; reflexivity|].
      intros s Hs. rewrite fused_res_length in Hs by assumption.
      rewrite !fused_res_spec by assumption. reflexivity.
    + apply list_get_ext; [rewrite !fused_jac_length by assumption; reflexivity|].
      intros s Hs. rewrite fused_jac_length in Hs by assumption.
      rewrite !fused_jac_slot by assumption. reflexivity.
Qed.
Print Assumptions C03_batch_independent.

(** Plain evaluation, without batches, padding or sorted buffers: evaluate the
    kernel on every cell and add each raw entry into the slot (DOF) it maps to. *)
Theorem C03_equals_plain_scatter :
  forall (K : CRing) (Inp FInp : Type) (pb : problem K Inp FInp) (bs0 : nat) (sol : list K),
  0 < bs0 -> wf_problem pb ->
  (forall s, s < p_nse (pr_pat pb) ->
     get (assemble_volume_csr_data pb bs0 sol) s =
     sumf (fun p => sumf (fun q => if fst q =? s then snd q else c0)
                      (combine (nth p (vol_slots pb) [])
                               (snd (pr_kern pb (local_sol sol (nth p (pr_cells pb) []))
                                              (nth p (pr_inp pb) (pr_inp0 pb))))))
          (seq 0 (length (pr_cells pb)))) /\
  (forall A B (z : A) (f : A -> B) l, scan_vmap_batched z f bs0 l = map f l).
Proof.
  intros K Inp FInp pb bs0 sol Hbs W. split.
  - intros s Hs. rewrite (volume_data Hbs W) by exact Hs. unfold spec_vol_jac.
    rewrite (sumf_combine K (fun d x => elem_jac (pr_nd pb) d (snd (pr_kern pb (local_sol sol d) x)) _ _)
               (pr_cells pb) (pr_inp pb) [] (pr_inp0 pb)) by (symmetry; apply (w_inp W)).
    apply sumf_ext. intros p Hp. apply in_seq in Hp. cbn in Hp.
    set (d := nth p (pr_cells pb) []).
    assert (Hd : In d (pr_cells pb)) by (apply nth_In; lia).
    rewrite (vol_slots_eq Hbs W).
    rewrite nth_map_in with (d := @nil nat) by lia. fold d.
    pose proof (@hits_fs _ _ _ pb bs0 Hbs W) as HF.
    set (m := snd (pr_kern pb (local_sol sol d) (nth p (pr_inp pb) (pr_inp0 pb)))).
    change (sumf _ (combine (map (fslot pb) (elem_pairs d)) m)) with (hits s (map (fslot pb) (elem_pairs d)) m).
    rewrite HF by (try exact Hs; intros q Hq; apply (cells_pairs_in pb _ _ Hd Hq)).
    destruct (nth s (slots (pr_pat pb)) (0, 0)) as [i j] eqn:E. cbn [fst snd].
    symmetry. apply (phits_elem_jac pb Hbs).
    + apply (w_cells W _ Hd).
    + apply (w_kern W). unfold local_sol. rewrite map_length. apply (w_cells W _ Hd).
  - intros. apply scan_vmap_batched_map. exact Hbs.
Qed.
Print Assumptions C03_equals_plain_scatter.

Example C03_example :
  get_J_csr (ex_pb UPPER false) 1 [1;2;3;4;5]%Z = get_J_csr (ex_pb UPPER false) 256 [1;2;3;4;5]%Z /\
  length (get_J_csr (ex_pb UPPER false) 256 [1;2;3;4;5]%Z) = 9.
Proof. vm_compute. auto. Qed.

(** ** C04: fused = separate. *)
Theorem C04_fused :
  forall (K : CRing) (Inp FInp : Type) (pb : problem K Inp FInp) (bs0 : nat) (sol : list K),
  0 < bs0 -> wf_problem pb ->
  fst (get_res_J_csr pb bs0 sol) = get_res pb bs0 sol /\
  (pr_surface_jac_zero pb = false -> snd (get_res_J_csr pb bs0 sol) = get_J_csr pb bs0 sol) /\
  ((forall i j, spec_face_jac pb sol i j = c0) ->
     snd (get_res_J_csr pb bs0 sol) = get_J_csr pb bs0 sol).
Proof.
  intros K Inp FInp pb bs0 sol Hbs W. split; [|split]; intros.
  - apply fused_res_eq; assumption.
  - apply fused_jac_eq; auto.
  - apply fused_jac_eq; auto.
Qed.
Print Assumptions C04_fused.

(** With the skip flag set although the surface tangent is non-zero the two
    paths disagree (the flag is honoured by one path only). *)
Theorem C04_flag_mismatch_refuted :
  exists (pb : problem ZK Z Z) (sol : list Z),
    wf_problem pb /\ snd (get_res_J_csr pb 256 sol) <> get_J_csr pb 256 sol.
Proof.
  exists (ex_pb FULL true), [1;2;3;4;5]%Z. split; [apply ex_wf|]. vm_compute. discriminate.
Qed.
Print Assumptions C04_flag_mismatch_refuted.

Example C04_example : get_res_J_csr (ex_pb LOWER false) 1 [1;2;3;4;5]%Z =
  (get_res (ex_pb LOWER false) 256 [1;2;3;4;5]%Z, get_J_csr (ex_pb LOWER false) 256 [1;2;3;4;5]%Z).
Proof. vm_compute. reflexivity. Qed.

(** ** C05: the residual. *)
Theorem C05_residual_sum :
  forall (K : CRing) (Inp FInp : Type) (pb : problem K Inp FInp) (bs0 : nat) (sol : list K),
  0 < bs0 -> wf_problem pb ->
  length (get_res pb bs0 sol) = pr_n pb /\
  (forall i, i < pr_n pb -> get (get_res pb bs0 sol) i = spec_res pb sol i) /\
  (forall i, i < pr_n pb -> (forall d, In d (pr_cells pb) -> ~ In i d) -> get (get_res pb bs0 sol) i = c0).
Proof.
  intros K Inp FInp pb bs0 sol Hbs W. split; [apply get_res_length|].
  split; [intros; apply get_res_spec; assumption|].
  intros i Hi Hn. rewrite get_res_spec by assumption. unfold spec_res.
  assert (Z0 : forall d (r : list K), In d (pr_cells pb) -> elem_res (pr_nd pb) d r i = c0).
  { intros d r Hd. unfold elem_res. apply sumf_zero. intros a Ha. apply in_seq in Ha.
    destruct (Nat.eqb_spec (nth a d 0) i) as [E|]; [|reflexivity].
    exfalso. apply (Hn d Hd). rewrite <- E. apply nth_In. rewrite (w_cells W _ Hd). lia. }
  rewrite !sumf_zero.
  - destruct (cth K). apply Radd_0_l.
  - intros b Hb. apply sumf_zero. intros [c x] Hin. cbn [fst snd]. apply in_combine_l in Hin.
    apply Z0. apply nth_In. apply (w_bcells W b); assumption.
  - intros [d x] Hin. apply in_combine_l in Hin. apply Z0. exact Hin.
Qed.
Print Assumptions C05_residual_sum.

Example C05_example : get_res (ex_pb FULL false) 1 [1;2;3;4;5]%Z = [7; 36; 51; 41; 0]%Z.
Proof. vm_compute. reflexivity. Qed.

(** ** C08: triangular storage of the assembled matrix. *)

(** The matrix assembled with a triangular view is the triangle of the matrix
    assembled without one, and the view-aware product with it equals the plain
    product with the full matrix whenever the latter is symmetric. *)
Definition with_view {K Inp FInp} (v : view) (pb : problem K Inp FInp) : problem K Inp FInp :=
  Build_problem (pr_n pb) v (pr_nd pb) (pr_cells pb) (pr_inp pb) (pr_inp0 pb) (pr_kern pb)
                (pr_bnd pb) (pr_surface_jac_zero pb).

Theorem C08_triangular_assembly :
  forall (K : CRing) (Inp FInp : Type) (pb : problem K Inp FInp) (bs0 : nat) (sol : list K) (v : view),
  0 < bs0 -> wf_problem pb ->
  let F := get_jacobian (with_view FULL pb) bs0 sol in
  let A := get_jacobian (with_view v pb) bs0 sol in
  (forall i j, kept v i j -> todense A i j = todense F i j) /\
  (forall i j, ~ kept v i j -> todense A i j = c0) /\
  ((forall i j, todense F i j = todense F j i) ->
   forall x i, i < pr_n pb -> get (matvec_with_view v A x) i = get (matvec F x) i).
Proof.
  intros K Inp FInp pb bs0 sol v Hbs W F A.
  assert (WV : forall w, wf_problem (with_view w pb)) by (intros w; destruct W; constructor; assumption).
  assert (D : forall w i j, todense (get_jacobian (with_view w pb) bs0 sol) i j =
                            if in_view w (i, j) then eff_jac pb sol i j else c0).
  { intros w i j. rewrite (get_jacobian_dense Hbs (WV w)). reflexivity. }
  assert (H1 : forall i j, kept v i j -> todense A i j = todense F i j).
  { intros i j Hk. unfold A, F. rewrite !D. apply in_view_kept in Hk. rewrite Hk. reflexivity. }
  assert (H2 : forall i j, ~ kept v i j -> todense A i j = c0).
  { intros i j Hk. unfold A. rewrite D. rewrite <- in_view_kept in Hk.
    destruct (in_view v (i, j)); [congruence | reflexivity]. }
  split; [exact H1|]. split; [exact H2|].
  intros HS x i Hi.
  assert (VV : forall w, valid_csr (get_jacobian (with_view w pb) bs0 sol)).
  { intros w. apply built_valid; [apply (all_pairs_range (WV w)) | apply (get_J_csr_length Hbs (WV w))]. }
  rewrite (@C08_view_product K v A (todense F) x (VV v) eq_refl) by
     (try exact Hi; intros; auto).
  destruct (C07_ops_dense (VV FULL)) as (_ & HM & _). unfold F. rewrite HM by exact Hi. reflexivity.
Qed.
Print Assumptions C08_triangular_assembly.

(** A symmetric example: the view-aware product of the upper triangle. *)
Definition ex_sym_pb (v : view) : problem ZK Z Z :=
  @Build_problem ZK Z Z 4 v 3 [[0; 1; 2]; [2; 1; 3]] [5; 7]%Z 0%Z
    (fun u x => (u, [x;1;2; 1;x;3; 2;3;x]%Z)) [] false.
Example C08_example :
  (forall i j, i < 4 -> j < 4 -> todense (get_jacobian (ex_sym_pb FULL) 256 [0;0;0;0]%Z) i j =
               todense (get_jacobian (ex_sym_pb FULL) 256 [0;0;0;0]%Z) j i) /\
  matvec_with_view UPPER (get_jacobian (ex_sym_pb UPPER) 256 [0;0;0;0]%Z) [1;2;3;4]%Z =
  matvec (get_jacobian (ex_sym_pb FULL) 256 [0;0;0;0]%Z) [1;2;3;4]%Z.
Proof.
  split; [|vm_compute; reflexivity].
  intros i j Hi Hj. destruct i as [|[|[|[|i]]]]; try lia; destruct j as [|[|[|[|j]]]]; try lia; vm_compute; reflexivity.
Qed.
