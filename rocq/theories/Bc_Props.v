(** Properties C09-C13 and C51 (Dirichlet boundary conditions). *)
From Coq Require Import String Ascii.
From Verif Require Import Base Csr_Model Csr_Proofs Ops_Proofs Assembly_Model Assembly_Spec
     Assembly_Proofs AssemblyMain_Proofs Values_Proofs Csr_Props Assembly_Props
     Dof_Model Dof_Spec Dof_Proofs Bc_Model Bc_Proofs BcCreate_Proofs.
From Coq Require Import ZifyBool ZifyNat.
Local Open Scope list_scope.
Local Open Scope nat_scope.
Set Implicit Arguments.

Section Lemmas.
  Variable K : CRing.

  Add Ring KringBP : (cth K).

  Lemma sub_zero_iff (a b : K) : csub a (cmul b c1) = c0 <-> a = b.
  Proof.
    split; intros H.
    - transitivity (cadd (csub a (cmul b c1)) b); [ring | rewrite H; ring].
    - subst. ring.
  Qed.

  (** Rows of a well-formed BC that lie in some element have a stored diagonal. *)
  Lemma diag_of_coupled Inp FInp (pb : problem K Inp FInp) (bc : dirichlet K) :
    wf_problem pb -> wf_bc bc (pr_n pb) ->
    (forall r, In r (bc_rows bc) -> exists d, In d (pr_cells pb) /\ In r d) ->
    forall r, In r (bc_rows bc) -> In (r, r) (slots (pr_pat pb)).
  Proof.
    intros W Wb H r Hr. destruct (H r Hr) as [d [Hd Hrd]].
    apply (slots_in (pr_view pb) (all_pairs pb) (all_pairs_range W)).
    apply filter_In. split.
    - apply (all_pairs_coupled W). exists d. auto.
    - apply in_view_kept. destruct (pr_view pb); cbn; lia.
  Qed.

  Lemma mask_false (bc : dirichlet K) n i : wf_bc bc n -> ~ In i (bc_rows bc) -> nth i (bc_mask bc) false = false.
  Proof. intros W H. destruct (nth i (bc_mask bc) false) eqn:E; [|reflexivity]. apply (wb_mask W) in E. contradiction. Qed.
  Lemma mask_true (bc : dirichlet K) n i : wf_bc bc n -> In i (bc_rows bc) -> nth i (bc_mask bc) false = true.
  Proof. intros W H. apply (wb_mask W). exact H. Qed.
End Lemmas.

(** ** C09: elimination on the matrix.

    For any compiled pattern, any values and any boundary condition whose
    constrained DOFs all have a stored diagonal: constrained rows become identity
    rows, with [symmetric] constrained columns become identity columns, and every
    other entry keeps its value. *)
Theorem C09_elimination :
  forall (K : CRing) n v all (bc : dirichlet K) (data : list K) (sym : bool),
  (forall p, In p all -> fst p < n /\ snd p < n) ->
  let P := build_csr n v all in
  length data = p_nse P -> wf_bc bc n ->
  (forall r, In r (bc_rows bc) -> exists s, stored P r r s) ->
  let A := csr_of P data in
  let B := csr_of P (apply_J bc P sym data) in
  valid_csr B /\
  (forall i j, In i (bc_rows bc) -> todense B i j = if i =? j then c1 else c0) /\
  (forall i j, ~ In i (bc_rows bc) -> sym = true -> In j (bc_rows bc) -> todense B i j = c0) /\
  (forall i j, ~ In i (bc_rows bc) -> sym = false \/ ~ In j (bc_rows bc) -> todense B i j = todense A i j).
Proof.
  intros K n v all bc data sym Hr P Hd Wb Hs A B.
  assert (Hdiag : forall r, In r (bc_rows bc) -> In (r, r) (slots P)).
  { intros r Hin. destruct (Hs r Hin) as [s St].
    apply (@stored_slots n v all Hr r r s (wb_range Wb _ Hin)) in St. destruct St as [A1 A2].
    rewrite <- A2. apply nth_In. unfold P. rewrite slots_length. exact A1. }
  pose proof (@apply_J_dense K n v all bc data Hr Hd Wb Hdiag sym) as D.
  split; [|split; [|split]].
  - apply built_valid; [exact Hr|]. rewrite apply_J_length. exact Hd.
  - intros i j Hi. unfold B, P. rewrite D, (mask_true _ Wb Hi). reflexivity.
  - intros i j Hi -> Hj. unfold B, P. rewrite D, (mask_false _ Wb Hi), (mask_true _ Wb Hj). reflexivity.
  - intros i j Hi Hc. unfold B, P. rewrite D, (mask_false _ Wb Hi).
    destruct Hc as [-> | Hj]; [reflexivity|]. rewrite (mask_false _ Wb Hj), andb_false_r. reflexivity.
Qed.
Print Assumptions C09_elimination.

(** The same for a problem's assembled Jacobian, every storage view: it is enough
    that every constrained DOF belongs to some element. *)
Theorem C09_problem :
  forall (K : CRing) (Inp FInp : Type) (pb : problem K Inp FInp) (bs0 : nat) (sol : list K)
         (bc : dirichlet K) (sym : bool),
  0 < bs0 -> wf_problem pb -> wf_bc bc (pr_n pb) ->
  (forall r, In r (bc_rows bc) -> exists d, In d (pr_cells pb) /\ In r d) ->
  let A := get_jacobian pb bs0 sol in
  let B := J_bc pb bs0 sym sol bc in
  valid_csr B /\
  (forall i j, In i (bc_rows bc) -> todense B i j = if i =? j then c1 else c0) /\
  (forall i j, ~ In i (bc_rows bc) -> sym = true -> In j (bc_rows bc) -> todense B i j = c0) /\
  (forall i j, ~ In i (bc_rows bc) -> sym = false \/ ~ In j (bc_rows bc) -> todense B i j = todense A i j).
Proof.
  intros K Inp FInp pb bs0 sol bc sym Hbs W Wb Hin A B.
  apply (@C09_elimination K (pr_n pb) (pr_view pb) (all_pairs pb) bc (get_J_csr pb bs0 sol) sym).
  - apply (all_pairs_range W).
  - apply (get_J_csr_length Hbs W).
  - exact Wb.
  - intros r Hrow. destruct (Hin r Hrow) as [d [Hd Hrd]].
    apply (stored_iff (pr_view pb) (all_pairs pb) (all_pairs_range W)); [apply (wb_range Wb _ Hrow)|].
    split; [apply (all_pairs_coupled W); exists d; auto|]. destruct (pr_view pb); cbn; lia.
Qed.
Print Assumptions C09_problem.

(** Without a stored diagonal the claim is false: constraining a DOF outside every
    element overwrites an entry of another, unconstrained row. *)
Definition ex_bc (rows : list nat) (vals : list Z) : dirichlet ZK :=
  @Build_dirichlet ZK rows (map (fun i => existsb (Nat.eqb i) rows) (seq 0 5)) vals 5.

Lemma ex_bc_wf rows vals : StronglySorted lt rows -> (forall r, In r rows -> r < 5) ->
  length vals = length rows -> wf_bc (ex_bc rows vals) 5.
Proof.
  intros H1 H2 H3. constructor; cbn [ex_bc bc_rows bc_mask bc_vals]; [exact H1 | exact H2 | exact H3 | reflexivity |].
  - intros i. destruct (Nat.lt_ge_cases i 5) as [Hi|Hi].
    + rewrite nth_map_in with (d := 0) by (rewrite seq_length; exact Hi). rewrite seq_nth by exact Hi.
      cbn [Nat.add]. rewrite existsb_exists. split.
      * intros [x [Hx E]]. apply Nat.eqb_eq in E. subst x. exact Hx.
      * intros Hx. exists i. split; [exact Hx | apply Nat.eqb_refl].
    + rewrite nth_overflow by (rewrite map_length, seq_length; exact Hi). split; [discriminate|].
      intros Hx. apply H2 in Hx. lia.
Qed.

Theorem C09_orphan_dof_refuted :
  exists (pb : problem ZK Z Z) (sol : list Z) (bc : dirichlet ZK) i j,
    wf_problem pb /\ wf_bc bc (pr_n pb) /\ ~ In i (bc_rows bc) /\ ~ In j (bc_rows bc) /\
    todense (J_bc pb 256 false sol bc) i j <> todense (get_jacobian pb 256 sol) i j /\
    (exists r, In r (bc_rows bc) /\ todense (J_bc pb 256 false sol bc) r r = 0%Z).
Proof.
  exists (ex_pb FULL false), [1;2;3;4;5]%Z, (ex_bc [4] [7]%Z), 3, 3.
  split; [apply ex_wf|]. split; [apply ex_bc_wf; [repeat constructor | cbn; lia | reflexivity]|].
  split; [cbn; lia|]. split; [cbn; lia|]. split; [vm_compute; discriminate|].
  exists 4. split; [left; reflexivity|]. vm_compute. reflexivity.
Qed.
Print Assumptions C09_orphan_dof_refuted.

Example C09_example :
  wf_bc (ex_bc [1; 3] [10; 20]%Z) 5 /\
  (forall r, In r [1; 3] -> exists d, In d (pr_cells (ex_pb FULL false)) /\ In r d) /\
  map (fun i => map (todense (get_jacobian (ex_pb FULL false) 1 [1;2;3;4;5]%Z) i) (seq 0 4)) (seq 0 4)
  = [ [16; 20; 25; 0]; [25; 70; 62; 41]; [35; 64; 68; 31]; [0; 44; 37; 56] ]%Z /\
  map (fun i => map (todense (J_bc (ex_pb FULL false) 1 true [1;2;3;4;5]%Z (ex_bc [1; 3] [10; 20]%Z)) i) (seq 0 4)) (seq 0 4)
  = [ [16; 0; 25; 0]; [0; 1; 0; 0]; [35; 0; 68; 0]; [0; 0; 0; 1] ]%Z.
Proof.
  split; [apply ex_bc_wf; [repeat constructor | cbn; lia | reflexivity]|]. split.
  - intros r [<-|[<-|[]]]; [exists [0;1;2] | exists [2;1;3]]; cbn; auto 10.
  - vm_compute. auto.
Qed.

(** ** C10: symmetric elimination. *)

(** A symmetric matrix stays symmetric. *)
Theorem C10_preserves_symmetry :
  forall (K : CRing) (Inp FInp : Type) (pb : problem K Inp FInp) (bs0 : nat) (sol : list K) (bc : dirichlet K),
  0 < bs0 -> wf_problem pb -> wf_bc bc (pr_n pb) ->
  (forall r, In r (bc_rows bc) -> exists d, In d (pr_cells pb) /\ In r d) ->
  (forall i j, todense (get_jacobian pb bs0 sol) i j = todense (get_jacobian pb bs0 sol) j i) ->
  forall i j, todense (J_bc pb bs0 true sol bc) i j = todense (J_bc pb bs0 true sol bc) j i.
Proof.
  intros K Inp FInp pb bs0 sol bc Hbs W Wb Hin Hsym i j.
  destruct (C09_problem sol true Hbs W Wb Hin) as (_ & R & C & F).
  destruct (in_dec Nat.eq_dec i (bc_rows bc)) as [Hi|Hi], (in_dec Nat.eq_dec j (bc_rows bc)) as [Hj|Hj].
  - rewrite !R by assumption. rewrite Nat.eqb_sym. reflexivity.
  - rewrite (R i j Hi), (C j i Hj eq_refl Hi). destruct (Nat.eqb_spec i j); [subst; contradiction|reflexivity].
  - rewrite (C i j Hi eq_refl Hj), (R j i Hj). destruct (Nat.eqb_spec j i); [subst; contradiction|reflexivity].
  - rewrite !F by auto. apply Hsym.
Qed.
Print Assumptions C10_preserves_symmetry.

(** Applying the same BC twice changes nothing, for every pattern (even a
    degenerate one), and the result depends only on which DOFs are constrained. *)
Theorem C10_idempotent :
  forall (K : CRing) (bc : dirichlet K) (P : pattern) (sym : bool) (data : list K),
  apply_J bc P sym (apply_J bc P sym data) = apply_J bc P sym data.
Proof. intros. apply apply_J_idem. Qed.
Print Assumptions C10_idempotent.

Theorem C10_values_ignored :
  forall (K : CRing) (P : pattern) (sym : bool) (data : list K) (bc bc' : dirichlet K) n,
  wf_bc bc n -> wf_bc bc' n -> (forall r, In r (bc_rows bc) <-> In r (bc_rows bc')) ->
  apply_J bc P sym data = apply_J bc' P sym data.
Proof.
  intros K P sym data bc bc' n W W' H.
  apply list_get_ext; [rewrite !apply_J_length; reflexivity|].
  intros s Hs. rewrite apply_J_length in Hs. rewrite !get_apply_J by exact Hs.
  assert (M : forall i, nth i (bc_mask bc) false = nth i (bc_mask bc') false).
  { intros i. apply eq_true_iff_eq. rewrite (wb_mask W), (wb_mask W'). apply H. }
  assert (E : existsb (Nat.eqb s) (bc_targets bc P) = existsb (Nat.eqb s) (bc_targets bc' P)).
  { apply eq_true_iff_eq. rewrite !existsb_exists.
    split; intros [x [Hx E]]; exists x; (split; [|exact E]); unfold bc_targets in *;
      apply in_map_iff in Hx; destruct Hx as [r [Er Hr]]; apply in_map_iff; exists r; (split; [exact Er|]); apply H; exact Hr. }
  rewrite E. unfold bc_zero. rewrite !M. reflexivity.
Qed.
Print Assumptions C10_values_ignored.

(** [replace_vals] keeps a BC well formed, constrains the same DOFs, and gives the
    same matrix. *)
Theorem C10_replace_vals :
  forall (K : CRing) (bc : dirichlet K) n (vals : list K),
  wf_bc bc n -> length vals = length (bc_vals bc) ->
  wf_bc (replace_vals bc vals) n /\ bc_rows (replace_vals bc vals) = bc_rows bc /\
  bc_vals (replace_vals bc vals) = vals /\
  forall P sym data, apply_J (replace_vals bc vals) P sym data = apply_J bc P sym data.
Proof.
  intros K bc n vals [W1 W2 W3 W4 W5] H.
  split; [constructor; cbn; auto; congruence|]. repeat split; reflexivity.
Qed.
Print Assumptions C10_replace_vals.

(** Triangular storage commutes with elimination: the kept triangle of the
    eliminated full matrix is the eliminated triangle. *)
Theorem C10_triangular :
  forall (K : CRing) (Inp FInp : Type) (pb : problem K Inp FInp) (bs0 : nat) (sol : list K)
         (bc : dirichlet K) (sym : bool) (v : view),
  0 < bs0 -> wf_problem pb -> wf_bc bc (pr_n pb) ->
  (forall r, In r (bc_rows bc) -> exists d, In d (pr_cells pb) /\ In r d) ->
  forall i j,
  (kept v i j -> todense (J_bc (with_view v pb) bs0 sym sol bc) i j =
                 todense (J_bc (with_view FULL pb) bs0 sym sol bc) i j) /\
  (~ kept v i j -> todense (J_bc (with_view v pb) bs0 sym sol bc) i j = c0).
Proof.
  intros K Inp FInp pb bs0 sol bc sym v Hbs W Wb Hin i j.
  assert (WV : forall w, wf_problem (with_view w pb)) by (intros w; destruct W; constructor; assumption).
  destruct (C09_problem sol sym Hbs (WV v) Wb Hin) as (_ & R & C & F).
  destruct (C09_problem sol sym Hbs (WV FULL) Wb Hin) as (_ & R' & C' & F').
  destruct (C08_triangular_assembly sol v Hbs W) as (T1 & T2 & _).
  destruct (in_dec Nat.eq_dec i (bc_rows bc)) as [Hi|Hi].
  - rewrite R, R' by assumption. split; [reflexivity|]. intros Hk.
    destruct (Nat.eqb_spec i j) as [->|]; [|reflexivity]. exfalso. apply Hk. destruct v; cbn; lia.
  - destruct (in_dec Nat.eq_dec j (bc_rows bc)) as [Hj|Hj]; [destruct sym|].
    + rewrite C, C' by auto. auto.
    + rewrite F, F' by auto. split; auto.
    + rewrite F, F' by auto. split; auto.
Qed.
Print Assumptions C10_triangular.

Example C10_example :
  apply_J (ex_bc [1; 3] [10; 20]%Z) (pr_pat (ex_pb FULL false)) true (get_J_csr (ex_pb FULL false) 4 [1;2;3;4;5]%Z)
  = [16; 0; 25;  0; 1; 0; 0;  35; 0; 68; 0;  0; 0; 1]%Z /\
  apply_J (replace_vals (ex_bc [1; 3] [10; 20]%Z) [8; 9]%Z) (pr_pat (ex_pb FULL false)) true
          (get_J_csr (ex_pb FULL false) 4 [1;2;3;4;5]%Z)
  = [16; 0; 25;  0; 1; 0; 0;  35; 0; 68; 0;  0; 0; 1]%Z.
Proof. vm_compute. auto. Qed.

(** ** C11: Dirichlet rows of the residual. *)
Theorem C11_residual_rows :
  forall (K : CRing) (bc : dirichlet K) n (res sol : list K) (scale : K),
  wf_bc bc n -> length res = n ->
  length (apply_res bc res sol scale) = n /\
  (forall k, k < length (bc_rows bc) ->
     get (apply_res bc res sol scale) (nth k (bc_rows bc) 0) =
     csub (get sol (nth k (bc_rows bc) 0)) (cmul (get (bc_vals bc) k) scale)) /\
  (forall i, ~ In i (bc_rows bc) -> get (apply_res bc res sol scale) i = get res i).
Proof.
  intros K bc n res sol scale W Hl. split; [rewrite apply_res_length; exact Hl|]. split.
  - intros k Hk. apply (get_apply_res_row res sol scale W Hl Hk).
  - intros i Hi. apply (get_apply_res_free res sol scale i W Hi).
Qed.
Print Assumptions C11_residual_rows.

(** The BC residual is the zero vector iff every prescribed value is met and the
    free part of the physical residual vanishes. *)
Theorem C11_zero_iff :
  forall (K : CRing) (bc : dirichlet K) n (res sol : list K),
  wf_bc bc n -> length res = n ->
  ((forall i, i < n -> get (apply_res bc res sol c1) i = c0) <->
   (forall k, k < length (bc_rows bc) -> get sol (nth k (bc_rows bc) 0) = get (bc_vals bc) k) /\
   (forall i, i < n -> ~ In i (bc_rows bc) -> get res i = c0)).
Proof.
  intros K bc n res sol W Hl. destruct (C11_residual_rows res sol c1 W Hl) as (_ & R & F).
  pose proof (@sub_zero_iff K) as S0.
  split.
  - intros H. split.
    + intros k Hk. apply S0. rewrite <- R by exact Hk. apply H. apply (wb_range W). apply nth_In. exact Hk.
    + intros i Hi Hn. rewrite <- F by exact Hn. apply H. exact Hi.
  - intros [H1 H2] i Hi. destruct (in_dec Nat.eq_dec i (bc_rows bc)) as [Hin|Hin].
    + apply (In_nth _ _ 0) in Hin. destruct Hin as [k [Hk E]]. subst i.
      rewrite R by exact Hk. apply S0. apply H1. exact Hk.
    + rewrite F by exact Hin. apply H2; assumption.
Qed.
Print Assumptions C11_zero_iff.

Example C11_example :
  apply_res (ex_bc [1; 3] [10; 20]%Z) [7; 36; 51; 41; 0]%Z [1;2;3;4;5]%Z 2%Z = [7; -18; 51; -36; 0]%Z /\
  apply_res (ex_bc [1; 3] [2; 4]%Z) [0; 36; 0; 41; 0]%Z [1;2;3;4;5]%Z 1%Z = [0; 0; 0; 0; 0]%Z.
Proof. vm_compute. auto. Qed.

(** ** C12: construction from specs. *)
Theorem C12_create_bc :
  forall (K : CRing) (Pt : Type) (d : Pt) (fes : list (fe Pt)) (specs : list (spec K Pt)) (bc : dirichlet K),
  create_bc d fes specs = Ok bc ->
  let L := fe_layout fes in
  bc_total bc = total_dofs L /\
  wf_bc bc (total_dofs L) /\
  (* exactly the DOFs some spec applies to are constrained *)
  (forall i f a c, nth_error fes i = Some f -> a < length (fe_points f) -> c < fe_vec f ->
     (In (dof L i a c) (bc_rows bc) <->
      exists s, In s specs /\ applies i a c (nth a (fe_points f) d) s = true)) /\
  (* and the first applicable spec gives the value *)
  (forall i f a c pre s post, nth_error fes i = Some f -> a < length (fe_points f) -> c < fe_vec f ->
     let p := nth a (fe_points f) d in
     specs = pre ++ s :: post -> applies i a c p s = true ->
     (forall s', In s' pre -> applies i a c p s' = false) ->
     exists k, k < length (bc_rows bc) /\ nth k (bc_rows bc) 0 = dof L i a c /\
               get (bc_vals bc) k = s_val s p).
Proof.
  intros K Pt d fes specs bc H L.
  assert (NB : ~ bad_spec fes specs).
  { intros B. pose proof (blocks_err d B) as E. unfold create_bc in H.
    destruct specs as [|s0 ss]; [destruct B as (? & ? & ? & _ & [] & _)|]. rewrite E in H. discriminate. }
  destruct (create_bc_ok d NB) as (bc' & E & Et & Er & Ev & Em).
  rewrite H in E. injection E as <-.
  set (u := unique_first K (pure_blocks d fes specs)) in *.
  assert (RowOf : forall r, In r (bc_rows bc) <-> In r (map fst (pure_blocks d fes specs))).
  { intros r. rewrite Er. apply unique_first_row. }
  assert (Rng : forall r, In r (bc_rows bc) -> r < total_dofs L).
  { intros r Hr. apply RowOf in Hr. apply in_map_iff in Hr. destruct Hr as [q [<- Hq]].
    apply blocks_valid in Hq. destruct Hq as (i & a & c & V & ->). apply dof_lt. exact V. }
  assert (FindRow : forall i f a c, nth_error fes i = Some f -> a < length (fe_points f) -> c < fe_vec f ->
     forall s, find (applies i a c (nth a (fe_points f) d)) specs = Some s ->
       exists k, k < length (bc_rows bc) /\ nth k (bc_rows bc) 0 = dof L i a c /\
                 get (bc_vals bc) k = s_val s (nth a (fe_points f) d)).
  { intros i f a c Hi Ha Hc s Hf.
    pose proof (@find_blocks K Pt d fes specs i f a c Hi Hc Ha) as FB. rewrite Hf in FB.
    apply unique_first_find in FB. fold u in FB. apply (In_nth _ _ (0, c0)) in FB.
    destruct FB as [k [Hk Ek]]. exists k. rewrite Er, Ev, map_length. split; [exact Hk|].
    unfold get. rewrite nth_map_in with (d := (0, c0)) by exact Hk.
    rewrite nth_map_in with (d := (0, c0)) by exact Hk. fold u. rewrite Ek. auto. }
  split; [exact Et|]. split; [|split].
  - constructor.
    + rewrite Er. apply unique_first_sorted.
    + exact Rng.
    + rewrite Er, Ev, !map_length. reflexivity.
    + rewrite Em, scatter_set_length, repeat_length. reflexivity.
    + intros i. rewrite Em. destruct (in_dec Nat.eq_dec i (bc_rows bc)) as [Hin|Hin].
      * split; [auto|]. intros _. rewrite nth_scatter_set_const; [reflexivity | | exact Hin].
        rewrite repeat_length. apply Rng. exact Hin.
      * rewrite nth_scatter_set_notin by (rewrite map_map, map_id; exact Hin).
        rewrite nth_repeat. split; [discriminate|contradiction].
  - intros i f a c Hi Ha Hc. split.
    + intros Hin. apply RowOf in Hin. apply in_map_iff in Hin. destruct Hin as [[r x] [Eq Hq]]. cbn in Eq. subst r.
      pose proof (@find_blocks K Pt d fes specs i f a c Hi Hc Ha) as FB.
      destruct (find (applies i a c (nth a (fe_points f) d)) specs) as [s|] eqn:Ef.
      * apply find_some in Ef. exists s. exact Ef.
      * pose proof (find_none _ _ FB _ Hq) as N. cbn [fst] in N. fold L in N. rewrite Nat.eqb_refl in N. discriminate.
    + intros [s [Hs Hap]].
      destruct (find (applies i a c (nth a (fe_points f) d)) specs) as [s'|] eqn:Ef.
      * destruct (FindRow i f a c Hi Ha Hc s' Ef) as (k & Hk & Ek & _). rewrite <- Ek. apply nth_In. exact Hk.
      * rewrite (find_none _ _ Ef s Hs) in Hap. discriminate.
  - intros i f a c pre s post Hi Ha Hc p Hsp Hap Hpre.
    apply (FindRow i f a c Hi Ha Hc).
    rewrite Hsp, find_app. 
    assert (Hn : find (applies i a c p) pre = None).
    { clear -Hpre. induction pre as [|x t IH]; cbn; [reflexivity|].
      rewrite (Hpre x (or_introl eq_refl)). apply IH. intros; apply Hpre; right; assumption. }
    fold p. rewrite Hn. cbn. rewrite Hap. reflexivity.
Qed.
Print Assumptions C12_create_bc.

(** It fails (ValueError) iff some spec that selects a component of some variable
    has a location function of neither one nor two arguments. *)
Theorem C12_errors :
  forall (K : CRing) (Pt : Type) (d : Pt) (fes : list (fe Pt)) (specs : list (spec K Pt)),
  let bad := exists i f s c, nth_error fes i = Some f /\ In s specs /\ s_loc s = LocBad /\
     c < fe_vec f /\ (s_var s = None \/ s_var s = Some i) /\ (s_comp s = CAll \/ s_comp s = COne c) in
  (bad -> create_bc d fes specs = ValueError) /\
  (~ bad -> exists bc, create_bc d fes specs = Ok bc).
Proof.
  intros K Pt d fes specs bad.
  assert (E : bad <-> bad_spec fes specs).
  { split.
    - intros (i & f & s & c & Hi & Hs & Hl & Hc & Hv & Hk). exists i, f, s. repeat split; auto.
      assert (In c (spec_components i f s)) as Hin.
      { apply spec_comp_iff; [exact Hc|]. split.
        - destruct Hv as [-> | ->]; [reflexivity | apply Nat.eqb_refl].
        - destruct Hk as [-> | ->]; [reflexivity | apply Nat.eqb_refl]. }
      intros N. rewrite N in Hin. destruct Hin.
    - intros (i & f & s & Hi & Hs & Hl & Hk).
      destruct (spec_components i f s) as [|c cs] eqn:Ec; [congruence|].
      assert (Hin : In c (spec_components i f s)) by (rewrite Ec; left; reflexivity).
      pose proof (@spec_comp_lt K Pt i f s _ Hin) as Hc.
      apply (@spec_comp_iff K Pt i f s c Hc) in Hin. destruct Hin as [H1 H2].
      exists i, f, s, c. repeat split; auto.
      + destruct (s_var s) as [k|]; [apply Nat.eqb_eq in H1; subst; auto | auto].
      + destruct (s_comp s) as [|k]; [auto|]. apply Nat.eqb_eq in H2. subst. auto. }
  split.
  - intros B. apply E in B. unfold create_bc.
    destruct specs as [|s0 ss] eqn:Es; [destruct B as (? & ? & ? & _ & [] & _)|]. rewrite <- Es in *.
    rewrite (blocks_err d B). reflexivity.
  - intros NB. rewrite E in NB. destruct (create_bc_ok d NB) as (bc & H & _). exists bc. exact H.
Qed.
Print Assumptions C12_errors.

(** Component names: x/y/z/all in any mix of cases and nothing else, non-negative integers as they
    are, anything else a ValueError. *)
Ltac by_bits := let d := fresh in intros d; destruct d as [[] [] [] [] [] [] [] []]; intros H; vm_compute in H; try discriminate H; auto.
Lemma lower_x d : lower_ascii d = "x"%char -> d = "x"%char \/ d = "X"%char. Proof. revert d. by_bits. Qed.
Lemma lower_y d : lower_ascii d = "y"%char -> d = "y"%char \/ d = "Y"%char. Proof. revert d. by_bits. Qed.
Lemma lower_z d : lower_ascii d = "z"%char -> d = "z"%char \/ d = "Z"%char. Proof. revert d. by_bits. Qed.
Lemma lower_a d : lower_ascii d = "a"%char -> d = "a"%char \/ d = "A"%char. Proof. revert d. by_bits. Qed.
Lemma lower_l d : lower_ascii d = "l"%char -> d = "l"%char \/ d = "L"%char. Proof. revert d. by_bits. Qed.
Theorem C12_component_names :
  (forall s, normalise_component (CStr s) =
     if existsb (String.eqb s) ["x"; "X"]%string then Ok (COne 0)
     else if existsb (String.eqb s) ["y"; "Y"]%string then Ok (COne 1)
     else if existsb (String.eqb s) ["z"; "Z"]%string then Ok (COne 2)
     else if existsb (String.eqb s) ["all"; "alL"; "aLl"; "aLL"; "All"; "AlL"; "ALl"; "ALL"]%string then Ok CAll
     else ValueError) /\
  (forall z, (0 <= z)%Z -> normalise_component (CInt z) = Ok (COne (Z.to_nat z))) /\
  (forall z, (z < 0)%Z -> normalise_component (CInt z) = ValueError).
Proof.
  split; [|split].
  - intros s. cbn [normalise_component].
    destruct (String.eqb_spec (lower s) "x") as [E|NX].
    { destruct s as [|c [|c' t]]; try discriminate E. injection E as E. destruct (lower_x c E) as [-> | ->]; reflexivity. }
    destruct (String.eqb_spec (lower s) "y") as [E|NY].
    { destruct s as [|c [|c' t]]; try discriminate E. injection E as E. destruct (lower_y c E) as [-> | ->]; reflexivity. }
    destruct (String.eqb_spec (lower s) "z") as [E|NZ].
    { destruct s as [|c [|c' t]]; try discriminate E. injection E as E. destruct (lower_z c E) as [-> | ->]; reflexivity. }
    destruct (String.eqb_spec (lower s) "all") as [E|NA].
    { destruct s as [|a [|b [|c [|c' t]]]]; try discriminate E. injection E as E1 E2 E3.
      destruct (lower_a a E1) as [-> | ->], (lower_l b E2) as [-> | ->], (lower_l c E3) as [-> | ->]; reflexivity. }
    assert (G : forall l, (forall t, In t l -> lower s <> lower t) -> existsb (String.eqb s) l = false).
    { intros l H. destruct (existsb (String.eqb s) l) eqn:Q; [|reflexivity]. apply existsb_exists in Q. destruct Q as (t & Ht & Q). apply String.eqb_eq in Q. subst t. exfalso. exact (H s Ht eq_refl). }
    rewrite !G; [reflexivity|..]; intros t Ht; cbn [In] in Ht; repeat (destruct Ht as [<-|Ht]; [assumption|]); destruct Ht.
  - intros z Hz. cbn. destruct (Z.ltb_spec z 0); [lia|reflexivity].
  - intros z Hz. cbn. destruct (Z.ltb_spec z 0); [reflexivity|lia].
Qed.
Print Assumptions C12_component_names.

(** Two variables (2 components and 1), overlapping specs at a corner. *)
Definition ex_fes : list (fe Z) :=
  [ {| fe_vec := 2; fe_points := [10; 20; 30]%Z |}; {| fe_vec := 1; fe_points := [10; 30]%Z |} ].
Definition ex_specs : list (spec ZK Z) :=
  [ @Build_spec ZK Z (Loc1 (fun p => Z.eqb p 30)) (COne 1) (fun p => 5 * p)%Z (Some 0);
    @Build_spec ZK Z (Loc2 (fun p a => 1 <=? a)) CAll (fun p => p + 1)%Z None ].
Example C12_example :
  create_bc 0%Z ex_fes ex_specs =
  Ok (@Build_dirichlet ZK [2; 3; 4; 5; 7] [false; false; true; true; true; true; false; true]
        [21; 21; 31; 150; 31]%Z 8).
Proof. vm_compute. reflexivity. Qed.
Example C12_error_example :
  create_bc 0%Z ex_fes [@Build_spec ZK Z LocBad CAll (fun p => p)%Z None] = ValueError.
Proof. vm_compute. reflexivity. Qed.

(** ** C13: matrix-free. *)
Theorem C13_matrix_free :
  forall (K : CRing) (Inp FInp : Type) (pb : problem K Inp FInp) (bs0 : nat) (sol : list K)
         (bc : dirichlet K) (sym : bool) (x : list K),
  0 < bs0 -> wf_problem pb -> wf_bc bc (pr_n pb) ->
  (forall r, In r (bc_rows bc) -> exists d, In d (pr_cells pb) /\ In r d) ->
  pr_view pb = FULL ->
  pr_surface_jac_zero pb = false \/ (forall i j, spec_face_jac pb sol i j = c0) ->
  (forall i, i < pr_n pb ->
     get (snd (matfree_res_J pb bs0 sym sol bc) x) i = get (matvec (J_bc pb bs0 sym sol bc) x) i) /\
  fst (matfree_res_J pb bs0 sym sol bc) = fst (res_J_bc pb bs0 sym sol bc).
Proof.
  intros K Inp FInp pb bs0 sol bc sym x Hbs W Wb Hin HV Hf. split.
  - apply (matfree_spec Hbs W); auto. apply (diag_of_coupled W Wb Hin).
  - cbn [matfree_res_J res_J_bc fst]. rewrite (fused_res_eq Hbs W). reflexivity.
Qed.
Print Assumptions C13_matrix_free.

(** With a triangular view the assembled operator is only the stored triangle and
    the two differ. *)
Theorem C13_triangular_refuted :
  exists (pb : problem ZK Z Z) (sol x : list Z) (bc : dirichlet ZK) i,
    wf_problem pb /\ wf_bc bc (pr_n pb) /\
    (forall r, In r (bc_rows bc) -> exists d, In d (pr_cells pb) /\ In r d) /\
    pr_surface_jac_zero pb = false /\ i < pr_n pb /\
    get (snd (matfree_res_J pb 256 true sol bc) x) i <> get (matvec (J_bc pb 256 true sol bc) x) i.
Proof.
  exists (ex_pb UPPER false), [1;2;3;4;5]%Z, [1;1;1;1;1]%Z, (ex_bc [1] [7]%Z), 2.
  split; [apply ex_wf|]. split; [apply ex_bc_wf; [repeat constructor | cbn; lia | reflexivity]|].
  split; [intros r [<-|[]]; exists [0;1;2]; cbn; auto|]. split; [reflexivity|]. split; [cbn; lia|].
  vm_compute. discriminate.
Qed.
Print Assumptions C13_triangular_refuted.

Example C13_example :
  snd (matfree_res_J (ex_pb FULL false) 2 true [1;2;3;4;5]%Z (ex_bc [1; 3] [10; 20]%Z)) [1;2;3;4;5]%Z
  = [91; 2; 239; 4; 0]%Z /\
  matvec (J_bc (ex_pb FULL false) 2 true [1;2;3;4;5]%Z (ex_bc [1; 3] [10; 20]%Z)) [1;2;3;4;5]%Z
  = [91; 2; 239; 4; 0]%Z.
Proof. vm_compute. auto. Qed.

(** ** C51: the default initial guess. *)
Theorem C51_initial_guess :
  forall (K : CRing) (bc : dirichlet K) n, wf_bc bc n ->
  length (zero_like_initial_guess n bc) = n /\
  (forall k, k < length (bc_rows bc) ->
     get (zero_like_initial_guess n bc) (nth k (bc_rows bc) 0) = get (bc_vals bc) k) /\
  (forall i, ~ In i (bc_rows bc) -> get (zero_like_initial_guess n bc) i = c0) /\
  (* so every BC row of Newton's first residual is zero *)
  (forall res i, length res = n -> In i (bc_rows bc) ->
     get (apply_res bc res (zero_like_initial_guess n bc) c1) i = c0).
Proof.
  intros K bc n W. split; [|split; [|split]].
  - unfold zero_like_initial_guess. rewrite scatter_set_length. unfold zeros. apply repeat_length.
  - intros k Hk. apply (guess_row W Hk).
  - intros i Hi. apply (guess_free _ W Hi).
  - intros res i Hl Hi. apply (In_nth _ _ 0) in Hi. destruct Hi as [k [Hk <-]].
    destruct (C11_residual_rows res (zero_like_initial_guess n bc) c1 W Hl) as (_ & R & _).
    rewrite R by exact Hk. rewrite (guess_row W Hk). apply sub_zero_iff. reflexivity.
Qed.
Print Assumptions C51_initial_guess.

Example C51_example : zero_like_initial_guess 5 (ex_bc [1; 3] [10; 20]%Z) = [0; 10; 0; 20; 0]%Z.
Proof. vm_compute. reflexivity. Qed.
