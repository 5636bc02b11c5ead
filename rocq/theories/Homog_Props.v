(** C65: computational homogenization. *)
From Verif Require Import Base Csr_Model Assembly_Model Assembly_Spec Assembly_Proofs AssemblyMain_Proofs Dof_Model Dof_Spec Bc_Model
     Bc_Proofs LinSolve_Model LinSolve_Spec LinSolve_Proofs LinSolve_Props Values_Proofs Bc_Props Reduced_Model Reduced_Spec Reduced_Proofs Reduced_Props
     Pbc_Model Pbc_Spec Pbc_Props Kernel_Model Kernel_Spec Kernel_Proofs Kernel_Props Homog_Model Homog_Spec.
From Coq Require Import ZifyBool ZifyNat.

Section Work.
  Variable K : CRing.
  Add Ring Kring65a : (cth K).
  Local Open Scope ring_K.
  (** Balanced forces do no work on periodic fields. *)
  Lemma periodic_work (n : nat) (col : nat -> nat) (z R : list K) :
    (forall i j, i < n -> j < n -> col i = col j -> get z i = get z j) ->
    (forall i, i < n -> get z i = 0 \/ class_sum n col (col i) (get R) = 0) -> virtual_work n z R = 0.
  Proof.
    intros Hz HR. unfold virtual_work, Sum.
    (* group by class *)
    set (m := S (list_max (map col (seq 0 n)))).
    assert (Hm : forall i, i < n -> col i < m).
    { intros i Hi. unfold m. apply Nat.lt_succ_r.
      assert (F := proj1 (list_max_le (map col (seq 0 n)) (list_max (map col (seq 0 n)))) (Nat.le_refl _)).
      rewrite Forall_forall in F. apply F. apply in_map. apply in_seq. lia. }
    transitivity (sumf (fun c => sumf (fun i => if col i =? c then get z i * get R i else 0) (seq 0 n)) (seq 0 m)).
    - rewrite sumf_swap. apply sumf_ext. intros i Hi. apply in_seq in Hi.
      rewrite sumf_ext with (g := fun c => if c =? col i then get z i * get R i else 0).
      2:{ intros c _. rewrite Nat.eqb_sym. reflexivity. }
      rewrite (sumf_single_nat K (fun _ => get z i * get R i)) by (apply Hm; lia). reflexivity.
    - apply sumf_zero. intros c _. rewrite sumf_if_sum.
      destruct (filter (fun i => col i =? c) (seq 0 n)) as [|i0 rest] eqn:El; [reflexivity|].
      assert (Hi0 : In i0 (filter (fun i => col i =? c) (seq 0 n))) by (rewrite El; left; reflexivity).
      apply filter_In in Hi0. destruct Hi0 as [Hi0 Ec]. apply in_seq in Hi0. apply Nat.eqb_eq in Ec.
      rewrite <- El. transitivity (get z i0 * class_sum n col c (get R)).
      + unfold class_sum. rewrite <- sumf_mul_l. apply sumf_ext. intros i Hi. apply filter_In in Hi. destruct Hi as [Hi Ei].
        apply in_seq in Hi. apply Nat.eqb_eq in Ei. rewrite (Hz i i0) by (lia || congruence). reflexivity.
      + rewrite <- Ec. destruct (HR i0 ltac:(lia)) as [E0|E0]; rewrite E0; ring.
  Qed.

End Work.

Section Hom.
  Variable K : CRing.
  Add Ring Kring65 : (cth K).
  Local Open Scope ring_K.
  Variables (dim nq : nat).
  Variable det : list (list K) -> K.
  Variable inv : list (list K) -> list (list K).
  Variable norm : list K -> K.
  Variable half : K.
  Variable kinv : K -> K.
  Variable f : fe K.
  Hypothesis SC : sound_cell dim nq half kinv det inv f.
  (** Macroscopic fields. *)
  Lemma macro_get (pts eps : list (list K)) p i : p < length pts -> i < dim ->
    get (macro_displacement pts dim eps) (p * dim + i) = Sum dim (fun j => get2 eps i j * get2 pts p j).
  Proof using SC.
    intros Hp Hi. unfold macro_displacement, get.
    rewrite flat_map_const_block with (da := @nil K) by (exact Hp || (intros; apply tab_length) || exact Hi).
    rewrite nth_tab by exact Hi.
    destruct SC as ([E|E] & _); rewrite E; unfold Sum; cbn [seq sumf]; unfold get2, get;
      repeat match goal with |- context [Nat.ltb ?x ?y] => let b := eval cbv in (Nat.ltb x y) in change (Nat.ltb x y) with b end;
      cbv iota; ring.
  Qed.

  Lemma macro_length (pts eps : list (list K)) : length (macro_displacement pts dim eps) = (length pts * dim)%nat.
  Proof.
    clear. unfold macro_displacement. induction pts as [|p t IH]; [reflexivity|].
    cbn [flat_map length]. rewrite app_length, tab_length, IH. lia.
  Qed.

  (** The gradient of a macroscopic field is the macroscopic strain. *)
  Lemma macro_grad eps c q k d : c < length (fe_cells f) -> q < nq -> k < dim -> d < dim ->
    get2 (grad_at dim inv [f] 0 (macro_displacement (fe_points f) dim eps) c q) k d = get2 eps k d.
  Proof using SC.
    intros Hc Hq Hk Hd. destruct SC as (D23 & Ev & WF & U & IV & _ & _).
    apply (C64_affine_gradient K dim inv [f] 0 (macro_displacement (fe_points f) dim eps) c q (get2 eps) (fun _ => 0));
      cbn [fe_at nth]; auto; [|lia].
    intros n k' Hn Hk'. unfold nodal. rewrite dof_single. cbn [fe_at nth] in Hk' |- *. rewrite Ev in Hk' |- *.
    rewrite macro_get; [| |exact Hk'].
    - unfold coo. ring.
    - destruct (WF f (or_introl eq_refl)) as [_ W0]. apply (W0 (nth c (fe_cells f) [])); [apply nth_In; exact Hc|].
      unfold node_of. apply nth_In. rewrite (proj1 (W0 _ (nth_In _ _ Hc))). exact Hn.
  Qed.

  (** Contracting a symmetric tensor with the unit strain [j] reads its Voigt entry [j]. *)
  Lemma voigt_contract (s : nat -> nat -> K) j : (forall i d, i < dim -> d < dim -> s i d = s d i) ->
    j < length (voigt_pairs dim) ->
    Sum dim (fun i => Sum dim (fun d => s i d * get2 (nth j (unit_strains half dim) []) i d)) =
    s (fst (nth j (voigt_pairs dim) (0, 0)%nat)) (snd (nth j (voigt_pairs dim) (0, 0)%nat)).
  Proof using SC.
    intros Hs Hj. destruct SC as ([E|E] & _ & _ & _ & _ & _ & HH); rewrite E in *.
    - destruct j as [|[|[|j]]]; [| | |cbn in Hj; lia]; cbn; try ring.
      transitivity ((half + half) * s 0%nat 1%nat); [|rewrite HH; ring].
      rewrite (Hs 1%nat 0%nat) by lia. ring.
    - destruct j as [|[|[|[|[|[|j]]]]]]; [| | | | | |cbn in Hj; lia]; cbn; try ring.
      + transitivity ((half + half) * s 1%nat 2%nat); [|rewrite HH; ring]. rewrite (Hs 2%nat 1%nat) by lia. ring.
      + transitivity ((half + half) * s 0%nat 2%nat); [|rewrite HH; ring]. rewrite (Hs 2%nat 0%nat) by lia. ring.
      + transitivity ((half + half) * s 0%nat 1%nat); [|rewrite HH; ring]. rewrite (Hs 1%nat 0%nat) by lia. ring.
  Qed.
  Lemma strains_length : length (unit_strains half dim) = length (voigt_pairs dim).
  Proof using SC. destruct SC as ([E|E] & _); rewrite E; reflexivity. Qed.

  Variables (nfq : nat) (V W : Type).
  Variable vw : view.
  Variable ph : physics K V.
  Variable tm : tensor_map K V.
  Hypothesis SO : stress_only ph tm.
  Variable vars : nat -> nat -> V.
  Variable vj : list K -> vinp K V -> list K.
  Variable sj : list K -> finp K W -> list K.
  Variable xv : vinp K V.
  Variable xs : finp K W.
  Hypothesis TJ : forall u x, length (vj u x) = (num_local [f] * num_local [f])%nat.
  Hypothesis TS : forall u x, length (sj u x) = (num_local [f] * num_local [f])%nat.
  Variable pb : problem K (vinp K V) (finp K W).
  Hypothesis EB : build dim nq nfq det inv norm [f] vw ph vars (@nil (bdata K W)) vj sj xv xs = Some pb.
  Variable bs0 : nat.
  Hypothesis Hbs : 0 < bs0.
  Variable C : V -> nat -> nat -> nat -> nat -> K.
  Hypothesis LS : linear_stress dim tm C.

  Let a u v := tensor_volume dim nq det inv [f] tm vars u v.
  Let vol := total_volume dim nq det f.

  Lemma hom_n : pr_n pb = (length (fe_points f) * dim)%nat.
  Proof using EB SC.
    clear TJ TS Hbs. destruct SC as (_ & Ev & _).
    unfold build in EB. destruct (volume_kernel dim nq [f] ph); [|discriminate]. cbn [map all_opt] in EB. injection EB as <-.
    cbn [pr_n]. unfold total_dofs, layout_of, sizes. cbn. lia.
  Qed.

  Lemma work_is_a u v : virtual_work (pr_n pb) v (get_res pb bs0 u) = a u v.
  Proof using EB SC SO TJ TS Hbs.
    destruct SC as (_ & _ & WF & _). destruct SO as (PU & PE & PM & PT).
    assert (KS : kernel_shapes [f] ph (@nil (bdata K W))).
    { split; [|intros b0 k []]. intros k [E|E]; congruence. }
    rewrite (C63_composition K dim nq nfq det inv norm V W [f] vw ph vars nil vj sj xv xs pb bs0 u v WF
               (Nat.lt_0_succ 0) (fun b H => match H with end) KS TJ TS Hbs EB).
    unfold volume_terms. rewrite PU, PE, PM, PT. change (1 <? length [f]) with false. cbn [opt_term sumf].
    unfold a. ring.
  Qed.

  Lemma hom_wf : wf_problem pb.
  Proof using EB SC SO TJ TS.
    destruct SC as (_ & _ & WF & _). destruct SO as (PU & PE & PM & PT).
    assert (EV : volume_kernel dim nq [f] ph = Some (laplace_kernel dim nq [f] tm)).
    { unfold volume_kernel. rewrite PU, PE, PM, PT. cbn. destruct (ph_weak ph); reflexivity. }
    eapply (build_wf K dim nq nfq det inv norm V W [f] WF vw ph vars nil vj sj xv xs); try eassumption.
    - intros b [].
    - intros u x. rewrite laplace_as_weak by reflexivity. apply weak_form_kernel_length.
    - intros b k [].
  Qed.

  (** The fields read by [average_stress] are the finite element gradients. *)
  Lemma stress_grad u c q : op_grad dim f (fun n k => get u (node_of f c n * fe_vec f + k)) (shape_grad dim inv f c q) =
    grad_at dim inv [f] 0 u c q.
  Proof.
    clear. unfold op_grad, grad_at. cbn [fe_at nth]. apply tab_ext. intros k Hk. apply tab_ext. intros d Hd.
    apply Sum_ext. intros n Hn. unfold nodal. rewrite dof_single. cbn [fe_at nth]. ring.
  Qed.

  Hypothesis SS : stress_symmetric dim C.

  (** Work of the stresses of [u] on a macroscopic unit strain: volume times mean stress. *)
  Lemma a_macro u j : j < length (voigt_pairs dim) ->
    a u (macro_displacement (fe_points f) dim (nth j (unit_strains half dim) [])) =
    vol * get (average_stress kinv dim nq det inv f tm vars u dim) j.
  Proof using SC LS SS.
    intros Hj. unfold average_stress, get. rewrite nth_map_in with (d := (0, 0)%nat) by exact Hj.
    set (p := nth j (voigt_pairs dim) (0, 0)%nat). unfold mean_stress. fold vol.
    match goal with |- _ = vol * (?x * _) => transitivity x end.
    2:{ destruct SC as (_ & _ & _ & _ & _ & HV & _). fold vol in HV.
        match goal with |- ?x = vol * (?x * ?k) => transitivity (x * (vol * k)); [rewrite HV|]; ring end. }
    unfold a, tensor_volume, over_cells. apply Sum_ext. intros c Hc. apply Sum_ext. intros q Hq.
    change (fe_at [f] 0) with f. f_equal. rewrite stress_grad. destruct SC as (_ & Ev & _).
    set (s := tm (grad_at dim inv [f] 0 u c q) (vars c q)).
    unfold p. rewrite <- (voigt_contract (get2 s) j); [| |exact Hj].
    - rewrite Ev. unfold dot2. apply Sum_ext. intros k Hk. apply Sum_ext. intros d Hd. f_equal.
      apply macro_grad; assumption.
    - intros i d Hi Hd. unfold s. rewrite !LS by assumption. apply Sum_ext. intros k Hk. apply Sum_ext. intros e He.
      rewrite (SS _ i d k e) by assumption. reflexivity.
  Qed.

  Lemma work_split n (z um u R : list K) : (forall i, i < n -> get z i = get u i - get um i) ->
    virtual_work n u R = virtual_work n um R + virtual_work n z R.
  Proof.
    clear. intros E. unfold virtual_work. rewrite <- Sum_add. apply Sum_ext. intros i Hi. rewrite E by exact Hi. ring.
  Qed.

  (** Work of balanced forces on a response: the work on its macroscopic field. *)
  Lemma work_response col um u um' u' : is_response pb bs0 col um u -> is_response pb bs0 col um' u' ->
    a u u' = a u um'.
  Proof using EB SC SO TJ TS Hbs.
    intros [P1 E1] [P2 E2]. rewrite <- !work_is_a.
    rewrite (work_split (pr_n pb) (tab (pr_n pb) (fun i => get u' i - get um' i)) um' u').
    - rewrite (periodic_work K _ col (tab (pr_n pb) (fun i => get u' i - get um' i))); [ring| |intros i Hi; right; apply E1; exact Hi].
      intros i j Hi Hj Ec. rewrite !get_tab by assumption. apply P2; assumption.
    - intros i Hi. apply get_tab. exact Hi.
  Qed.

  Lemma a_symmetric u v : major_symmetric dim C -> a u v = a v u.
  Proof using SC LS.
    intros MS. unfold a, tensor_volume, over_cells. apply Sum_ext. intros c Hc. apply Sum_ext. intros q Hq.
    f_equal. change (fe_at [f] 0) with f. destruct SC as (_ & Ev & _). rewrite Ev. unfold dot2.
    assert (X : forall x y : list (list K), 
      Sum dim (fun k => Sum dim (fun d => get2 (tm x (vars c q)) k d * get2 y k d)) =
      Sum dim (fun k => Sum dim (fun d => Sum dim (fun k' => Sum dim (fun e => C (vars c q) k d k' e * get2 x k' e * get2 y k d))))).
    { intros x y. apply Sum_ext. intros k Hk. apply Sum_ext. intros d Hd. rewrite LS by assumption.
      rewrite <- Sum_mul_r. apply Sum_ext. intros k' Hk'. rewrite <- Sum_mul_r. reflexivity. }
    rewrite !X. clear X.
    (* exchange (k,d) with (k',e) *)
    set (F := fun x y k d k' e => C (vars c q) k d k' e * get2 x k' e * get2 y k d).
    transitivity (Sum dim (fun k => Sum dim (fun k' => Sum dim (fun d => Sum dim (fun e => F (grad_at dim inv [f] 0 u c q) (grad_at dim inv [f] 0 v c q) k d k' e))))).
    { apply Sum_ext. intros k Hk. apply Sum_swap. }
    rewrite Sum_swap. apply Sum_ext. intros k' Hk'.
    transitivity (Sum dim (fun k => Sum dim (fun e => Sum dim (fun d => F (grad_at dim inv [f] 0 u c q) (grad_at dim inv [f] 0 v c q) k d k' e)))).
    { apply Sum_ext. intros k Hk. apply Sum_swap. }
    rewrite Sum_swap. apply Sum_ext. intros e He. apply Sum_ext. intros k Hk. apply Sum_ext. intros d Hd.
    unfold F. rewrite (MS _ k d k' e) by assumption. ring.
  Qed.

  (** *** The stiffness built from any responses *)
  Variable col : nat -> nat.

  Lemma C_get cases j k : j < length (voigt_pairs dim) -> k < length cases ->
    get2 (h_C (hom_of_cases kinv dim nq det inv f tm vars cases)) j k =
    get (average_stress kinv dim nq det inv f tm vars (fst (nth k cases ([], []))) dim) j.
  Proof.
    clear. intros Hj Hk. cbn [hom_of_cases h_C]. unfold get2, transpose. rewrite nth_tab by exact Hj.
    unfold get at 1. rewrite nth_map_in with (d := @nil K) by (rewrite map_length; exact Hk).
    rewrite nth_map_in with (d := (@nil K, @nil K)) by exact Hk. reflexivity.
  Qed.

  Lemma entry_macro cases j k : j < length (voigt_pairs dim) -> k < length cases ->
    vol * get2 (h_C (hom_of_cases kinv dim nq det inv f tm vars cases)) j k =
    a (fst (nth k cases ([], []))) (macro_displacement (fe_points f) dim (nth j (unit_strains half dim) [])).
  Proof using SC LS SS. intros Hj Hk. rewrite C_get by assumption. rewrite a_macro by exact Hj. reflexivity. Qed.

  Lemma entry_work cases j k : responses dim half pb bs0 col (fe_points f) cases ->
    j < length cases -> k < length cases ->
    vol * get2 (h_C (hom_of_cases kinv dim nq det inv f tm vars cases)) j k =
    virtual_work (pr_n pb) (fst (nth j cases ([], []))) (get_res pb bs0 (fst (nth k cases ([], [])))).
  Proof using SC LS SS EB SO TJ TS Hbs.
    intros [HL HR] Hj Hk. rewrite work_is_a. rewrite entry_macro; [| |exact Hk].
    - symmetry. eapply work_response; apply HR; assumption.
    - rewrite HL, strains_length in Hj. exact Hj.
  Qed.

  Lemma vol_cancel x y : vol * x = vol * y -> x = y.
  Proof using SC.
    intros E. destruct SC as (_ & _ & _ & _ & _ & HV & _). fold vol in HV.
    transitivity (kinv vol * (vol * x)); [|rewrite E].
    - transitivity (vol * kinv vol * x); [rewrite HV|]; ring.
    - transitivity (vol * kinv vol * y); [|rewrite HV]; ring.
  Qed.
End Hom.

(** ** Responses computed by the two solution paths *)
Section Resp.
  Variable K : CRing.
  Add Ring Kring65b : (cth K).
  Local Open Scope ring_K.
  Variables (Inp FInp : Type) (pb : problem K Inp FInp) (bs0 : nat).
  Hypothesis Hbs : 0 < bs0.
  Hypothesis W : wf_problem pb.
  Hypothesis Aff : affine_problem pb.
  Variable bc : dirichlet K.
  Local Notation n := (pr_n pb).
  Hypothesis Wb : wf_bc bc n.
  Hypothesis Eb : bc_rows bc = [].
  Variable P : bcoo K.
  Variable col : nat -> nat.
  Hypothesis MS : master_slave P n col.

  Lemma whole_nil : whole_classes n col (bc_rows bc).
  Proof. rewrite Eb. intros r i []. Qed.
  Lemma no_rows i : ~ In i (bc_rows bc).
  Proof. rewrite Eb. intros []. Qed.

  Lemma op_full sol x i : i < n -> get (reduced_operator pb bs0 P sol bc x) (col i) =
    class_sum n col (col i) (fun k => sumf (fun j => spec_jac pb sol k j * get x (col j)) (seq 0 n)).
  Proof.
    intros Hi. rewrite (op_free K Inp FInp pb bs0 Hbs W bc Wb P col MS whole_nil sol x i Hi (no_rows i)).
    unfold class_sum. apply sumf_ext. intros k _. apply sumf_ext. intros j _.
    rewrite (mask_false j Wb (no_rows j)). reflexivity.
  Qed.

  (** Adding a periodic fluctuation changes the class forces by the reduced operator. *)
  Lemma class_forces sol (um u x : list K) i : i < n -> (forall j, j < n -> get u j = get um j + get x (col j)) ->
    class_sum n col (col i) (get (get_res pb bs0 u)) =
    class_sum n col (col i) (get (get_res pb bs0 um)) + get (reduced_operator pb bs0 P sol bc x) (col i).
  Proof.
    intros Hi Hu. rewrite op_full by exact Hi. unfold class_sum. rewrite <- sumf_add. apply sumf_ext.
    intros k Hk. apply filter_In in Hk. destruct Hk as [Hk _]. apply in_seq in Hk.
    rewrite !(get_res_spec Hbs W) by lia. rewrite (spec_res_affine W Aff sol u), (spec_res_affine W Aff sol um).
    match goal with |- ?a + ?b = ?a + ?c + ?d => transitivity (a + (c + d)); [f_equal|ring] end.
    rewrite <- sumf_add. apply sumf_ext. intros j Hj. apply in_seq in Hj. rewrite Hu by lia. ring.
  Qed.

  Lemma rhs_full um i : i < n ->
    get (reduced_rhs pb bs0 P um bc) (col i) = - class_sum n col (col i) (get (get_res pb bs0 um)).
  Proof.
    intros Hi. rewrite (rhs_get K Inp FInp pb bs0 bc P col MS um (col i)) by (apply MS; exact Hi).
    f_equal. unfold class_sum. apply sumf_ext. intros k _.
    apply (get_apply_res_free (get_res pb bs0 um) um 1 k Wb (no_rows k)).
  Qed.

  Lemma krylov_response ksolve um u : length um = n ->
    exact_call (P_cols P) ksolve (reduced_operator pb bs0 P um bc) (reduced_rhs pb bs0 P um bc) ->
    reduced_solver pb bs0 P ksolve bc (Some um) None = Some u -> is_response pb bs0 col um u.
  Proof.
    intros Hl Hex HS. unfold reduced_solver in HS.
    destruct (validate_bc_pairing P (bc_rows bc)); [|discriminate]. injection HS as <-.
    assert (Hg := fun j => sol_get K Inp FInp pb bs0 bc P col MS ksolve um j Hl). split.
    - intros i j Hi Hj Ec. rewrite !Hg by assumption. rewrite Ec. ring.
    - intros i Hi. destruct Hex as [_ Hex]. erewrite (class_forces um) by (exact Hi || exact Hg).
      rewrite Hex by (apply MS; exact Hi). rewrite rhs_full by exact Hi. ring.
  Qed.

  (** The operator is linear: its columns. *)
  Lemma op_columns sol x i : i < n ->
    get (reduced_operator pb bs0 P sol bc x) (col i) =
    sumf (fun c => get (reduced_operator pb bs0 P sol bc (unit_vec (P_cols P) c)) (col i) * get x c) (seq 0 (P_cols P)).
  Proof.
    intros Hi. rewrite op_full by exact Hi.
    rewrite sumf_ext with (l := seq 0 (P_cols P)) (g := fun c => sumf (fun k => sumf (fun j =>
       spec_jac pb sol k j * (if c =? col j then 1 else 0) * get x c) (seq 0 n)) (filter (fun k => col k =? col i) (seq 0 n))).
    2:{ intros c Hc. apply in_seq in Hc. rewrite op_full by exact Hi. unfold class_sum. rewrite <- sumf_mul_r.
        apply sumf_ext. intros k _. rewrite <- sumf_mul_r. apply sumf_ext. intros j Hj. apply in_seq in Hj.
        unfold unit_vec. rewrite get_tab by (apply MS; lia). rewrite (Nat.eqb_sym (col j)). reflexivity. }
    rewrite sumf_swap. unfold class_sum. apply sumf_ext. intros k _. rewrite sumf_swap. apply sumf_ext. intros j Hj.
    apply in_seq in Hj. rewrite sumf_ext with (g := fun c => if c =? col j then spec_jac pb sol k j * get x c else 0).
    2:{ intros c _. destruct (c =? col j); ring. }
    rewrite (sumf_single_nat K (fun c => spec_jac pb sol k j * get x c)) by (apply MS; lia). reflexivity.
  Qed.
End Resp.

Section Direct.
  Variable K : CRing.
  Add Ring Kring65c : (cth K).
  Local Open Scope ring_K.

  Lemma min_list_in (l : list nat) : l <> [] -> In (min_list l) l.
  Proof.
    intros H. unfold min_list. destruct l as [|a t]; [congruence|]. cbn [hd]. clear H.
    assert (G : forall s, In (fold_right Nat.min a s) (a :: s)).
    { induction s as [|b s IH]; [left; reflexivity|]. cbn [fold_right].
      destruct (Nat.min_spec b (fold_right Nat.min a s)) as [[_ ->]|[_ ->]].
      - right. left. reflexivity.
      - destruct IH as [E|E]; [left; exact E|right; right; exact E]. }
    destruct (G (a :: t)) as [E|E]; [left; exact E|exact E].
  Qed.
  Lemma pin_member (P : bcoo K) n col vec c p : master_slave P n col -> pin_of P vec c = Some p ->
    exists i, i < n /\ (i mod vec)%nat = c /\ col i = p.
  Proof.
    intros (_ & EP & _) H. unfold pin_of in H.
    assert (G : In p (map e_col (filter (fun e => (e_row e mod vec =? c)%nat) (P_ents P)))).
    { destruct (map e_col (filter (fun e => (e_row e mod vec =? c)%nat) (P_ents P))) as [|a t] eqn:E; [discriminate|].
      injection H as <-. apply min_list_in. discriminate. }
    apply in_map_iff in G. destruct G as (e & <- & He). apply filter_In in He. destruct He as [He Hm].
    rewrite EP in He. apply in_map_iff in He. destruct He as (i & <- & Hi). apply in_seq in Hi.
    exists i. cbn in Hm. apply Nat.eqb_eq in Hm. repeat split; [lia|exact Hm].
  Qed.
  Lemma all_opt_in {A B} (g : A -> option B) l r : all_opt (map g l) = Some r -> forall b, In b r -> exists a, In a l /\ g a = Some b.
  Proof.
    revert r. induction l as [|a t IH]; intros r H b Hb; cbn in H; [injection H as <-; destruct Hb|].
    destruct (g a) as [v|] eqn:E; [|discriminate]. destruct (all_opt (map g t)) as [r'|]; [|discriminate].
    injection H as <-. destruct Hb as [<-|Hb]; [exists a; split; [left; reflexivity|exact E]|].
    destruct (IH r' eq_refl b Hb) as (a' & Ha & E'). exists a'. split; [right; exact Ha|exact E'].
  Qed.
  Lemma pins_spec (P : bcoo K) vec d pins : translation_pin_dofs P vec d = Some pins ->
    forall p, In p pins -> exists c, c < d /\ pin_of P vec c = Some p.
  Proof.
    unfold translation_pin_dofs. intros H p Hp. destruct (all_opt (map (pin_of P vec) (seq 0 d))) as [l|] eqn:E; [|discriminate].
    destruct (length (nodup Nat.eq_dec l) =? d); [|discriminate]. injection H as <-. apply nodup_In in Hp.
    destruct (all_opt_in _ _ _ E p Hp) as (c & Hc & Ec). apply in_seq in Hc. exists c. split; [lia|exact Ec].
  Qed.

  Variables (dim nq : nat).
  Variable det : list (list K) -> K.
  Variable inv : list (list K) -> list (list K).
  Variable norm : list K -> K.
  Variable half : K.
  Variable kinv : K -> K.
  Variable f : fe K.
  Hypothesis SC : sound_cell dim nq half kinv det inv f.
  Variables (nfq : nat) (V W : Type).
  Variable vw : view.
  Variable ph : physics K V.
  Variable tm : tensor_map K V.
  Hypothesis SO : stress_only ph tm.
  Variable vars : nat -> nat -> V.
  Variable vj : list K -> vinp K V -> list K.
  Variable sj : list K -> finp K W -> list K.
  Variable xv : vinp K V.
  Variable xs : finp K W.
  Hypothesis TJ : forall u x, length (vj u x) = (num_local [f] * num_local [f])%nat.
  Hypothesis TS : forall u x, length (sj u x) = (num_local [f] * num_local [f])%nat.
  Variable pb : problem K (vinp K V) (finp K W).
  Hypothesis EB : build dim nq nfq det inv norm [f] vw ph vars (@nil (bdata K W)) vj sj xv xs = Some pb.
  Variable bs0 : nat.
  Hypothesis Hbs : 0 < bs0.
  Hypothesis Aff : affine_problem pb.
  Variable bc : dirichlet K.
  Hypothesis Wb : wf_bc bc (pr_n pb).
  Hypothesis Eb : bc_rows bc = [].
  Variable P : bcoo K.
  Variable col : nat -> nat.
  Hypothesis MS : master_slave P (pr_n pb) col.
  Hypothesis CW : componentwise dim (pr_n pb) col.
  Variable dsolve : (nat -> nat -> K) -> list K -> list K.
  Variable pins : list nat.
  Hypothesis EP : translation_pin_dofs P dim dim = Some pins.

  Let n := pr_n pb.
  Lemma WP : wf_problem pb.
  Proof using SC SO TJ TS EB. eapply hom_wf; eassumption. Qed.
  Lemma En : n = (length (fe_points f) * dim)%nat.
  Proof using SC EB. eapply hom_n; eassumption. Qed.

  Lemma pin_col p : In p pins -> exists i, i < n /\ col i = p.
  Proof using MS EP.
    intros Hp. destruct (pins_spec P dim dim pins EP p Hp) as (c & _ & E).
    destruct (pin_member P n col dim c p MS E) as (i & Hi & _ & Ec). exists i. auto.
  Qed.
  (** Two pins of the same component coincide. *)
  Lemma pin_unique i j : i < n -> j < n -> In (col i) pins -> In (col j) pins ->
    (i mod dim = j mod dim)%nat -> col i = col j.
  Proof using MS EP CW.
    intros Hi Hj Pi Pj Em. destruct (pins_spec P dim dim pins EP _ Pi) as (c & _ & E).
    destruct (pins_spec P dim dim pins EP _ Pj) as (c' & _ & E').
    destruct (pin_member P n col dim c _ MS E) as (i' & Hi' & Mi & Ci).
    destruct (pin_member P n col dim c' _ MS E') as (j' & Hj' & Mj & Cj).
    assert (A := CW i' i Hi' Hi Ci). assert (B := CW j' j Hj' Hj Cj).
    assert (c = c') by congruence. subst c'. congruence.
  Qed.

  Variable um : list K.
  Hypothesis Lum : length um = n.
  Let A := reduced_matrix pb bs0 P bc.
  Let x := dsolve (pinned_matrix pins A) (case_rhs pb bs0 P bc pins um).
  Hypothesis EX : forall r, r < P_cols P ->
    Sum (P_cols P) (fun c => pinned_matrix pins A r c * get x c) = get (case_rhs pb bs0 P bc pins um) r.

  Lemma rhs_pins r : r < P_cols P -> get (case_rhs pb bs0 P bc pins um) r =
    if existsb (Nat.eqb r) pins then 0 else get (reduced_rhs pb bs0 P um bc) r.
  Proof using MS EP.
    intros Hr. unfold case_rhs. rewrite (get_set_rows K (reduced_rhs pb bs0 P um bc) pins (fun _ => 0) r); [reflexivity|].
    intros p Hp. unfold reduced_rhs, vneg. rewrite map_length, P_Tmul_length.
    destruct (pin_col p Hp) as (i & Hi & <-). apply MS. exact Hi.
  Qed.
  Lemma pin_mem r : existsb (Nat.eqb r) pins = true <-> In r pins.
  Proof.
    clear. rewrite existsb_exists. split.
    - intros (p & Hp & E). apply Nat.eqb_eq in E. subst. exact Hp.
    - intros H. exists r. split; [exact H|apply Nat.eqb_refl].
  Qed.
  Lemma x_pin p : In p pins -> get x p = 0.
  Proof using EX MS EP.
    intros Hp. destruct (pin_col p Hp) as (i & Hi & E). assert (Hc : p < P_cols P) by (subst p; apply MS; exact Hi).
    assert (X := EX p Hc). rewrite rhs_pins in X by exact Hc. rewrite (proj2 (pin_mem p) Hp) in X. rewrite <- X.
    symmetry. unfold Sum.
    rewrite sumf_ext with (g := fun c => if c =? p then get x c else 0).
    - apply (sumf_single_nat K (fun c => get x c)). exact Hc.
    - intros c _. unfold pinned_matrix. rewrite (proj2 (pin_mem p) Hp), (Nat.eqb_sym p c). cbn [andb orb].
      destruct (c =? p); ring.
  Qed.
  Lemma free_row i : i < n -> ~ In (col i) pins ->
    get (reduced_operator pb bs0 P (zeros (pr_n pb)) bc x) (col i) = get (reduced_rhs pb bs0 P um bc) (col i).
  Proof using EX MS EP SC SO TJ TS EB Hbs Wb Eb.
    intros Hi Hn. assert (Hc : col i < P_cols P) by (apply MS; exact Hi).
    assert (X := EX _ Hc). rewrite rhs_pins in X by exact Hc.
    destruct (existsb (Nat.eqb (col i)) pins) eqn:Ep; [apply pin_mem in Ep; contradiction|].
    rewrite <- X. rewrite (op_columns K _ _ pb bs0 Hbs WP bc Wb Eb P col MS _ x i Hi). unfold Sum. apply sumf_ext. intros c Hcc.
    unfold pinned_matrix. rewrite Ep. cbn [andb orb]. destruct (existsb (Nat.eqb c) pins) eqn:Eq.
    - apply pin_mem in Eq. rewrite (x_pin c Eq). ring.
    - reflexivity.
  Qed.

  Let u0 := vadd um (P_mul P x).
  Lemma u0_get i : i < n -> get u0 i = get um i + get x (col i).
  Proof using MS Lum.
    intros Hi. unfold u0. rewrite get_vadd.
    - rewrite (ms_mul K P n col MS) by exact Hi. reflexivity.
    - rewrite P_mul_length. destruct MS as [-> _]. exact Lum.
  Qed.
  Lemma u0_free i : i < n -> ~ In (col i) pins -> class_sum n col (col i) (get (get_res pb bs0 u0)) = 0.
  Proof using EX MS EP SC SO TJ TS EB Hbs Wb Eb Aff Lum.
    intros Hi Hn. unfold n.
    rewrite (class_forces K _ _ pb bs0 Hbs WP Aff bc Wb Eb P col MS (zeros (pr_n pb)) um u0 x i Hi u0_get).
    rewrite free_row by assumption. rewrite (rhs_full K _ _ pb bs0 bc Wb Eb P col MS um i Hi). ring.
  Qed.
  (** The pinned classes are balanced because all internal forces together are. *)
  Lemma u0_pin i : i < n -> In (col i) pins -> class_sum n col (col i) (get (get_res pb bs0 u0)) = 0.
  Proof using EX MS EP SC SO TJ TS EB Hbs Wb Eb Aff Lum CW.
    intros Hi Hp. set (R := get_res pb bs0 u0).
    set (v := tab n (fun j => if (j mod dim =? i mod dim)%nat then 1 else 0) : list K).
    set (z := tab n (fun j => if (j mod dim =? i mod dim)%nat && negb (col j =? col i) then 1 else 0) : list K).
    assert (D23 : 0 < dim) by (destruct SC as ([-> | ->] & _); lia).
    assert (E1 : virtual_work n v R = 0).
    { destruct SC as (_ & Ev & WF & U & _). destruct SO as (PU & PE & PM & PT).
      assert (T := C64_translation K dim nq nfq det inv norm V W f vw ph vars vj sj xv xs pb bs0 u0 u0 v
              (fun k => if (k =? i mod dim)%nat then 1 else 0) WF U TJ TS Hbs PU PE PM EB).
      apply T. intros a k Ha Hk. rewrite Ev in *. unfold v. rewrite get_tab by (rewrite En; nia).
      rewrite Nat.add_comm, Nat.mod_add by lia. rewrite Nat.mod_small by exact Hk. reflexivity. }
    assert (E2 : virtual_work n z R = 0).
    { apply (periodic_work K n col).
      - intros j k Hj Hk Ec. unfold z. rewrite !get_tab by assumption. rewrite (CW j k Hj Hk Ec), Ec. reflexivity.
      - intros j Hj. unfold z. rewrite get_tab by exact Hj.
        destruct (j mod dim =? i mod dim)%nat eqn:Em; [|left; reflexivity].
        destruct (col j =? col i) eqn:Ec; [left; reflexivity|]. right. apply u0_free; [exact Hj|].
        intros Hjp. apply Nat.eqb_eq in Em. apply Nat.eqb_neq in Ec. apply Ec. apply pin_unique; assumption. }
    transitivity (virtual_work n v R - virtual_work n z R); [|rewrite E1, E2; ring].
    unfold virtual_work. rewrite <- Sum_sub. unfold class_sum. rewrite <- sumf_if_sum. unfold Sum. apply sumf_ext.
    intros j Hj. apply in_seq in Hj. unfold v, z. rewrite !get_tab by lia.
    destruct (col j =? col i) eqn:Ec.
    - apply Nat.eqb_eq in Ec. rewrite (CW j i ltac:(lia) Hi Ec), Nat.eqb_refl. cbn. ring.
    - destruct (j mod dim =? i mod dim)%nat; cbn; ring.
  Qed.

  Let u := vadd um (zero_mean kinv dim (length (fe_points f)) (P_mul P x)).
  Lemma zero_mean_get (w : list K) a k : a < length (fe_points f) -> k < dim ->
    get (zero_mean kinv dim (length (fe_points f)) w) (a * dim + k) =
    get w (a * dim + k) - Sum (length (fe_points f)) (fun b => get w (b * dim + k)) * kinv (Sum (length (fe_points f)) (fun _ => 1)).
  Proof.
    clear. intros Ha Hk. unfold zero_mean, get at 1.
    rewrite flat_map_const_block with (da := 0%nat) by ((rewrite seq_length; exact Ha) || (intros; apply tab_length) || exact Hk).
    rewrite seq_nth by exact Ha. rewrite nth_tab by exact Hk. reflexivity.
  Qed.
  Lemma zero_mean_length (w : list K) : length (zero_mean kinv dim (length (fe_points f)) w) = (length (fe_points f) * dim)%nat.
  Proof.
    clear. unfold zero_mean.
    assert (G : forall (g : nat -> list K) l, (forall a, length (g a) = dim) -> length (flat_map g l) = (length l * dim)%nat).
    { intros g l Hg. induction l as [|a t IH]; [reflexivity|]. cbn [flat_map length]. rewrite app_length, IH, Hg. lia. }
    rewrite G, seq_length; [reflexivity|]. intros a. apply tab_length.
  Qed.
  Lemma direct_response : is_response pb bs0 col um u.
  Proof using EX MS EP SC SO TJ TS EB Hbs Wb Eb Aff Lum CW.
    assert (D23 : 0 < dim) by (destruct SC as ([-> | ->] & _); lia).
    assert (Hu : forall i, i < n -> get u i = get u0 i -
      Sum (length (fe_points f)) (fun b => get (P_mul P x) (b * dim + i mod dim)) * kinv (Sum (length (fe_points f)) (fun _ => 1))).
    { intros i Hi. unfold u, u0. assert (HL : length (P_mul P x) = n) by (rewrite P_mul_length; apply MS).
      rewrite !get_vadd by (rewrite ?zero_mean_length, ?HL, <- ?En; exact Lum).
      assert (Ei : i = (i / dim * dim + i mod dim)%nat) by (rewrite (Nat.div_mod i dim) at 1 by lia; lia).
      rewrite Ei at 2. rewrite zero_mean_get.
      - rewrite <- Ei. ring.
      - apply Nat.div_lt_upper_bound; [lia|]. rewrite En in Hi. lia.
      - apply Nat.mod_upper_bound. lia. }
    split.
    - intros i j Hi Hj Ec. rewrite !Hu by assumption. rewrite !u0_get by assumption.
      rewrite (CW i j Hi Hj Ec), Ec. ring.
    - intros i Hi.
      assert (ER : get_res pb bs0 u = get_res pb bs0 u0).
      { destruct SC as (_ & Ev & WF & U & _). destruct SO as (PU & PE & PM & PT).
        assert (T := C64_translation K dim nq nfq det inv norm V W f vw ph vars vj sj xv xs pb bs0 u0 u u
              (fun k => 0 - Sum (length (fe_points f)) (fun b => get (P_mul P x) (b * dim + k)) * kinv (Sum (length (fe_points f)) (fun _ => 1)))
              WF U TJ TS Hbs PU PE PM EB).
        apply T. intros a k Ha Hk. rewrite Ev in *. rewrite Hu by (rewrite En; nia).
        rewrite (Nat.add_comm _ k), Nat.mod_add by lia. rewrite Nat.mod_small by exact Hk. rewrite (Nat.add_comm k).
        change (@cadd K) with (fun a b : K => a + b). cbv beta. ring. }
      rewrite ER. destruct (in_dec Nat.eq_dec (col i) pins) as [Hp|Hp]; [apply u0_pin|apply u0_free]; assumption.
  Qed.
End Direct.

(** ** Theorems. Throughout: one displacement variable on a sound 2D/3D cell [f], a problem
    whose only term is the linear stress [tm] with moduli [C], and its assembled residual
    [get_res pb]. [col] maps a full DOF to its reduced unknown (periodic class). *)

(** Hill-Mandel: for any periodic responses [u_k] to the unit strains, volume times the
    stiffness entry [C_hom(j,k)] is the virtual work of the internal forces of [u_k] on
    [u_j], which is [int sigma(u_k) : grad u_j]. *)
Theorem C65_hill_mandel :
  forall (K : CRing) dim nq nfq det inv norm half kinv (V W : Type) (f : fe K) vw (ph : physics K V) tm
         vars vj sj xv xs (pb : problem K (vinp K V) (finp K W)) bs0 C col cases j k,
  sound_cell dim nq half kinv det inv f -> stress_only ph tm ->
  (forall u x, length (vj u x) = num_local [f] * num_local [f]) ->
  (forall u x, length (sj u x) = num_local [f] * num_local [f]) ->
  build dim nq nfq det inv norm [f] vw ph vars (@nil (bdata K W)) vj sj xv xs = Some pb ->
  0 < bs0 -> linear_stress dim tm C -> stress_symmetric dim C ->
  responses dim half pb bs0 col (fe_points f) cases ->
  j < length cases -> k < length cases ->
  let u i := fst (nth i cases ([], [])) in
  cmul (total_volume dim nq det f) (get2 (h_C (hom_of_cases kinv dim nq det inv f tm vars cases)) j k) =
    virtual_work (pr_n pb) (u j) (get_res pb bs0 (u k)) /\
  cmul (total_volume dim nq det f) (get2 (h_C (hom_of_cases kinv dim nq det inv f tm vars cases)) j k) =
    tensor_volume dim nq det inv [f] tm vars (u k) (u j).
Proof.
  intros K dim nq nfq det inv norm half kinv V W f vw ph tm vars vj sj xv xs pb bs0 C col cases j k
         SC SO TJ TS EB Hbs LS SS HR Hj Hk u.
  assert (E := entry_work K dim nq det inv norm half kinv f SC nfq V W vw ph tm SO vars vj sj xv xs TJ TS pb EB bs0 Hbs
                 C LS SS col cases j k HR Hj Hk).
  split; [exact E|]. etransitivity; [exact E|].
  exact (work_is_a K dim nq det inv norm half kinv f SC nfq V W vw ph tm SO vars vj sj xv xs TJ TS pb EB bs0 Hbs (u k) (u j)).
Qed.
Print Assumptions C65_hill_mandel.

(** The homogenized stiffness is symmetric if the material is. *)
Theorem C65_symmetric :
  forall (K : CRing) dim nq nfq det inv norm half kinv (V W : Type) (f : fe K) vw (ph : physics K V) tm
         vars vj sj xv xs (pb : problem K (vinp K V) (finp K W)) bs0 C col cases j k,
  sound_cell dim nq half kinv det inv f -> stress_only ph tm ->
  (forall u x, length (vj u x) = num_local [f] * num_local [f]) ->
  (forall u x, length (sj u x) = num_local [f] * num_local [f]) ->
  build dim nq nfq det inv norm [f] vw ph vars (@nil (bdata K W)) vj sj xv xs = Some pb ->
  0 < bs0 -> linear_stress dim tm C -> stress_symmetric dim C -> major_symmetric dim C ->
  responses dim half pb bs0 col (fe_points f) cases ->
  j < length cases -> k < length cases ->
  get2 (h_C (hom_of_cases kinv dim nq det inv f tm vars cases)) j k =
  get2 (h_C (hom_of_cases kinv dim nq det inv f tm vars cases)) k j.
Proof.
  intros K dim nq nfq det inv norm half kinv V W f vw ph tm vars vj sj xv xs pb bs0 C col cases j k
         SC SO TJ TS EB Hbs LS SS MS HR Hj Hk.
  apply (vol_cancel K dim nq det inv half kinv f SC).
  rewrite (proj2 (C65_hill_mandel K dim nq nfq det inv norm half kinv V W f vw ph tm vars vj sj xv xs pb bs0 C col cases j k
                    SC SO TJ TS EB Hbs LS SS HR Hj Hk)).
  rewrite (proj2 (C65_hill_mandel K dim nq nfq det inv norm half kinv V W f vw ph tm vars vj sj xv xs pb bs0 C col cases k j
                    SC SO TJ TS EB Hbs LS SS HR Hk Hj)).
  apply (a_symmetric K dim nq det inv half kinv f SC V tm vars C LS _ _ MS).
Qed.
Print Assumptions C65_symmetric.

(** The stiffness does not depend on which solution of the (singular) cell problems is
    returned: any two families of responses give the same matrix. *)
Theorem C65_unique :
  forall (K : CRing) dim nq nfq det inv norm half kinv (V W : Type) (f : fe K) vw (ph : physics K V) tm
         vars vj sj xv xs (pb : problem K (vinp K V) (finp K W)) bs0 C col cases cases',
  sound_cell dim nq half kinv det inv f -> stress_only ph tm ->
  (forall u x, length (vj u x) = num_local [f] * num_local [f]) ->
  (forall u x, length (sj u x) = num_local [f] * num_local [f]) ->
  build dim nq nfq det inv norm [f] vw ph vars (@nil (bdata K W)) vj sj xv xs = Some pb ->
  0 < bs0 -> linear_stress dim tm C -> stress_symmetric dim C -> major_symmetric dim C ->
  responses dim half pb bs0 col (fe_points f) cases -> responses dim half pb bs0 col (fe_points f) cases' ->
  h_C (hom_of_cases kinv dim nq det inv f tm vars cases) = h_C (hom_of_cases kinv dim nq det inv f tm vars cases').
Proof.
  intros K dim nq nfq det inv norm half kinv V W f vw ph tm vars vj sj xv xs pb bs0 C col cases cases'
         SC SO TJ TS EB Hbs LS SS MS [HL HR] [HL' HR'].
  assert (G : forall j k, j < length (voigt_pairs dim) -> k < length cases ->
    get2 (h_C (hom_of_cases kinv dim nq det inv f tm vars cases)) j k = get2 (h_C (hom_of_cases kinv dim nq det inv f tm vars cases')) j k).
  { intros j k Hj Hk. assert (Hk' : k < length cases') by congruence.
    assert (Hjc : j < length cases) by (rewrite HL, (strains_length K dim nq det inv half kinv f SC); exact Hj).
    assert (Hjc' : j < length cases') by congruence.
    apply (vol_cancel K dim nq det inv half kinv f SC).
    rewrite (entry_macro K dim nq det inv half kinv f SC V tm vars C LS SS cases j k Hj Hk).
    rewrite (entry_macro K dim nq det inv half kinv f SC V tm vars C LS SS cases' j k Hj Hk').
    pose (a := tensor_volume dim nq det inv [f] tm vars).
    pose (um i := macro_displacement (fe_points f) dim (nth i (unit_strains half dim) [])).
    pose (u i := fst (nth i cases ([], []))). pose (u' i := fst (nth i cases' ([], []))).
    change (a (u k) (um j) = a (u' k) (um j)).
    assert (X : forall v v' w w', is_response pb bs0 col v v' -> is_response pb bs0 col w w' -> a v' w' = a v' w).
    { intros v v' w w'. apply (work_response K dim nq det inv norm half kinv f SC nfq V W vw ph tm SO vars vj sj xv xs TJ TS pb EB bs0 Hbs). }
    assert (Sy : forall v w, a v w = a w v).
    { intros v w. apply (a_symmetric K dim nq det inv half kinv f SC V tm vars C LS _ _ MS). }
    rewrite <- (X (um k) (u k) (um j) (u' j) (HR k Hk) (HR' j Hjc')). rewrite Sy.
    rewrite (X (um j) (u' j) (um k) (u k) (HR' j Hjc') (HR k Hk)).
    rewrite <- (X (um j) (u' j) (um k) (u' k) (HR' j Hjc') (HR' k Hk')). rewrite Sy.
    apply (X (um k) (u' k) (um j) (u' j) (HR' k Hk') (HR' j Hjc')). }
  cbn [hom_of_cases h_C] in *. unfold transpose in *. apply tab_ext. intros j Hj.
  apply nth_ext with (d := c0) (d' := c0); [rewrite !map_length; congruence|].
  intros k Hk. rewrite !map_length in Hk. specialize (G j k Hj Hk).
  unfold get2 in G. rewrite !nth_tab in G by exact Hj. exact G.
Qed.
Print Assumptions C65_unique.

(** Krylov path: with an empty BC and exact inner solves, the solver returns responses, and
    the stiffness assembled from them; it never fails on a 2D/3D cell. *)
Theorem C65_krylov_responses :
  forall (K : CRing) dim nq nfq det inv norm half kinv (V W : Type) (f : fe K) vw (ph : physics K V) tm
         vars vj sj xv xs (pb : problem K (vinp K V) (finp K W)) bs0 (bc : dirichlet K) P col ksolve,
  sound_cell dim nq half kinv det inv f -> stress_only ph tm ->
  (forall u x, length (vj u x) = num_local [f] * num_local [f]) ->
  (forall u x, length (sj u x) = num_local [f] * num_local [f]) ->
  build dim nq nfq det inv norm [f] vw ph vars (@nil (bdata K W)) vj sj xv xs = Some pb ->
  0 < bs0 -> affine_problem pb -> wf_bc bc (pr_n pb) -> bc_rows bc = [] -> master_slave P (pr_n pb) col ->
  (forall eps, In eps (unit_strains half dim) ->
     let um := macro_displacement (fe_points f) dim eps in
     exact_call (P_cols P) ksolve (reduced_operator pb bs0 P um bc) (reduced_rhs pb bs0 P um bc)) ->
  exists cases, responses dim half pb bs0 col (fe_points f) cases /\
    hom_krylov half kinv dim nq det inv pb bs0 P ksolve f tm vars bc = Some (hom_of_cases kinv dim nq det inv f tm vars cases).
Proof.
  intros K dim nq nfq det inv norm half kinv V W f vw ph tm vars vj sj xv xs pb bs0 bc P col ksolve
         SC SO TJ TS EB Hbs Aff Wb Eb MS Hex.
  assert (WP := hom_wf K dim nq det inv norm half kinv f SC nfq V W vw ph tm SO vars vj sj xv xs TJ TS pb EB).
  assert (EN := hom_n K dim nq det inv norm half kinv f SC nfq V W vw ph vars vj sj xv xs pb EB).
  assert (D : (dim =? 2) || (dim =? 3) = true) by (destruct SC as ([-> | ->] & _); reflexivity).
  unfold hom_krylov. rewrite D.
  assert (G : forall l, incl l (unit_strains half dim) ->
    exists cases, all_opt (map (single_case dim pb bs0 P ksolve bc (fe_points f)) l) = Some cases /\ length cases = length l /\
      forall k, k < length l -> is_response pb bs0 col (macro_displacement (fe_points f) dim (nth k l [])) (fst (nth k cases ([], [])))).
  { induction l as [|eps l IH]; intros Hin; [exists []; cbn; repeat split; intros; lia|].
    destruct IH as (cases & E & HLn & HC); [intros e He; apply Hin; right; exact He|].
    assert (He : In eps (unit_strains half dim)) by (apply Hin; left; reflexivity).
    assert (R : exists u, reduced_solver pb bs0 P ksolve bc (Some (macro_displacement (fe_points f) dim eps)) None = Some u).
    { unfold reduced_solver. rewrite Eb. cbn. eexists. reflexivity. }
    destruct R as [u R]. exists ((u, macro_displacement (fe_points f) dim eps) :: cases). split; [|split].
    - cbn. unfold single_case at 1. rewrite R, E. reflexivity.
    - cbn. congruence.
    - intros [|k] Hk; cbn [nth fst].
      + eapply (krylov_response K _ _ pb bs0 Hbs WP Aff bc Wb Eb P col MS ksolve); [|apply Hex; exact He|exact R].
        rewrite macro_length. symmetry. exact EN.
      + apply HC. cbn in Hk. lia. }
  destruct (G (unit_strains half dim) (incl_refl _)) as (cases & E & HLn & HC).
  exists cases. rewrite E. split; [|reflexivity]. split; [exact HLn|]. intros k Hk. apply HC. congruence.
Qed.
Print Assumptions C65_krylov_responses.

(** Direct path: factorizing the reduced operator with one pinned unknown per translation and
    re-centring gives responses too (the forces dropped at the pins balance by themselves). *)
Theorem C65_direct_responses :
  forall (K : CRing) dim nq nfq det inv norm half kinv (V W : Type) (f : fe K) vw (ph : physics K V) tm
         vars vj sj xv xs (pb : problem K (vinp K V) (finp K W)) bs0 (bc : dirichlet K) P col dsolve h,
  sound_cell dim nq half kinv det inv f -> stress_only ph tm ->
  (forall u x, length (vj u x) = num_local [f] * num_local [f]) ->
  (forall u x, length (sj u x) = num_local [f] * num_local [f]) ->
  build dim nq nfq det inv norm [f] vw ph vars (@nil (bdata K W)) vj sj xv xs = Some pb ->
  0 < bs0 -> affine_problem pb -> wf_bc bc (pr_n pb) -> bc_rows bc = [] -> master_slave P (pr_n pb) col ->
  componentwise dim (pr_n pb) col ->
  (forall pins eps r, translation_pin_dofs P (fe_vec f) dim = Some pins -> In eps (unit_strains half dim) -> r < P_cols P ->
     let A := pinned_matrix pins (reduced_matrix pb bs0 P bc) in
     let b := case_rhs pb bs0 P bc pins (macro_displacement (fe_points f) dim eps) in
     Sum (P_cols P) (fun c => cmul (A r c) (get (dsolve A b) c)) = get b r) ->
  hom_direct half kinv dim nq det inv pb bs0 P dsolve f tm vars bc = Some h ->
  exists cases, responses dim half pb bs0 col (fe_points f) cases /\ h = hom_of_cases kinv dim nq det inv f tm vars cases.
Proof.
  intros K dim nq nfq det inv norm half kinv V W f vw ph tm vars vj sj xv xs pb bs0 bc P col dsolve h
         SC SO TJ TS EB Hbs Aff Wb Eb MS CW Hex HD.
  assert (EN := hom_n K dim nq det inv norm half kinv f SC nfq V W vw ph vars vj sj xv xs pb EB).
  unfold hom_direct in HD. destruct ((dim =? 2) || (dim =? 3)); [|discriminate].
  destruct (translation_pin_dofs P (fe_vec f) dim) as [pins|] eqn:EP; [|discriminate]. injection HD as <-.
  exists (map (direct_case kinv dim pb bs0 P dsolve bc f pins) (unit_strains half dim)). split; [|reflexivity].
  split; [apply map_length|]. intros k Hk. rewrite map_length in Hk.
  rewrite nth_map_in with (d := @nil (list K)) by exact Hk.
  set (eps := nth k (unit_strains half dim) []). assert (He : In eps (unit_strains half dim)) by (apply nth_In; exact Hk).
  unfold direct_case. cbn [fst]. assert (Ev : fe_vec f = dim) by apply SC. rewrite Ev in *.
  eapply (direct_response K dim nq det inv norm half kinv f SC nfq V W vw ph tm SO vars vj sj xv xs TJ TS pb EB bs0 Hbs Aff
            bc Wb Eb P col MS CW dsolve pins EP).
  - rewrite macro_length. symmetry. exact EN.
  - intros r Hr. exact (Hex pins eps r eq_refl He Hr).
Qed.
Print Assumptions C65_direct_responses.

(** Both paths return the same stiffness. *)
Theorem C65_paths_agree :
  forall (K : CRing) dim nq nfq det inv norm half kinv (V W : Type) (f : fe K) vw (ph : physics K V) tm
         vars vj sj xv xs (pb : problem K (vinp K V) (finp K W)) bs0 C (bc : dirichlet K) P col ksolve dsolve h h',
  sound_cell dim nq half kinv det inv f -> stress_only ph tm ->
  (forall u x, length (vj u x) = num_local [f] * num_local [f]) ->
  (forall u x, length (sj u x) = num_local [f] * num_local [f]) ->
  build dim nq nfq det inv norm [f] vw ph vars (@nil (bdata K W)) vj sj xv xs = Some pb ->
  0 < bs0 -> affine_problem pb -> wf_bc bc (pr_n pb) -> bc_rows bc = [] -> master_slave P (pr_n pb) col ->
  componentwise dim (pr_n pb) col ->
  linear_stress dim tm C -> stress_symmetric dim C -> major_symmetric dim C ->
  (forall eps, In eps (unit_strains half dim) ->
     let um := macro_displacement (fe_points f) dim eps in
     exact_call (P_cols P) ksolve (reduced_operator pb bs0 P um bc) (reduced_rhs pb bs0 P um bc)) ->
  (forall pins eps r, translation_pin_dofs P (fe_vec f) dim = Some pins -> In eps (unit_strains half dim) -> r < P_cols P ->
     let A := pinned_matrix pins (reduced_matrix pb bs0 P bc) in
     let b := case_rhs pb bs0 P bc pins (macro_displacement (fe_points f) dim eps) in
     Sum (P_cols P) (fun c => cmul (A r c) (get (dsolve A b) c)) = get b r) ->
  hom_krylov half kinv dim nq det inv pb bs0 P ksolve f tm vars bc = Some h ->
  hom_direct half kinv dim nq det inv pb bs0 P dsolve f tm vars bc = Some h' ->
  h_C h = h_C h'.
Proof.
  intros K dim nq nfq det inv norm half kinv V W f vw ph tm vars vj sj xv xs pb bs0 C bc P col ksolve dsolve h h'
         SC SO TJ TS EB Hbs Aff Wb Eb MS CW LS SS MJ HK HDx EK ED.
  destruct (C65_krylov_responses K dim nq nfq det inv norm half kinv V W f vw ph tm vars vj sj xv xs pb bs0 bc P col ksolve
              SC SO TJ TS EB Hbs Aff Wb Eb MS HK) as (cases & R & E).
  destruct (C65_direct_responses K dim nq nfq det inv norm half kinv V W f vw ph tm vars vj sj xv xs pb bs0 bc P col dsolve h'
              SC SO TJ TS EB Hbs Aff Wb Eb MS CW HDx ED) as (cases' & R' & E').
  assert (Eh : h = hom_of_cases kinv dim nq det inv f tm vars cases) by congruence. rewrite Eh, E'.
  eapply C65_unique; eassumption.
Qed.
Print Assumptions C65_paths_agree.

(** A homogeneous cell has its own moduli as effective stiffness. *)
Section Homogeneous.
  Variable K : CRing.
  Add Ring Kring65d : (cth K).
  Local Open Scope ring_K.
  Lemma quad_rearr m (A B : nat -> nat -> K) (D : nat -> nat -> nat -> nat -> K) :
    Sum m (fun i => Sum m (fun d => Sum m (fun k => Sum m (fun e => D i d k e * B k e)) * A i d)) =
    Sum m (fun k => Sum m (fun e => B k e * Sum m (fun i => Sum m (fun d => D i d k e * A i d)))).
  Proof.
    transitivity (Sum m (fun i => Sum m (fun d => Sum m (fun k => Sum m (fun e => D i d k e * B k e * A i d))))).
    { apply Sum_ext. intros i Hi. apply Sum_ext. intros d Hd. rewrite <- Sum_mul_r. apply Sum_ext. intros k Hk.
      rewrite <- Sum_mul_r. reflexivity. }
    transitivity (Sum m (fun i => Sum m (fun k => Sum m (fun e => Sum m (fun d => D i d k e * B k e * A i d))))).
    { apply Sum_ext. intros i Hi. rewrite Sum_swap. apply Sum_ext. intros k Hk. apply Sum_swap. }
    rewrite Sum_swap. apply Sum_ext. intros k Hk. rewrite Sum_swap. apply Sum_ext. intros e He.
    rewrite <- Sum_mul_l. apply Sum_ext. intros i Hi. rewrite <- Sum_mul_l. apply Sum_ext. intros d Hd. ring.
  Qed.
  Lemma grad_sub dim inv (f : fe K) (u um z : list K) c q k d :
    wf_fes [f] -> c < length (fe_cells f) -> k < fe_vec f -> d < dim ->
    (forall i, i < length (fe_points f) * fe_vec f -> get u i = get um i + get z i) ->
    get2 (grad_at dim inv [f] 0 u c q) k d = get2 (grad_at dim inv [f] 0 um c q) k d + get2 (grad_at dim inv [f] 0 z c q) k d.
  Proof.
    intros WF Hc Hk Hd E. unfold grad_at. cbn [fe_at nth]. rewrite !(get2_tab K (fe_vec f) dim) by assumption.
    rewrite <- Sum_add. apply Sum_ext. intros n Hn. unfold nodal. rewrite !dof_single. cbn [fe_at nth]. rewrite E; [ring|].
    destruct (WF f (or_introl eq_refl)) as [_ W0].
    assert (B : node_of f c n < length (fe_points f)).
    { apply (W0 (nth c (fe_cells f) [])); [apply nth_In; exact Hc|].
      unfold node_of. apply nth_In. rewrite (proj1 (W0 _ (nth_In _ _ Hc))). exact Hn. }
    nia.
  Qed.
  Lemma tv_homogeneous dim nq det inv half kinv (V : Type) (f : fe K) (tm : tensor_map K V) vars
      (C : V -> nat -> nat -> nat -> nat -> K) (C0 : nat -> nat -> nat -> nat -> K) (u : list K) j :
    sound_cell dim nq half kinv det inv f -> linear_stress dim tm C ->
    (forall c q i d k e, c < length (fe_cells f) -> q < nq -> i < dim -> d < dim -> k < dim -> e < dim -> C (vars c q) i d k e = C0 i d k e) ->
    tensor_volume dim nq det inv [f] tm vars u (macro_displacement (fe_points f) dim (nth j (unit_strains half dim) [])) =
    Sum dim (fun k => Sum dim (fun e =>
      Sum (length (fe_cells f)) (fun c => Sum nq (fun q => JxW dim det f c q * get2 (grad_at dim inv [f] 0 u c q) k e)) *
      Sum dim (fun i => Sum dim (fun d => C0 i d k e * get2 (nth j (unit_strains half dim) []) i d)))).
  Proof.
    intros SC LS HC. unfold tensor_volume, over_cells.
    assert (Ev : fe_vec f = dim) by apply SC.
    transitivity (Sum (length (fe_cells f)) (fun c => Sum nq (fun q => Sum dim (fun k => Sum dim (fun e =>
       JxW dim det f c q * get2 (grad_at dim inv [f] 0 u c q) k e *
       Sum dim (fun i => Sum dim (fun d => C0 i d k e * get2 (nth j (unit_strains half dim) []) i d))))))).
    - apply Sum_ext. intros c Hc. apply Sum_ext. intros q Hq. change (fe_at [f] 0) with f. rewrite Ev. unfold dot2.
      rewrite <- Sum_mul_l. 
      transitivity (JxW dim det f c q * Sum dim (fun k => Sum dim (fun e => get2 (grad_at dim inv [f] 0 u c q) k e *
         Sum dim (fun i => Sum dim (fun d => C0 i d k e * get2 (nth j (unit_strains half dim) []) i d))))).
      + rewrite Sum_mul_l. f_equal.
        rewrite <- (quad_rearr dim (get2 (nth j (unit_strains half dim) [])) (get2 (grad_at dim inv [f] 0 u c q)) C0).
        apply Sum_ext. intros i Hi. apply Sum_ext. intros d Hd.
        rewrite LS by assumption. rewrite (macro_grad K dim nq det inv half kinv f SC) by assumption. f_equal.
        apply Sum_ext. intros k Hk. apply Sum_ext. intros e He. rewrite HC by assumption. reflexivity.
      + rewrite <- Sum_mul_l. apply Sum_ext. intros k Hk. rewrite <- Sum_mul_l. apply Sum_ext. intros e He. ring.
    - set (T := fun k e => Sum dim (fun i => Sum dim (fun d => C0 i d k e * get2 (nth j (unit_strains half dim) []) i d))).
      set (G := fun c q k e => JxW dim det f c q * get2 (grad_at dim inv [f] 0 u c q) k e).
      transitivity (Sum (length (fe_cells f)) (fun c => Sum dim (fun k => Sum dim (fun e => Sum nq (fun q => G c q k e * T k e))))).
      { apply Sum_ext. intros c Hc. rewrite Sum_swap. apply Sum_ext. intros k Hk. apply Sum_swap. }
      rewrite Sum_swap. apply Sum_ext. intros k Hk. rewrite Sum_swap. apply Sum_ext. intros e He.
      rewrite <- Sum_mul_r. apply Sum_ext. intros c Hc. rewrite <- Sum_mul_r. reflexivity.
  Qed.
  Lemma homogeneous_entry dim nq nfq det inv norm half kinv (V W : Type) (f : fe K) vw (ph : physics K V) tm
         vars vj sj xv xs (pb : problem K (vinp K V) (finp K W)) bs0 C (C0 : nat -> nat -> nat -> nat -> K) col cases j k :
  sound_cell dim nq half kinv det inv f -> stress_only ph tm ->
  build dim nq nfq det inv norm [f] vw ph vars (@nil (bdata K W)) vj sj xv xs = Some pb ->
  linear_stress dim tm C -> stress_symmetric dim C -> strain_symmetric dim C ->
  (forall c q i d k e, c < length (fe_cells f) -> q < nq -> i < dim -> d < dim -> k < dim -> e < dim -> C (vars c q) i d k e = C0 i d k e) ->
  0 < nq -> 0 < length (fe_cells f) ->
  periodic_gradients_vanish dim nq det inv f (pr_n pb) col ->
  responses dim half pb bs0 col (fe_points f) cases ->
  j < length cases -> k < length cases ->
  get2 (h_C (hom_of_cases kinv dim nq det inv f tm vars cases)) j k =
  C0 (fst (nth j (voigt_pairs dim) (0, 0)%nat)) (snd (nth j (voigt_pairs dim) (0, 0)%nat))
     (fst (nth k (voigt_pairs dim) (0, 0)%nat)) (snd (nth k (voigt_pairs dim) (0, 0)%nat)).
  Proof.
    intros SC SO EB LS SS ES HC Nq Nc PG [HL HR] Hj Hk.
    assert (EN := hom_n K dim nq det inv norm half kinv f SC nfq V W vw ph vars vj sj xv xs pb EB).
    assert (Ev : fe_vec f = dim) by apply SC.
    assert (Hj' : j < length (voigt_pairs dim)) by (rewrite <- (strains_length K dim nq det inv half kinv f SC), <- HL; exact Hj).
    assert (Hk' : k < length (voigt_pairs dim)) by (rewrite <- (strains_length K dim nq det inv half kinv f SC), <- HL; exact Hk).
    apply (vol_cancel K dim nq det inv half kinv f SC).
    rewrite (entry_macro K dim nq det inv half kinv f SC V tm vars C LS SS cases j k Hj' Hk).
    rewrite (tv_homogeneous dim nq det inv half kinv V f tm vars C C0 _ j SC LS HC).
    assert (S1 : forall i d k e, i < dim -> d < dim -> k < dim -> e < dim -> C0 i d k e = C0 d i k e).
    { intros. rewrite <- !(HC 0%nat 0%nat) by assumption. apply SS; assumption. }
    assert (S2 : forall i d k e, i < dim -> d < dim -> k < dim -> e < dim -> C0 i d k e = C0 i d e k).
    { intros. rewrite <- !(HC 0%nat 0%nat) by assumption. apply ES; assumption. }
    assert (VP : forall m, m < length (voigt_pairs dim) -> fst (nth m (voigt_pairs dim) (0, 0)%nat) < dim /\ snd (nth m (voigt_pairs dim) (0, 0)%nat) < dim).
    { clear - SC. intros m Hm. destruct SC as ([-> | ->] & _).
      - destruct m as [|[|[|m]]]; cbn in *; lia.
      - destruct m as [|[|[|[|[|[|m]]]]]]; cbn in *; lia. }
    destruct (VP j Hj') as [Pj1 Pj2].
    pose (u := fst (nth k cases ([], []))). pose (um := macro_displacement (fe_points f) dim (nth k (unit_strains half dim) [])).
    pose (z := tab (pr_n pb) (fun i => get u i - get um i)).
    assert (MG : forall k' e, k' < dim -> e < dim ->
      Sum (length (fe_cells f)) (fun c => Sum nq (fun q => JxW dim det f c q * get2 (grad_at dim inv [f] 0 u c q) k' e)) =
      total_volume dim nq det f * get2 (nth k (unit_strains half dim) []) k' e).
    { intros k' e Hk1 He.
      assert (Z0 := PG z ltac:(intros a b Ha Hb Ec; unfold z; rewrite !get_tab by assumption; apply (proj1 (HR k Hk)); assumption) k' e Hk1 He).
      transitivity (total_volume dim nq det f * get2 (nth k (unit_strains half dim) []) k' e +
        Sum (length (fe_cells f)) (fun c => Sum nq (fun q => JxW dim det f c q * get2 (grad_at dim inv [f] 0 z c q) k' e)));
        [|rewrite Z0; ring].
      unfold total_volume. rewrite <- Sum_mul_r, <- Sum_add. apply Sum_ext. intros c Hc.
      rewrite <- Sum_mul_r, <- Sum_add. apply Sum_ext. intros q Hq.
      rewrite (grad_sub dim inv f u um z c q k' e); [|apply SC|exact Hc|rewrite Ev; exact Hk1|exact He|].
      - unfold um. rewrite (macro_grad K dim nq det inv half kinv f SC) by assumption. ring.
      - intros i Hi. rewrite Ev, <- EN in Hi. unfold z. rewrite get_tab by exact Hi. ring. }
    set (tt := fun i d => C0 (fst (nth j (voigt_pairs dim) (0, 0)%nat)) (snd (nth j (voigt_pairs dim) (0, 0)%nat)) i d).
    transitivity (total_volume dim nq det f * Sum dim (fun k' => Sum dim (fun e =>
        tt k' e * get2 (nth k (unit_strains half dim) []) k' e))).
    - rewrite <- Sum_mul_l. apply Sum_ext. intros k' Hk1. rewrite <- Sum_mul_l. apply Sum_ext. intros e He.
      etransitivity; [apply f_equal2; [exact (MG k' e Hk1 He)|]|].
      + apply (voigt_contract K dim nq det inv half kinv f SC (fun i d => C0 i d k' e) j); [|exact Hj'].
        intros i d Hi Hd. apply S1; assumption.
      + cbv beta. unfold tt. ring.
    - f_equal. rewrite (voigt_contract K dim nq det inv half kinv f SC tt k); [reflexivity| |exact Hk'].
      intros i d Hi Hd. unfold tt. apply S2; assumption.
  Qed.
End Homogeneous.
Theorem C65_homogeneous :
  forall (K : CRing) dim nq nfq det inv norm half kinv (V W : Type) (f : fe K) vw (ph : physics K V) tm
         vars vj sj xv xs (pb : problem K (vinp K V) (finp K W)) bs0 C (C0 : nat -> nat -> nat -> nat -> K) col cases j k,
  sound_cell dim nq half kinv det inv f -> stress_only ph tm ->
  build dim nq nfq det inv norm [f] vw ph vars (@nil (bdata K W)) vj sj xv xs = Some pb ->
  linear_stress dim tm C -> stress_symmetric dim C -> strain_symmetric dim C ->
  (forall c q i d k e, c < length (fe_cells f) -> q < nq -> i < dim -> d < dim -> k < dim -> e < dim -> C (vars c q) i d k e = C0 i d k e) ->
  0 < nq -> 0 < length (fe_cells f) ->
  periodic_gradients_vanish dim nq det inv f (pr_n pb) col ->
  responses dim half pb bs0 col (fe_points f) cases ->
  j < length cases -> k < length cases ->
  get2 (h_C (hom_of_cases kinv dim nq det inv f tm vars cases)) j k =
  C0 (fst (nth j (voigt_pairs dim) (0, 0))) (snd (nth j (voigt_pairs dim) (0, 0)))
     (fst (nth k (voigt_pairs dim) (0, 0))) (snd (nth k (voigt_pairs dim) (0, 0))).
Proof. exact homogeneous_entry. Qed.
Print Assumptions C65_homogeneous.

(** A linear stress makes the problem affine when the element tangents are the exact
    derivatives (columns of the linear kernel). *)
Section Affine.
  Variable K : CRing.
  Add Ring Kring65e : (cth K).
  Local Open Scope ring_K.
  Variable nd : nat.
  Definition lin (L : list K -> K) : Prop := exists M : nat -> K, forall u, L u = Sum nd (fun b => M b * get u b).
  Lemma lin_get b : b < nd -> lin (fun u => get u b).
  Proof.
    intros H. exists (fun c => if c =? b then 1 else 0). intros u.
    rewrite (Sum_ext K nd _ (fun c => if c =? b then get u c else 0)) by (intros c _; destruct (c =? b); ring).
    symmetry. apply (Sum_single K nd b (get u)). exact H.
  Qed.
  Lemma lin_zero : lin (fun _ => 0).
  Proof. exists (fun _ => 0). intros u. symmetry. apply Sum_zero. intros; ring. Qed.
  Lemma lin_add L L' : lin L -> lin L' -> lin (fun u => L u + L' u).
  Proof.
    intros [M E] [M' E']. exists (fun b => M b + M' b). intros u. rewrite E, E', <- Sum_add. apply Sum_ext. intros; ring.
  Qed.
  Lemma lin_mul L c : lin L -> lin (fun u => L u * c).
  Proof. intros [M E]. exists (fun b => M b * c). intros u. rewrite E, <- Sum_mul_r. apply Sum_ext. intros; ring. Qed.
  Lemma lin_mul_l L c : lin L -> lin (fun u => c * L u).
  Proof. intros [M E]. exists (fun b => M b * c). intros u. rewrite E, <- Sum_mul_l. apply Sum_ext. intros; ring. Qed.
  Lemma lin_Sum m (L : nat -> list K -> K) : (forall i, i < m -> lin (L i)) -> lin (fun u => Sum m (fun i => L i u)).
  Proof.
    induction m as [|m IH]; intros H; [exact lin_zero|].
    destruct (lin_add _ _ (IH (fun i Hi => H i ltac:(lia))) (H m ltac:(lia))) as [M E].
    exists M. intros u. rewrite Sum_S. apply E.
  Qed.
  Lemma lin_ext L L' : (forall u, L' u = L u) -> lin L -> lin L'.
  Proof. intros H [M E]. exists M. intros u. rewrite H. apply E. Qed.
  Lemma lin_affine L u u' : lin L ->
    L u' = L u + sumf (fun b => L (unit_vec nd b) * (get u' b - get u b)) (seq 0 nd).
  Proof.
    intros [M E]. fold (Sum nd (fun b => L (unit_vec nd b) * (get u' b - get u b))).
    rewrite !E, <- Sum_add. apply Sum_ext. intros b Hb. rewrite E.
    rewrite (Sum_ext K nd _ (fun c => if c =? b then M c else 0)).
    - rewrite (Sum_single K nd b M Hb). ring.
    - intros c Hc. unfold unit_vec. rewrite get_tab by exact Hc. destruct (c =? b); ring.
  Qed.
End Affine.
Lemma linear_cell_affine (K : CRing) dim nq nfq det inv norm half kinv (V W : Type) (f : fe K) vw (ph : physics K V) tm
         vars vj sj xv xs (pb : problem K (vinp K V) (finp K W)) C :
  sound_cell dim nq half kinv det inv f -> stress_only ph tm -> linear_stress dim tm C ->
  (forall u x a b, a < num_local [f] -> b < num_local [f] ->
     get (vj u x) (a * num_local [f] + b) = get (laplace_kernel dim nq [f] tm (unit_vec (num_local [f]) b) x) a) ->
  build dim nq nfq det inv norm [f] vw ph vars (@nil (bdata K W)) vj sj xv xs = Some pb ->
  affine_problem pb.
Proof.
  intros SC (PU & PE & PM & PT) LS HJ EB. assert (Ev : fe_vec f = dim) by apply SC.
  assert (EV : volume_kernel dim nq [f] ph = Some (laplace_kernel dim nq [f] tm)).
  { unfold volume_kernel. rewrite PU, PE, PM, PT. cbn. destruct (ph_weak ph); reflexivity. }
  unfold build in EB. rewrite EV in EB. cbn [map all_opt] in EB. injection EB as <-.
  split; [|intros b []]. cbn [pr_nd pr_kern]. intros u u' x a Hu Hu' Ha. cbn [fst snd].
  assert (EL : num_local [f] = fe_nn f * dim) by (unfold num_local; cbn; rewrite Ev; lia).
  assert (L : lin K (num_local [f]) (fun u => get (laplace_kernel dim nq [f] tm u x) a)).
  { assert (D0 : 0 < dim) by (destruct SC as ([-> | ->] & _); lia). rewrite EL in Ha.
    set (nn := a / dim). set (k := a mod dim).
    assert (Hn : nn < fe_nn f). { apply Nat.div_lt_upper_bound; [lia|]. rewrite Nat.mul_comm. exact Ha. }
    assert (Hk : k < dim) by (apply Nat.mod_upper_bound; lia).
    apply (lin_ext K _ (fun u => Sum nq (fun q => Sum dim (fun d => cmul (Sum dim (fun k' => Sum dim (fun e =>
       cmul (C (vi_vars x q) k d k' e) (Sum (fe_nn f) (fun m => cmul (get u (m * dim + k')) (vi_sg x q m e)))))) (vi_vg x q nn d))))).
    - intros w. unfold laplace_kernel. cbv zeta. change (fe_at [f] 0) with f. unfold ravel. rewrite Ev.
      assert (Ea : a = nn * dim + k) by (unfold nn, k; rewrite (Nat.div_mod a dim) at 1 by lia; lia).
      rewrite Ea. unfold get at 1.
      rewrite flat_map_const_block with (da := 0) by ((rewrite seq_length; exact Hn) || (intros; apply tab_length) || exact Hk).
      rewrite seq_nth by exact Hn. rewrite nth_tab by exact Hk. cbn [Nat.add]. unfold integrate_grad.
      apply Sum_ext. intros q Hq. apply Sum_ext. intros d Hd. f_equal. rewrite LS by assumption.
      apply Sum_ext. intros k' Hk'. apply Sum_ext. intros e He. f_equal.
      unfold op_grad. rewrite Ev. rewrite (get2_tab K dim dim) by assumption. apply Sum_ext. intros m Hm. f_equal.
      unfold cell_sol. cbn [local_off fe_at nth]. rewrite Ev. reflexivity.
    - apply lin_Sum. intros q Hq. apply lin_Sum. intros d Hd. apply lin_mul. apply lin_Sum. intros k' Hk'. apply lin_Sum. intros e He.
      apply lin_mul_l. apply lin_Sum. intros m Hm. apply lin_mul. apply lin_get. rewrite EL. nia. }
  rewrite (lin_affine K _ _ u u' L). f_equal. apply sumf_ext. intros b Hb. apply in_seq in Hb.
  rewrite HJ by lia. reflexivity.
Qed.

(** ** Reverse mode of the direct path: for a symmetric matrix stored on [slots], the
    cotangents of the stored values and of the right-hand sides pair with any perturbation
    ([A dx_i + dA x_i = db_i] in every case) exactly as the output cotangents do. *)
Section Adjoint.
  Variable K : CRing.
  Add Ring Kring65f : (cth K).
  Local Open Scope ring_K.
  Lemma combine_nth_seq {A B} (l : list A) (l' : list B) a b : length l = length l' ->
    combine l l' = map (fun i => (nth i l a, nth i l' b)) (seq 0 (length l)).
  Proof.
    intros H. apply nth_ext with (d := (a, b)) (d' := (a, b)).
    - rewrite combine_length, map_length, seq_length, H. lia.
    - intros i Hi. rewrite combine_length in Hi. rewrite combine_nth by exact H.
      rewrite nth_map_in with (d := 0%nat) by (rewrite seq_length; lia). rewrite seq_nth by lia. reflexivity.
  Qed.
  Lemma solve_adjoint (m : nat) (A : nat -> nat -> K) (slots : list (nat * nat)) dsolve (xs xbars dxs dbs : list (list K)) (ddata : list K) :
    (forall r c, r < m -> c < m -> A r c = A c r) ->
    (forall s, In s slots -> fst s < m /\ snd s < m) -> length xbars = length xs ->
    (forall i r, i < length xs -> r < m ->
       Sum m (fun c => A r c * get (dsolve A (nth i xbars [])) c) = get (nth i xbars []) r) ->
    (forall i r, i < length xs -> r < m ->
       Sum m (fun c => A r c * get (nth i dxs []) c) +
       Sum (length slots) (fun s => if fst (nth s slots (0, 0)%nat) =? r then get ddata s * get (nth i xs []) (snd (nth s slots (0, 0)%nat)) else 0) =
       get (nth i dbs []) r) ->
    let (data_bar, lam) := solve_many_bwd dsolve A slots xs xbars in
    Sum (length xs) (fun i => Sum m (fun c => get (nth i xbars []) c * get (nth i dxs []) c)) =
    Sum (length slots) (fun s => get data_bar s * get ddata s) +
    Sum (length xs) (fun i => Sum m (fun c => get (nth i lam []) c * get (nth i dbs []) c)).
  Proof.
    intros Sy SR HL EX ED. unfold solve_many_bwd. cbv zeta.
    set (lam := fun i => dsolve A (nth i xbars [])).
    assert (EDB : forall s, s < length slots ->
      get (map (fun rc => - sumf (fun p => get (fst p) (fst rc) * get (snd p) (snd rc)) (combine (map (dsolve A) xbars) xs)) slots) s =
      - Sum (length xs) (fun i => get (lam i) (fst (nth s slots (0, 0)%nat)) * get (nth i xs []) (snd (nth s slots (0, 0)%nat)))).
    { intros s Hs. unfold get at 1. rewrite nth_map_in with (d := (0, 0)%nat) by exact Hs. f_equal.
      rewrite (combine_nth_seq _ _ (dsolve A []) []) by (rewrite map_length; exact HL).
      rewrite map_length, HL. rewrite sumf_map. unfold Sum. apply sumf_ext. intros i Hi. apply in_seq in Hi. cbn [fst snd].
      rewrite map_nth. reflexivity. }
    rewrite (Sum_ext K (length slots) _ (fun s => Sum (length xs) (fun i =>
       - (get (lam i) (fst (nth s slots (0, 0)%nat)) * get (nth i xs []) (snd (nth s slots (0, 0)%nat)) * get ddata s)))).
    2:{ intros s Hs. rewrite EDB by exact Hs.
        transitivity ((- get ddata s) * Sum (length xs) (fun i => get (lam i) (fst (nth s slots (0, 0)%nat)) * get (nth i xs []) (snd (nth s slots (0, 0)%nat)))); [ring|].
        rewrite <- Sum_mul_l. apply Sum_ext. intros; ring. }
    rewrite (Sum_swap K (length slots) (length xs)), <- Sum_add. apply Sum_ext. intros i Hi.
    assert (El : nth i (map (dsolve A) xbars) [] = lam i).
    { rewrite nth_map_in with (d := @nil K) by (rewrite HL; exact Hi). reflexivity. }
    rewrite El.
    (* lam . db = lam . A dx + lam . dA x *)
    rewrite (Sum_ext K m (fun c => get (lam i) c * get (nth i dbs []) c) (fun r =>
      Sum m (fun c => A r c * get (lam i) r * get (nth i dxs []) c) +
      Sum (length slots) (fun s => if r =? fst (nth s slots (0, 0)%nat) then get (lam i) r * get ddata s * get (nth i xs []) (snd (nth s slots (0, 0)%nat)) else 0))).
    2:{ intros r Hr. rewrite <- (ED i r Hi Hr).
        match goal with |- ?l * (?a + ?b) = _ => transitivity (l * a + l * b); [ring|] end. f_equal; rewrite <- Sum_mul_l.
        - apply Sum_ext. intros; ring.
        - apply Sum_ext. intros s Hs. rewrite Nat.eqb_sym. destruct (r =? fst (nth s slots (0, 0)%nat)); ring. }
    rewrite Sum_add. rewrite (Sum_swap K m (length slots)).
    rewrite (Sum_ext K (length slots) (fun j => Sum m _) (fun s => get (lam i) (fst (nth s slots (0, 0)%nat)) * get ddata s * get (nth i xs []) (snd (nth s slots (0, 0)%nat)))).
    2:{ intros s Hs. apply (Sum_single K m (fst (nth s slots (0, 0)%nat)) (fun r => get (lam i) r * get ddata s * get (nth i xs []) (snd (nth s slots (0, 0)%nat)))).
        apply SR. apply nth_In. exact Hs. }
    transitivity (Sum m (fun r => Sum m (fun c => A r c * get (lam i) r * get (nth i dxs []) c))).
    - rewrite Sum_swap. apply Sum_ext. intros c Hc. rewrite <- (EX i c Hi Hc). fold (lam i). rewrite <- Sum_mul_r.
      apply Sum_ext. intros r Hr. rewrite (Sy c r Hc Hr). ring.
    - match goal with |- ?x = ?a + (?x + ?b) => assert (E : a + b = 0); [|transitivity (x + (a + b)); [rewrite E|]; ring] end.
      rewrite <- Sum_add. apply Sum_zero. intros s Hs. ring.
  Qed.
End Adjoint.
Theorem C65_direct_adjoint :
  forall (K : CRing) (m : nat) (A : nat -> nat -> K) (slots : list (nat * nat)) dsolve (xs xbars dxs dbs : list (list K)) (ddata : list K),
    (forall r c, r < m -> c < m -> A r c = A c r) ->
    (forall s, In s slots -> fst s < m /\ snd s < m) -> length xbars = length xs ->
    (forall i r, i < length xs -> r < m ->
       Sum m (fun c => cmul (A r c) (get (dsolve A (nth i xbars [])) c)) = get (nth i xbars []) r) ->
    (forall i r, i < length xs -> r < m ->
       cadd (Sum m (fun c => cmul (A r c) (get (nth i dxs []) c)))
            (Sum (length slots) (fun s => if fst (nth s slots (0, 0)) =? r then cmul (get ddata s) (get (nth i xs []) (snd (nth s slots (0, 0)))) else c0)) =
       get (nth i dbs []) r) ->
    let (data_bar, lam) := solve_many_bwd dsolve A slots xs xbars in
    Sum (length xs) (fun i => Sum m (fun c => cmul (get (nth i xbars []) c) (get (nth i dxs []) c))) =
    cadd (Sum (length slots) (fun s => cmul (get data_bar s) (get ddata s)))
         (Sum (length xs) (fun i => Sum m (fun c => cmul (get (nth i lam []) c) (get (nth i dbs []) c)))).
Proof. exact solve_adjoint. Qed.
Print Assumptions C65_direct_adjoint.

(** Prolongations built from independent pairings never mix displacement components. *)
Theorem C65_pairings_componentwise :
  forall (Pt : Type) (close : Pt -> Pt -> bool) (points : list Pt) (pt0 : Pt) (vec : nat)
         (pairings : list (pairing Pt)) (P : prolongation),
    (forall p, In p pairings -> pp_vec p < vec) ->
    prolongation_matrix close points pt0 vec pairings = Some P ->
    independent_masters close points pt0 vec pairings ->
    componentwise vec (length points * vec) (fun i => Z.to_nat (nth i (pm_col P) 0%Z)).
Proof.
  intros Pt close points pt0 vec pairings P Hv HP HI.
  destruct (@C35_range Pt close points pt0 vec pairings Hv P HP nat HI) as (_ & R & _).
  assert (V := proj2 (@C35_valid_columns_iff Pt close points pt0 vec pairings Hv P HP) HI).
  destruct (proj2 (R (fun i => i mod vec))) as [x Hx].
  - intros a b (p & A & B & Hp & _ & -> & ->).
    assert (H := Hv p Hp). rewrite !(Nat.add_comm (_ * vec)), !Nat.mod_add by lia. reflexivity.
  - intros i j Hi Hj E. rewrite (Hx i Hi), (Hx j Hj). unfold prolong. f_equal.
    assert (A := V i Hi). assert (B := V j Hj). lia.
Qed.
Print Assumptions C65_pairings_componentwise.

(** ** Concrete case: a two-material laminate over the rationals, 2 x 1 squares split into
    triangles, moduli [lambda = mu = 1] times 1 (left) and 3 (right). *)
From Coq Require Import QArith Qcanon.
Local Close Scope Qc_scope. Local Close Scope Q_scope. Local Open Scope nat_scope.
Definition QcR : CRing := {| cth := Qcrt |}.
Definition qc (a : Z) : QcR := Q2Qc (inject_Z a).
Definition qhalf : QcR := Q2Qc (1 # 2).
Definition qinv (a : QcR) : QcR := Qcinv a.
Definition lam_det (m : list (list QcR)) : QcR :=
  csub (cmul (get2 m 0 0) (get2 m 1 1)) (cmul (get2 m 0 1) (get2 m 1 0)).
Definition lam_inv (m : list (list QcR)) : list (list QcR) :=
  let d := qinv (lam_det m) in
  [[cmul (get2 m 1 1) d; copp (cmul (get2 m 0 1) d)]; [copp (cmul (get2 m 1 0) d); cmul (get2 m 0 0) d]].
Definition lam_fe : fe QcR :=
  @Build_fe QcR 2 3
    [[qc 0; qc 0]; [qc 1; qc 0]; [qc 2; qc 0]; [qc 0; qc 1]; [qc 1; qc 1]; [qc 2; qc 1]]
    [[0; 1; 4]; [0; 4; 3]; [1; 2; 5]; [1; 5; 4]]
    (fun _ _ => Q2Qc (1 # 3))
    (fun _ n e => if n =? 0 then qc (-1) else if n =? S e then qc 1 else qc 0) (fun _ => qhalf)
    (fun _ _ _ => qc 0) (fun _ _ _ _ => qc 0) (fun _ _ => qc 0) (fun _ _ => qc 0).
Definition dl (i j : nat) : QcR := if i =? j then qc 1 else qc 0.
Definition lam_C (y : QcR) (i d k e : nat) : QcR :=
  cmul y (cadd (cmul (dl i d) (dl k e)) (cadd (cmul (dl i k) (dl d e)) (cmul (dl i e) (dl d k)))).
Definition lam_tm : tensor_map QcR QcR := fun g y =>
  tab 2 (fun i => tab 2 (fun d => Sum 2 (fun k => Sum 2 (fun e => cmul (lam_C y i d k e) (get2 g k e))))).
Definition lam_ph : physics QcR QcR := Build_physics QcR QcR None None None (Some lam_tm) None None.
Definition lam_vars (c q : nat) : QcR := if c <? 2 then qc 1 else qc 3.
Definition lam_vj (u : list QcR) (x : vinp QcR QcR) : list QcR :=
  let cols := tab 6 (fun b => laplace_kernel 2 1 [lam_fe] lam_tm (unit_vec 6 b) x) in
  flat_map (fun a => map (fun c => get c a) cols) (seq 0 6).
Definition lam_sj (u : list QcR) (x : finp QcR QcR) : list QcR := repeat c0 36.
Definition lam_xv : vinp QcR QcR := Build_vinp QcR QcR (fun _ => []) (fun _ _ _ => c0) (fun _ _ => c0) (fun _ _ _ => c0) (fun _ => c0).
Definition lam_xs : finp QcR QcR := Build_finp QcR QcR (fun _ => []) (fun _ _ => c0) (fun _ _ _ => c0) (fun _ _ => c0) (fun _ => c0).
Definition lam_build := build 2 1 1 lam_det lam_inv (fun _ => c0) [lam_fe] FULL lam_ph lam_vars (@nil (bdata QcR QcR)) lam_vj lam_sj lam_xv lam_xs.
Definition lam_pb : problem QcR (vinp QcR QcR) (finp QcR QcR) :=
  match lam_build with Some p => p | None => {| pr_n := 0; pr_view := FULL; pr_nd := 0; pr_cells := []; pr_inp := []; pr_inp0 := lam_xv; pr_kern := fun _ _ => ([], []); pr_bnd := []; pr_surface_jac_zero := false |} end.
Definition lam_col (i : nat) : nat := nth i [0; 1; 2; 3; 0; 1; 0; 1; 2; 3; 0; 1] 0.
Definition lam_P : bcoo QcR := @Build_bcoo QcR 12 4 (map (fun i => (i, lam_col i, c1)) (seq 0 12)).
Definition lam_bc : dirichlet QcR := @Build_dirichlet QcR [] (repeat false 12) [] 12.
(** The reduced matrix is [[M; -M]; [-M; M]] with [M = diag(12, 4)]. *)
Definition lam_ksolve (op : list QcR -> list QcR) (b : list QcR) : list QcR :=
  [c0; c0; cmul (get b 2) (Q2Qc (1 # 12)); cmul (get b 3) (Q2Qc (1 # 4))].
Definition lam_dsolve (A : nat -> nat -> QcR) (b : list QcR) : list QcR :=
  [get b 0; get b 1; cmul (get b 2) (Q2Qc (1 # 12)); cmul (get b 3) (Q2Qc (1 # 4))].
Definition qshow (m : list (list QcR)) : list (list Q) := map (map this) m.


Lemma lam_sound : sound_cell 2 1 qhalf qinv lam_det lam_inv lam_fe.
Proof.
  split; [left; reflexivity|]. split; [reflexivity|]. split; [|split; [|split; [|split]]].
  - intros g [<-|[]]. split; [reflexivity|].
    intros c [<-|[<-|[<-|[<-|[]]]]]; (split; [reflexivity|]); cbn; intros n Hn; lia.
  - intros q e He. destruct e as [|[|e]]; [| |lia]; apply Qc_is_canon; vm_compute; reflexivity.
  - intros c q Hc Hq i d Hi Hd. cbn in Hc.
    destruct c as [|[|[|[|c]]]]; try lia; destruct i as [|[|i]]; try lia; destruct d as [|[|d]]; try lia;
      apply Qc_is_canon; vm_compute; reflexivity.
  - apply Qc_is_canon. vm_compute. reflexivity.
  - apply Qc_is_canon. vm_compute. reflexivity.
Qed.
Lemma lam_stress : stress_only lam_ph lam_tm.
Proof. repeat split. Qed.
Lemma lam_linear : linear_stress 2 lam_tm lam_C.
Proof. intros g y i d Hi Hd. unfold lam_tm. rewrite (get2_tab QcR 2 2) by assumption. reflexivity. Qed.
Lemma lam_moduli : stress_symmetric 2 lam_C /\ strain_symmetric 2 lam_C /\ major_symmetric 2 lam_C.
Proof.
  repeat split; intros y i d k e Hi Hd Hk He; unfold lam_C; f_equal;
    destruct i as [|[|i]]; try lia; destruct d as [|[|d]]; try lia; destruct k as [|[|k]]; try lia; destruct e as [|[|e]]; try lia;
    apply Qc_is_canon; vm_compute; reflexivity.
Qed.
Lemma lam_built : lam_build = Some lam_pb.
Proof. reflexivity. Qed.
Lemma lam_tangent_length u x : length (lam_vj u x) = num_local [lam_fe] * num_local [lam_fe].
Proof. reflexivity. Qed.
Lemma lam_affine : affine_problem lam_pb.
Proof.
  eapply (linear_cell_affine QcR 2 1 1 lam_det lam_inv (fun _ => c0) qhalf qinv QcR QcR lam_fe FULL lam_ph lam_tm lam_vars lam_vj lam_sj
            lam_xv lam_xs lam_pb lam_C lam_sound lam_stress lam_linear); [|exact lam_built].
  intros u x a b Ha Hb. change (num_local [lam_fe]) with 6 in *. unfold lam_vj. cbv zeta. unfold get at 1.
  rewrite flat_map_const_block with (da := 0);
    [|intros; rewrite map_length; apply tab_length|rewrite seq_length; exact Ha|exact Hb].
  rewrite seq_nth by exact Ha. rewrite nth_map_in with (d := @nil QcR) by (rewrite tab_length; exact Hb).
  rewrite nth_tab by exact Hb. reflexivity.
Qed.
Lemma lam_ms : master_slave lam_P (pr_n lam_pb) lam_col.
Proof.
  split; [reflexivity|]. split; [reflexivity|]. change (pr_n lam_pb) with 12. intros i Hi.
  do 12 (destruct i as [|i]; [cbn; lia|]). lia.
Qed.
Lemma lam_cw : componentwise 2 (pr_n lam_pb) lam_col.
Proof.
  change (pr_n lam_pb) with 12. intros i j Hi Hj.
  do 12 (destruct i as [|i]; [do 12 (destruct j as [|j]; [cbn; intros E; (discriminate || reflexivity)|]); lia|]). lia.
Qed.
Lemma lam_bc_wf : wf_bc lam_bc (pr_n lam_pb).
Proof.
  change (pr_n lam_pb) with 12. constructor; cbn; try reflexivity.
  - constructor.
  - intros r [].
  - intros i. do 12 (destruct i as [|i]; [cbn; intuition discriminate|]). destruct i; cbn; intuition discriminate.
Qed.
Lemma this_lists (a b : list QcR) : map this a = map this b -> a = b.
Proof.
  revert b; induction a as [|x a IH]; intros [|y b] H; try discriminate; [reflexivity|].
  injection H as Hx Hr. f_equal; [|apply IH; exact Hr]. apply Qc_is_canon. rewrite Hx. reflexivity.
Qed.
Lemma lam_kexact eps : In eps (unit_strains qhalf 2) ->
  let um := macro_displacement (fe_points lam_fe) 2 eps in
  exact_call (P_cols lam_P) lam_ksolve (reduced_operator lam_pb 1 lam_P um lam_bc) (reduced_rhs lam_pb 1 lam_P um lam_bc).
Proof.
  intros He um. split; [reflexivity|]. intros c _. f_equal. apply this_lists. subst um.
  destruct He as [<-|[<-|[<-|[]]]]; vm_compute; reflexivity.
Qed.
Lemma lam_pins : translation_pin_dofs lam_P (fe_vec lam_fe) 2 = Some [0; 1].
Proof. reflexivity. Qed.
Lemma lam_dexact pins eps r : translation_pin_dofs lam_P (fe_vec lam_fe) 2 = Some pins -> In eps (unit_strains qhalf 2) -> r < P_cols lam_P ->
  let A := pinned_matrix pins (reduced_matrix lam_pb 1 lam_P lam_bc) in
  let b := case_rhs lam_pb 1 lam_P lam_bc pins (macro_displacement (fe_points lam_fe) 2 eps) in
  Sum (P_cols lam_P) (fun c => cmul (A r c) (get (lam_dsolve A b) c)) = get b r.
Proof.
  rewrite lam_pins. intros E He Hr. injection E as <-. change (P_cols lam_P) with 4 in Hr. cbv zeta.
  destruct He as [<-|[<-|[<-|[]]]]; (destruct r as [|[|[|[|r]]]]; [| | | |lia]); apply Qc_is_canon; vm_compute; reflexivity.
Qed.
(** Both paths compute the laminate stiffness: 9/2 across, 35/6 along the layers. *)
Definition lam_expected : list (list Q) := [[9 # 2; 3 # 2; 0]; [3 # 2; 35 # 6; 0]; [0; 0; 3 # 2]]%Q.
Example C65_example :
  exists h h', hom_krylov qhalf qinv 2 1 lam_det lam_inv lam_pb 1 lam_P lam_ksolve lam_fe lam_tm lam_vars lam_bc = Some h /\
    hom_direct qhalf qinv 2 1 lam_det lam_inv lam_pb 1 lam_P lam_dsolve lam_fe lam_tm lam_vars lam_bc = Some h' /\
    h_C h = h_C h' /\ qshow (h_C h) = lam_expected.
Proof.
  destruct (C65_krylov_responses QcR 2 1 1 lam_det lam_inv (fun _ => c0) qhalf qinv QcR QcR lam_fe FULL lam_ph lam_tm lam_vars lam_vj lam_sj
              lam_xv lam_xs lam_pb 1 lam_bc lam_P lam_col lam_ksolve lam_sound lam_stress lam_tangent_length (fun _ _ => eq_refl)
              lam_built Nat.lt_0_1 lam_affine lam_bc_wf eq_refl lam_ms lam_kexact) as (cases & R & EK).
  eexists. eexists. split; [exact EK|]. split; [reflexivity|]. split.
  - eapply (C65_paths_agree QcR 2 1 1 lam_det lam_inv (fun _ => c0) qhalf qinv QcR QcR lam_fe FULL lam_ph lam_tm lam_vars lam_vj lam_sj
              lam_xv lam_xs lam_pb 1 lam_C lam_bc lam_P lam_col lam_ksolve lam_dsolve _ _ lam_sound lam_stress lam_tangent_length (fun _ _ => eq_refl)
              lam_built Nat.lt_0_1 lam_affine lam_bc_wf eq_refl lam_ms lam_cw lam_linear (proj1 lam_moduli) (proj2 (proj2 lam_moduli))
              lam_kexact lam_dexact); [exact EK|reflexivity].
  - assert (G : option_map (fun h => qshow (h_C h))
      (hom_krylov qhalf qinv 2 1 lam_det lam_inv lam_pb 1 lam_P lam_ksolve lam_fe lam_tm lam_vars lam_bc) = Some lam_expected)
      by (vm_compute; reflexivity).
    rewrite EK in G. exact (f_equal (fun o => match o with Some x => x | None => [] end) G).
Qed.
(** The laminate mesh satisfies the periodicity hypothesis of [C65_homogeneous]. *)
Lemma lam_sg c n d : c < 4 -> n < 3 -> d < 2 -> shape_grad 2 lam_inv lam_fe c 0 n d =
  qc (nth d (nth n (nth c [[[-1; 0]; [1; -1]; [0; 1]]; [[0; -1]; [1; 0]; [-1; 1]];
          [[-1; 0]; [1; -1]; [0; 1]]; [[0; -1]; [1; 0]; [-1; 1]]]%Z []) []) 0%Z).
Proof.
  intros Hc Hn Hd. destruct c as [|[|[|[|c]]]]; try lia; destruct n as [|[|[|n]]]; try lia; destruct d as [|[|d]]; try lia;
    apply Qc_is_canon; vm_compute; reflexivity.
Qed.
Lemma lam_jxw c : c < 4 -> JxW 2 lam_det lam_fe c 0 = qhalf.
Proof. intros Hc. destruct c as [|[|[|[|c]]]]; try lia; apply Qc_is_canon; vm_compute; reflexivity. Qed.
Add Ring QcRring : (cth QcR).
Example C65_example_homogeneous : periodic_gradients_vanish 2 1 lam_det lam_inv lam_fe 12 lam_col.
Proof.
  intros z Hz k d Hk Hd. change (length (fe_cells lam_fe)) with 4.
  transitivity (Sum 4 (fun c => cmul qhalf (Sum 3 (fun n => cmul (shape_grad 2 lam_inv lam_fe c 0 n d) (get z (node_of lam_fe c n * 2 + k)))))).
  { apply Sum_ext. intros c Hc. unfold Sum at 1. cbn [seq sumf]. rewrite lam_jxw by exact Hc.
    unfold grad_at. cbn [fe_at nth]. change (fe_vec lam_fe) with 2. rewrite (get2_tab QcR 2 2) by assumption.
    match goal with |- cadd ?x c0 = ?y => assert (E : x = y); [|rewrite E; ring] end.
    reflexivity. }
  unfold Sum. cbn [seq sumf]. rewrite !lam_sg by (assumption || lia).
  assert (E : forall i j, i < 12 -> j < 12 -> lam_col i = lam_col j -> get z i = get z j) by exact Hz.
  destruct k as [|[|k]]; [| |lia]; (destruct d as [|[|d]]; [| |lia]);
    cbn [nth node_of lam_fe fe_cells Nat.mul Nat.add];
    rewrite ?(E 4 0), ?(E 6 0), ?(E 10 0), ?(E 8 2), ?(E 5 1), ?(E 7 1), ?(E 11 1), ?(E 9 3) by (lia || reflexivity);
    change (qc (-1)) with (copp (@c1 QcR)); change (qc 1) with (@c1 QcR); change (qc 0) with (@c0 QcR); ring.
Qed.

(** The adjoint of two cases with a unimodular matrix. *)
Definition adj_A (r c : nat) : ZK := nth c (nth r [[2; 1]; [1; 1]]%Z []) 0%Z.
Definition adj_solve (_ : nat -> nat -> ZK) (b : list ZK) : list ZK := [get b 0 - get b 1; 2 * get b 1 - get b 0]%Z.
Example C65_example_adjoint :
  let xs := [[1; 2]; [0; 3]]%Z in let xbars := [[1; 0]; [5; -1]]%Z in let dxs := [[1; 1]; [2; -3]]%Z in
  let slots := [(0, 0); (0, 1); (1, 0); (1, 1)] in let ddata := [1; 2; 2; 4]%Z in
  let dbs := [[3 + 5; 2 + 10]; [1 + 6; -1 + 12]]%Z in
  (forall i r, i < 2 -> r < 2 -> Sum 2 (fun c => cmul (adj_A r c) (get (adj_solve adj_A (nth i xbars [])) c)) = get (nth i xbars []) r) /\
  (forall i r, i < 2 -> r < 2 ->
     cadd (Sum 2 (fun c => cmul (adj_A r c) (get (nth i dxs []) c)))
          (Sum 4 (fun s => if fst (nth s slots (0, 0)) =? r then cmul (get ddata s) (get (nth i xs []) (snd (nth s slots (0, 0)))) else c0 : ZK)) =
     get (nth i dbs []) r) /\
  solve_many_bwd adj_solve adj_A slots xs xbars = ([-1; -20; 1; 23]%Z, [[1; -1]; [6; -7]]%Z).
Proof.
  split; [|split; [|reflexivity]];
    intros [|[|i]] [|[|r]] Hi Hr; try lia; reflexivity.
Qed.
