(** C113: at equilibrium the support reactions balance the applied loads, in force and in moment. *)
From Verif Require Import Base Csr_Model Assembly_Model AssemblyMain_Proofs Dof_Model Dof_Spec Dof_Proofs
                          Kernel_Model Kernel_Spec Kernel_Proofs Kernel_Props.
From Coq Require Import List Arith Lia ZArith.
Local Open Scope nat_scope.
Import ListNotations.

(** ** Specification *)
Section Spec.
  Variable K : CRing.
  Local Open Scope ring_K.
  (** Component [k] of the reaction at node [a]: the residual entry, at constrained DOFs only. *)
  Definition reaction (vec : nat) (rows : list nat) (R : list K) (a k : nat) : K :=
    if existsb (Nat.eqb (a * vec + k)) rows then get R (a * vec + k) else 0.
  (** In equilibrium: the residual vanishes at every DOF that is not constrained. *)
  Definition equilibrium (n : nat) (rows : list nat) (R : list K) : Prop := forall i, i < n -> ~ In i rows -> get R i = 0.
  (** Moment of the force [f] at the position [x], in the plane of axes [p] and [r]. *)
  Definition moment (p r : nat) (x f : nat -> K) : K := x p * f r - x r * f p.

  Variables (dim nq nfq : nat) (det : list (list K) -> K) (inv : list (list K) -> list (list K)) (norm : list K -> K) (V W : Type).
  Variables (f : fe K) (ph : physics K V) (vars : nat -> nat -> V) (bnd : list (bdata K W)) (u : list K).
  (** Integral of [g] of the body term (mass map) over the body, and of [g] of the surface terms (surface
      maps) over all boundaries. *)
  Definition body_total (g : nat -> nat -> list K -> K) : K :=
    opt_term (ph_mass ph) (fun mm => over_cells nq [f] (fun c q => JxW dim det f c q * g c q (mm (field_at [f] 0 u c q) (quad_point dim f c q) (vars c q)))).
  Definition surface_total (g : nat -> nat -> nat -> list K -> K) : K :=
    sumf (fun b => opt_term (bp_map (bd_ph b)) (fun sm => over_faces nfq b (fun c e q w =>
      nanson dim det inv norm f c e q * g c e q (sm (face_field_at [f] 0 u c e q) (face_point dim f c e q) w)))) bnd.
End Spec.
Arguments reaction {K}. Arguments equilibrium {K}. Arguments moment {K}. Arguments body_total {K} dim nq det {V}. Arguments surface_total {K} dim nfq det inv norm {W}.

Section Work.
  Variable K : CRing.
  Add Ring KR113 : (cth K).
  Local Open Scope ring_K.

  Lemma Sum_blocks N m (g : nat -> K) : Sum (N * m) g = Sum N (fun a => Sum m (fun k => g (a * m + k)%nat)).
  Proof.
    induction N as [|N IH]; [reflexivity|]. rewrite Sum_S, <- IH.
    assert (A : forall j, j <= m -> Sum (N * m + j) g = Sum (N * m) g + Sum j (fun k => g (N * m + k)%nat)).
    { induction j as [|j IHj]; intros Hj.
      - rewrite Nat.add_0_r. unfold Sum at 3. cbn. ring.
      - rewrite Nat.add_succ_r, !Sum_S, IHj by lia. ring. }
    replace (S N * m)%nat with (N * m + m)%nat by lia. apply A. lia.
  Qed.

  Section Problem.
  Variables (dim nq nfq : nat) (det : list (list K) -> K) (inv : list (list K) -> list (list K)) (norm : list K -> K) (V W : Type).
  Variables (f : fe K) (vw : view) (ph : physics K V) (vars : nat -> nat -> V) (bnd : list (bdata K W))
            (vj : list K -> vinp K V -> list K) (sj : list K -> finp K W -> list K) (xv : vinp K V) (xs : finp K W)
            (pb : problem K (vinp K V) (finp K W)) (bs0 : nat).
  Hypothesis (WF : wf_fes [f]).
  Hypothesis (WB : forall b, In b bnd -> wf_bdata [f] b).
  Hypothesis (TJ : forall u x, length (vj u x) = (num_local [f] * num_local [f])%nat).
  Hypothesis (TS : forall u x, length (sj u x) = (num_local [f] * num_local [f])%nat).
  Hypothesis (Hbs : (0 < bs0)%nat).
  Hypothesis (PU : ph_universal ph = None).
  Hypothesis (PE : ph_extra ph = None).
  Hypothesis (PB : forall b, In b bnd -> bp_universal (bd_ph b) = None).
  Hypothesis (EB : build dim nq nfq det inv norm [f] vw ph vars bnd vj sj xv xs = Some pb).

  Lemma work_terms u v : virtual_work (pr_n pb) v (get_res pb bs0 u) =
    opt_term (ph_mass ph) (fun mm => mass_volume dim nq det [f] mm vars u v) +
    opt_term (match ph_tensor ph with Some t => Some t | None => ph_energy_grad ph end) (fun tm => tensor_volume dim nq det inv [f] tm vars u v) +
    sumf (fun b => opt_term (bp_map (bd_ph b)) (fun sm => map_surface dim nfq det inv norm [f] sm b u v)) bnd.
  Proof using WF WB TJ TS Hbs PU PE PB EB.
    assert (KS : kernel_shapes [f] ph bnd).
    { split; [intros k [E|E]; congruence|]. intros b k Hb E. rewrite (PB b Hb) in E. discriminate. }
    rewrite (C63_composition K dim nq nfq det inv norm V W [f] vw ph vars bnd vj sj xv xs pb bs0 u v WF (Nat.lt_0_succ 0) WB KS TJ TS Hbs EB).
    unfold volume_terms. rewrite PU, PE. change (1 <? length [f])%nat with false. cbn [opt_term]. f_equal; [ring|].
    apply sumf_ext. intros b Hb. unfold surface_terms. change (1 <? length [f])%nat with false. cbv zeta. rewrite (PB b Hb). cbn [opt_term]. ring.
  Qed.
  Lemma ndofs : pr_n pb = (length (fe_points f) * fe_vec f)%nat.
  Proof using WF WB TJ TS Hbs PU PE PB EB.
    unfold build in EB. destruct (volume_kernel _ _ _ _) as [k|]; [|discriminate]. destruct (all_opt _); [|discriminate]. injection EB as <-.
    cbn. unfold total_dofs. cbn. lia.
  Qed.

  (** Work on the test vector of the moment about the positions [z]. *)
  Definition lever (z : list K) (p r : nat) : list K :=
    tab (length (fe_points f) * fe_vec f) (fun i =>
      (if (i mod fe_vec f =? r)%nat then get z (i / fe_vec f * fe_vec f + p)%nat else 0) -
      (if (i mod fe_vec f =? p)%nat then get z (i / fe_vec f * fe_vec f + r)%nat else 0)).
  Lemma get_lever z p r a k : a < length (fe_points f) -> k < fe_vec f ->
    get (lever z p r) (a * fe_vec f + k) =
    (if (k =? r)%nat then get z (a * fe_vec f + p)%nat else 0) - (if (k =? p)%nat then get z (a * fe_vec f + r)%nat else 0).
  Proof using WF WB TJ TS Hbs PU PE PB EB.
    intros Ha Hk. unfold lever. rewrite get_tab by nia.
    assert (D : ((a * fe_vec f + k) / fe_vec f = a)%nat) by (rewrite Nat.div_add_l, Nat.div_small by lia; lia).
    assert (M : ((a * fe_vec f + k) mod fe_vec f = k)%nat) by (rewrite Nat.add_comm, Nat.mod_add, Nat.mod_small by lia; lia).
    rewrite D, M. reflexivity.
  Qed.
  Lemma nodal_lever z p r c n k : c < length (fe_cells f) -> n < fe_nn f -> k < fe_vec f ->
    nodal [f] 0 (lever z p r) c n k = (if (k =? r)%nat then nodal [f] 0 z c n p else 0) - (if (k =? p)%nat then nodal [f] 0 z c n r else 0).
  Proof using WF WB TJ TS Hbs PU PE PB EB.
    intros Hc Hn Hk. unfold nodal. rewrite !dof_single. cbn [fe_at nth]. apply get_lever; [|exact Hk].
    destruct (WF f (or_introl eq_refl)) as [_ Wf]. apply (Wf (nth c (fe_cells f) [])); [apply nth_In; exact Hc|].
    unfold node_of. apply nth_In. rewrite (proj1 (Wf _ (nth_In _ _ Hc))). exact Hn.
  Qed.
  (** Any interpolation with weights [w] of the lever field. *)
  Lemma interp_lever (w : nat -> K) z p r c k : c < length (fe_cells f) -> k < fe_vec f ->
    Sum (fe_nn f) (fun n => w n * nodal [f] 0 (lever z p r) c n k) =
    (if (k =? r)%nat then Sum (fe_nn f) (fun n => w n * nodal [f] 0 z c n p) else 0) - (if (k =? p)%nat then Sum (fe_nn f) (fun n => w n * nodal [f] 0 z c n r) else 0).
  Proof using WF WB TJ TS Hbs PU PE PB EB.
    intros Hc Hk. rewrite (Sum_ext K _ _ (fun n => (if (k =? r)%nat then w n * nodal [f] 0 z c n p else 0) - (if (k =? p)%nat then w n * nodal [f] 0 z c n r else 0))).
    - rewrite Sum_sub. f_equal.
      + destruct (k =? r)%nat; [reflexivity|apply Sum_zero; reflexivity].
      + destruct (k =? p)%nat; [reflexivity|apply Sum_zero; reflexivity].
    - intros n Hn. rewrite nodal_lever by assumption. destruct (k =? r)%nat, (k =? p)%nat; ring.
  Qed.
  (** Product of an array with a field of that shape. *)
  Lemma pick_pair (m h : nat -> K) p r : p < fe_vec f -> r < fe_vec f ->
    Sum (fe_vec f) (fun k => m k * ((if (k =? r)%nat then h p else 0) - (if (k =? p)%nat then h r else 0))) = h p * m r - h r * m p.
  Proof using WF WB TJ TS Hbs PU PE PB EB.
    intros Hp Hr. rewrite (Sum_ext K _ _ (fun k => (if (k =? r)%nat then m k * h p else 0) - (if (k =? p)%nat then m k * h r else 0))).
    - rewrite Sum_sub, (Sum_single K _ r (fun k => m k * h p)), (Sum_single K _ p (fun k => m k * h r)) by assumption. ring.
    - intros k _. destruct (k =? r)%nat, (k =? p)%nat; ring.
  Qed.

  Lemma lever_work u z p r : p < fe_vec f -> r < fe_vec f ->
    (forall tm c q, match ph_tensor ph with Some t => Some t | None => ph_energy_grad ph end = Some tm -> c < length (fe_cells f) -> q < nq ->
       Sum dim (fun d => get2 (tm (grad_at dim inv [f] 0 u c q) (vars c q)) r d * get2 (grad_at dim inv [f] 0 z c q) p d) =
       Sum dim (fun d => get2 (tm (grad_at dim inv [f] 0 u c q) (vars c q)) p d * get2 (grad_at dim inv [f] 0 z c q) r d)) ->
    virtual_work (pr_n pb) (lever z p r) (get_res pb bs0 u) =
    body_total dim nq det f ph vars u (fun c q m => moment p r (get (field_at [f] 0 z c q)) (get m)) +
    surface_total dim nfq det inv norm f bnd u (fun c e q t => moment p r (get (face_field_at [f] 0 z c e q)) (get t)).
  Proof using WF WB TJ TS Hbs PU PE PB EB.
    intros Hp Hr SY. rewrite work_terms.
    assert (T : opt_term (match ph_tensor ph with Some t => Some t | None => ph_energy_grad ph end)
                  (fun tm => tensor_volume dim nq det inv [f] tm vars u (lever z p r)) = 0).
    { destruct (match ph_tensor ph with Some t => Some t | None => ph_energy_grad ph end) as [tm|]; cbn [opt_term]; [|reflexivity].
      unfold tensor_volume, over_cells. apply Sum_zero. intros c Hc. apply Sum_zero. intros q Hq.
      match goal with |- _ * ?x = _ => assert (Z : x = 0); [|rewrite Z; ring] end.
      unfold dot2. cbn [fe_at nth]. rewrite Sum_swap.
      specialize (SY tm c q eq_refl Hc Hq). set (P := tm (grad_at dim inv [f] 0 u c q) (vars c q)) in *.
      rewrite (Sum_ext K _ _ (fun d => get2 P r d * get2 (grad_at dim inv [f] 0 z c q) p d - get2 P p d * get2 (grad_at dim inv [f] 0 z c q) r d)).
      - rewrite Sum_sub, SY. ring.
      - intros d Hd. transitivity (Sum (fe_vec f) (fun k => get2 P k d * ((if (k =? r)%nat then get2 (grad_at dim inv [f] 0 z c q) p d else 0) - (if (k =? p)%nat then get2 (grad_at dim inv [f] 0 z c q) r d else 0)))).
        + apply Sum_ext. intros k Hk. f_equal. unfold grad_at. cbn [fe_at nth]. rewrite !(get2_tab K _ dim) by assumption. apply interp_lever; assumption.
        + rewrite (pick_pair (fun k => get2 P k d) (fun k => get2 (grad_at dim inv [f] 0 z c q) k d)) by assumption. ring. }
    rewrite T. clear T SY.
    match goal with |- ?a + 0 + ?b = _ => transitivity (a + b); [ring|] end. f_equal.
    - unfold body_total. destruct (ph_mass ph) as [mm|]; cbn [opt_term]; [|reflexivity]. unfold mass_volume, over_cells. apply Sum_ext. intros c Hc. apply Sum_ext. intros q Hq.
      cbn [fe_at nth]. f_equal. unfold dot1, moment. set (m := mm _ _ _).
      rewrite <- (pick_pair (get m) (get (field_at [f] 0 z c q)) p r Hp Hr). apply Sum_ext. intros k Hk. f_equal.
      unfold field_at. cbn [fe_at nth]. rewrite !get_tab by assumption. apply interp_lever; assumption.
    - unfold surface_total. apply sumf_ext. intros b Hb. destruct (bp_map (bd_ph b)) as [sm|]; cbn [opt_term]; [|reflexivity].
      unfold map_surface, over_faces. apply sumf_ext. intros [[c e] w] Hin. cbn [fst snd]. apply Sum_ext. intros q Hq. cbn [fe_at nth]. f_equal. unfold dot1, moment.
      assert (Hc : c < length (fe_cells f)). { apply (proj2 (WB b Hb) (c, e)). apply in_combine_l in Hin. exact Hin. }
      set (m := sm _ _ _). rewrite <- (pick_pair (get m) (get (face_field_at [f] 0 z c e q)) p r Hp Hr). apply Sum_ext. intros k Hk. f_equal.
      unfold face_field_at. cbn [fe_at nth]. rewrite !get_tab by assumption. apply interp_lever; assumption.
  Qed.

  (** Reactions are the residual at equilibrium. *)
  Lemma reaction_res rows (R : list K) a k : equilibrium (pr_n pb) rows R -> a < length (fe_points f) -> k < fe_vec f ->
    reaction (fe_vec f) rows R a k = get R (a * fe_vec f + k).
  Proof using WF WB TJ TS Hbs PU PE PB EB.
    intros Q Ha Hk. unfold reaction. destruct (existsb _ rows) eqn:X; [reflexivity|]. symmetry. apply Q; [rewrite ndofs; nia|].
    intros Hin. assert (existsb (Nat.eqb (a * fe_vec f + k)) rows = true); [|congruence]. apply existsb_exists. exists (a * fe_vec f + k)%nat. split; [exact Hin|apply Nat.eqb_refl].
  Qed.
  Lemma lever_reactions rows z p r (R : list K) : p < fe_vec f -> r < fe_vec f -> equilibrium (pr_n pb) rows R ->
    Sum (length (fe_points f)) (fun a => moment p r (fun j => get z (a * fe_vec f + j)%nat) (reaction (fe_vec f) rows R a)) = virtual_work (pr_n pb) (lever z p r) R.
  Proof using WF WB TJ TS Hbs PU PE PB EB.
    intros Hp Hr Q. unfold virtual_work. rewrite ndofs, Sum_blocks. apply Sum_ext. intros a Ha. unfold moment. rewrite !reaction_res by assumption.
    symmetry. rewrite <- (pick_pair (fun k => get R (a * fe_vec f + k)%nat) (fun j => get z (a * fe_vec f + j)%nat) p r Hp Hr). apply Sum_ext. intros k Hk.
    rewrite get_lever by assumption. ring.
  Qed.
  Lemma force_work u k : k < fe_vec f -> unity K dim f ->
    (forall q, q < nq -> Sum (fe_nn f) (fe_sv f q) = 1) -> (forall g q, q < nfq -> Sum (fe_nn f) (fe_fsv f g q) = 1) ->
    virtual_work (pr_n pb) (tab (length (fe_points f) * fe_vec f) (fun i => if (i mod fe_vec f =? k)%nat then 1 else 0)) (get_res pb bs0 u) =
    body_total dim nq det f ph vars u (fun c q m => get m k) + surface_total dim nfq det inv norm f bnd u (fun c e q t => get t k).
  Proof using WF WB TJ TS Hbs PU PE PB EB.
    intros Hk U SV SF. set (v := tab _ _).
    assert (GV : forall a j, a < length (fe_points f) -> j < fe_vec f -> get v (a * fe_vec f + j)%nat = if (j =? k)%nat then 1 else 0).
    { intros a j Ha Hj. unfold v. rewrite get_tab by nia. rewrite Nat.add_comm, Nat.mod_add, Nat.mod_small by lia. reflexivity. }
    assert (NV : forall c n j, c < length (fe_cells f) -> n < fe_nn f -> j < fe_vec f -> nodal [f] 0 v c n j = if (j =? k)%nat then 1 else 0).
    { intros c n j Hc Hn Hj. unfold nodal. rewrite !dof_single. cbn [fe_at nth]. apply GV; [|exact Hj].
      destruct (WF f (or_introl eq_refl)) as [_ Wf]. apply (Wf (nth c (fe_cells f) [])); [apply nth_In; exact Hc|].
      unfold node_of. apply nth_In. rewrite (proj1 (Wf _ (nth_In _ _ Hc))). exact Hn. }
    assert (IV : forall (w : nat -> K) c j, c < length (fe_cells f) -> j < fe_vec f -> Sum (fe_nn f) w = 1 -> Sum (fe_nn f) (fun n => w n * nodal [f] 0 v c n j) = if (j =? k)%nat then 1 else 0).
    { intros w c j Hc Hj S1. rewrite (Sum_ext K _ _ (fun n => w n * (if (j =? k)%nat then 1 else 0))) by (intros n Hn; rewrite NV by assumption; reflexivity).
      rewrite Sum_mul_r, S1. ring. }
    assert (PK : forall m : nat -> K, Sum (fe_vec f) (fun j => m j * (if (j =? k)%nat then 1 else 0)) = m k).
    { intros m. rewrite (Sum_ext K _ _ (fun j => if (j =? k)%nat then m j else 0)); [apply Sum_single; exact Hk|]. intros j _. destruct (j =? k)%nat; ring. }
    rewrite work_terms.
    assert (T : opt_term (match ph_tensor ph with Some t => Some t | None => ph_energy_grad ph end)
                  (fun tm => tensor_volume dim nq det inv [f] tm vars u v) = 0).
    { destruct (match ph_tensor ph with Some t => Some t | None => ph_energy_grad ph end) as [tm|]; cbn [opt_term]; [|reflexivity].
      unfold tensor_volume, over_cells. apply Sum_zero. intros c Hc. apply Sum_zero. intros q Hq.
      match goal with |- _ * ?x = _ => assert (Z : x = 0); [|rewrite Z; ring] end.
      apply Sum_zero. intros j Hj. apply Sum_zero. intros d Hd. rewrite (grad_const K dim inv f c q v (fun j => if (j =? k)%nat then 1 else 0) WF U Hc GV j d Hj Hd). ring. }
    rewrite T. match goal with |- ?a + 0 + ?b = _ => transitivity (a + b); [ring|] end. f_equal.
    - unfold body_total. destruct (ph_mass ph) as [mm|]; cbn [opt_term]; [|reflexivity]. unfold mass_volume, over_cells. apply Sum_ext. intros c Hc. apply Sum_ext. intros q Hq.
      cbn [fe_at nth]. f_equal. unfold dot1. set (m := mm _ _ _). rewrite <- (PK (get m)). apply Sum_ext. intros j Hj. f_equal.
      unfold field_at. cbn [fe_at nth]. rewrite get_tab by assumption. apply IV; auto.
    - unfold surface_total. apply sumf_ext. intros b Hb. destruct (bp_map (bd_ph b)) as [sm|]; cbn [opt_term]; [|reflexivity].
      unfold map_surface, over_faces. apply sumf_ext. intros [[c e] w] Hin. cbn [fst snd]. apply Sum_ext. intros q Hq. cbn [fe_at nth]. f_equal. unfold dot1.
      assert (Hc : c < length (fe_cells f)). { apply (proj2 (WB b Hb) (c, e)). apply in_combine_l in Hin. exact Hin. }
      set (m := sm _ _ _). rewrite <- (PK (get m)). apply Sum_ext. intros j Hj. f_equal.
      unfold face_field_at. cbn [fe_at nth]. rewrite get_tab by assumption. apply IV; auto.
  Qed.
  Lemma force_reactions rows k (R : list K) : k < fe_vec f -> equilibrium (pr_n pb) rows R ->
    Sum (length (fe_points f)) (fun a => reaction (fe_vec f) rows R a k) =
    virtual_work (pr_n pb) (tab (length (fe_points f) * fe_vec f) (fun i => if (i mod fe_vec f =? k)%nat then 1 else 0)) R.
  Proof using WF WB TJ TS Hbs PU PE PB EB.
    intros Hk Q. unfold virtual_work. rewrite ndofs, Sum_blocks. apply Sum_ext. intros a Ha. rewrite reaction_res by assumption.
    rewrite (Sum_ext K _ _ (fun j => if (j =? k)%nat then get R (a * fe_vec f + j)%nat else 0)).
    - symmetry. apply (Sum_single K (fe_vec f) k (fun j => get R (a * fe_vec f + j)%nat)). exact Hk.
    - intros j Hj. rewrite get_tab by nia. rewrite Nat.add_comm, Nat.mod_add, Nat.mod_small by lia. rewrite (Nat.add_comm j). destruct (j =? k)%nat; ring.
  Qed.

  (** Positions [x + s u] as a nodal vector, its field and its gradient. *)
  Definition placed (s : K) (u : list K) : list K :=
    tab (length (fe_points f) * fe_vec f) (fun i => get2 (fe_points f) (i / fe_vec f) (i mod fe_vec f) + s * get u i).
  Lemma nodal_placed s u c n k : c < length (fe_cells f) -> n < fe_nn f -> k < fe_vec f ->
    nodal [f] 0 (placed s u) c n k = coo f c n k + s * nodal [f] 0 u c n k.
  Proof using WF WB TJ TS Hbs PU PE PB EB.
    intros Hc Hn Hk. unfold nodal. rewrite !dof_single. cbn [fe_at nth]. unfold placed.
    assert (Ha : node_of f c n < length (fe_points f)).
    { destruct (WF f (or_introl eq_refl)) as [_ Wf]. apply (Wf (nth c (fe_cells f) [])); [apply nth_In; exact Hc|].
      unfold node_of. apply nth_In. rewrite (proj1 (Wf _ (nth_In _ _ Hc))). exact Hn. }
    rewrite get_tab by nia. 
    rewrite Nat.div_add_l, Nat.div_small by lia. rewrite (Nat.add_comm (node_of f c n * fe_vec f)), Nat.mod_add, Nat.mod_small by lia. rewrite Nat.add_0_r. reflexivity.
  Qed.
  Lemma get_placed s u a k : a < length (fe_points f) -> k < fe_vec f -> get (placed s u) (a * fe_vec f + k) = get2 (fe_points f) a k + s * get u (a * fe_vec f + k)%nat.
  Proof using WF WB TJ TS Hbs PU PE PB EB.
    intros Ha Hk. unfold placed. rewrite get_tab by nia. rewrite Nat.div_add_l, Nat.div_small by lia. rewrite (Nat.add_comm (a * fe_vec f)), Nat.mod_add, Nat.mod_small by lia. rewrite Nat.add_0_r. reflexivity.
  Qed.
  Lemma interp_placed (w : nat -> K) s u c k : c < length (fe_cells f) -> k < fe_vec f ->
    Sum (fe_nn f) (fun n => w n * nodal [f] 0 (placed s u) c n k) = Sum (fe_nn f) (fun n => w n * coo f c n k) + s * Sum (fe_nn f) (fun n => w n * nodal [f] 0 u c n k).
  Proof using WF WB TJ TS Hbs PU PE PB EB.
    intros Hc Hk. rewrite <- Sum_mul_l, <- Sum_add. apply Sum_ext. intros n Hn. rewrite nodal_placed by assumption. ring.
  Qed.
  Lemma grad_coo c q k d : inverse_ok K dim inv f c q -> k < dim -> d < dim ->
    Sum (fe_nn f) (fun n => shape_grad dim inv f c q n d * coo f c n k) = if (k =? d)%nat then 1 else 0.
  Proof using WF WB TJ TS Hbs PU PE PB EB.
    intros HI Hk Hd. rewrite <- (HI k d Hk Hd). unfold shape_grad.
    transitivity (Sum (fe_nn f) (fun n => Sum dim (fun e => coo f c n k * fe_sgref f q n e * get2 (inv (jac dim f c q)) e d))).
    { apply Sum_ext. intros n Hn. rewrite <- Sum_mul_r. apply Sum_ext. intros e He. ring. }
    rewrite Sum_swap. apply Sum_ext. intros e He. rewrite Sum_mul_r. f_equal. unfold jac. rewrite (get2_tab K _ dim) by assumption. reflexivity.
  Qed.
  End Problem.
End Work.

(** In the following three theorems: one displacement variable; stress from a tensor map or an energy
    density; body loads from the mass map; surface loads from surface maps on any boundaries; no user-written
    kernels. [rows] are the constrained DOFs and [u] is in equilibrium. *)

(** The reactions sum, component by component, to the total of the body and surface terms. *)
Theorem C113_forces :
  forall (K : CRing) dim nq nfq det inv norm (V W : Type) (f : fe K) vw (ph : physics K V) vars (bnd : list (bdata K W)) vj sj xv xs pb bs0 (u : list K) rows k,
  wf_fes [f] -> (forall b, In b bnd -> wf_bdata [f] b) ->
  (forall u x, length (vj u x) = num_local [f] * num_local [f]) ->
  (forall u x, length (sj u x) = num_local [f] * num_local [f]) -> 0 < bs0 ->
  ph_universal ph = None -> ph_extra ph = None -> (forall b, In b bnd -> bp_universal (bd_ph b) = None) ->
  build dim nq nfq det inv norm [f] vw ph vars bnd vj sj xv xs = Some pb ->
  unity K dim f -> (forall q, q < nq -> Sum (fe_nn f) (fe_sv f q) = c1) -> (forall g q, q < nfq -> Sum (fe_nn f) (fe_fsv f g q) = c1) ->
  equilibrium (pr_n pb) rows (get_res pb bs0 u) -> k < fe_vec f ->
  Sum (length (fe_points f)) (fun a => reaction (fe_vec f) rows (get_res pb bs0 u) a k) =
  cadd (body_total dim nq det f ph vars u (fun c q m => get m k))
       (surface_total dim nfq det inv norm f bnd u (fun c e q t => get t k)).
Proof.
  intros K dim nq nfq det inv norm V W f vw ph vars bnd vj sj xv xs pb bs0 u rows k WF WB TJ TS Hbs PU PE PB EB U SV SF Q Hk.
  rewrite (force_reactions K dim nq nfq det inv norm V W f vw ph vars bnd vj sj xv xs pb bs0 WF WB TJ TS Hbs PU PE PB EB rows k _ Hk Q).
  exact (force_work K dim nq nfq det inv norm V W f vw ph vars bnd vj sj xv xs pb bs0 WF WB TJ TS Hbs PU PE PB EB u k Hk U SV SF).
Qed.
Print Assumptions C113_forces.

Section Moments.
  Variable K : CRing.
  Add Ring KR113b : (cth K).
  Local Open Scope ring_K.
  Lemma moment_ext p r (x y g h : nat -> K) : x p = y p -> x r = y r -> g p = h p -> g r = h r -> moment p r x g = moment p r y h.
  Proof. intros A B C D. unfold moment. rewrite A, B, C, D. reflexivity. Qed.
  Lemma plus_zero (x y : K) : x + 0 * y = x. Proof. ring. Qed.
  Lemma plus_one (x y : K) : x + 1 * y = x + y. Proof. ring. Qed.
  Lemma delta_left n k (h : nat -> K) : k < n -> Sum n (fun d => h d * (if (k =? d)%nat then 1 else 0)) = h k.
  Proof.
    intros Hk. rewrite (Sum_ext K _ _ (fun d => if (d =? k)%nat then h d else 0)); [apply Sum_single; exact Hk|].
    intros d _. rewrite Nat.eqb_sym. destruct (d =? k)%nat; ring.
  Qed.
End Moments.

(** If the stress is symmetric, the moments of the reactions about the reference positions balance the
    moments of the loads. *)
Theorem C113_moments :
  forall (K : CRing) dim nq nfq det inv norm (V W : Type) (f : fe K) vw (ph : physics K V) vars (bnd : list (bdata K W)) vj sj xv xs pb bs0 (u : list K) rows p r,
  wf_fes [f] -> (forall b, In b bnd -> wf_bdata [f] b) ->
  (forall u x, length (vj u x) = num_local [f] * num_local [f]) ->
  (forall u x, length (sj u x) = num_local [f] * num_local [f]) -> 0 < bs0 ->
  ph_universal ph = None -> ph_extra ph = None -> (forall b, In b bnd -> bp_universal (bd_ph b) = None) ->
  build dim nq nfq det inv norm [f] vw ph vars bnd vj sj xv xs = Some pb ->
  fe_vec f = dim -> (forall c q, c < length (fe_cells f) -> q < nq -> inverse_ok K dim inv f c q) ->
  (forall tm G y i j, match ph_tensor ph with Some t => Some t | None => ph_energy_grad ph end = Some tm -> i < dim -> j < dim -> get2 (tm G y) i j = get2 (tm G y) j i) ->
  equilibrium (pr_n pb) rows (get_res pb bs0 u) -> p < dim -> r < dim ->
  Sum (length (fe_points f)) (fun a => moment p r (get2 (fe_points f) a) (reaction dim rows (get_res pb bs0 u) a)) =
  cadd (body_total dim nq det f ph vars u (fun c q m => moment p r (get (quad_point dim f c q)) (get m)))
       (surface_total dim nfq det inv norm f bnd u (fun c e q t => moment p r (get (face_point dim f c e q)) (get t))).
Proof.
  intros K dim nq nfq det inv norm V W f vw ph vars bnd vj sj xv xs pb bs0 u rows p r WF WB TJ TS Hbs PU PE PB EB VD IO SY Q Hp Hr. subst dim.
  set (z := placed K f c0 u).
  assert (IP := fun w c k => interp_placed K (fe_vec f) nq nfq det inv norm V W f vw ph vars bnd vj sj xv xs pb bs0 WF WB TJ TS Hbs PU PE PB EB w c0 u c k). fold z in IP.
  transitivity (virtual_work (pr_n pb) (lever K f z p r) (get_res pb bs0 u)).
  - rewrite <- (lever_reactions K (fe_vec f) nq nfq det inv norm V W f vw ph vars bnd vj sj xv xs pb bs0 WF WB TJ TS Hbs PU PE PB EB rows z p r _ Hp Hr Q).
    apply Sum_ext. intros a Ha. apply moment_ext; try reflexivity; unfold z;
      rewrite (get_placed K (fe_vec f) nq nfq det inv norm V W f vw ph vars bnd vj sj xv xs pb bs0 WF WB TJ TS Hbs PU PE PB EB) by assumption; symmetry; apply plus_zero.
  - rewrite (lever_work K (fe_vec f) nq nfq det inv norm V W f vw ph vars bnd vj sj xv xs pb bs0 WF WB TJ TS Hbs PU PE PB EB u z p r Hp Hr).
    + unfold body_total, surface_total. f_equal.
      * destruct (ph_mass ph) as [mm|]; cbn [opt_term]; [|reflexivity]. unfold over_cells. apply Sum_ext. intros c Hc. apply Sum_ext. intros q Hq. f_equal.
        apply moment_ext; try reflexivity; unfold field_at, quad_point; cbn [fe_at nth]; rewrite !get_tab by assumption; rewrite IP by assumption; apply plus_zero.
      * apply sumf_ext. intros b Hb. destruct (bp_map (bd_ph b)) as [sm|]; cbn [opt_term]; [|reflexivity]. unfold over_faces. apply sumf_ext. intros [[c e] w] Hin. cbn [fst snd].
        assert (Hc : c < length (fe_cells f)). { apply (proj2 (WB b Hb) (c, e)). apply in_combine_l in Hin. exact Hin. }
        apply Sum_ext. intros q Hq. f_equal. apply moment_ext; try reflexivity; unfold face_field_at, face_point; cbn [fe_at nth]; rewrite !get_tab by assumption; rewrite IP by assumption; apply plus_zero.
    + intros tm c q ET Hc Hq.
      assert (GZ : forall k d, k < fe_vec f -> d < fe_vec f -> get2 (grad_at (fe_vec f) inv [f] 0 z c q) k d = if (k =? d)%nat then c1 else c0).
      { intros k d Hk Hd. unfold grad_at. cbn [fe_at nth]. rewrite (get2_tab K _ (fe_vec f)) by assumption. rewrite IP by assumption. rewrite plus_zero.
        apply (grad_coo K (fe_vec f) nq nfq det inv norm V W f vw ph vars bnd vj sj xv xs pb bs0 WF WB TJ TS Hbs PU PE PB EB c q k d (IO c q Hc Hq) Hk Hd). }
      rewrite (Sum_ext K _ _ (fun d => cmul (get2 (tm (grad_at (fe_vec f) inv [f] 0 u c q) (vars c q)) r d) (if (p =? d)%nat then c1 else c0))) by (intros d Hd; rewrite GZ by assumption; reflexivity).
      rewrite (Sum_ext K _ (fun d => cmul (get2 _ p d) _) (fun d => cmul (get2 (tm (grad_at (fe_vec f) inv [f] 0 u c q) (vars c q)) p d) (if (r =? d)%nat then c1 else c0))) by (intros d Hd; rewrite GZ by assumption; reflexivity).
      rewrite (delta_left K _ p (fun d => get2 (tm (grad_at (fe_vec f) inv [f] 0 u c q) (vars c q)) r d) Hp).
      rewrite (delta_left K _ r (fun d => get2 (tm (grad_at (fe_vec f) inv [f] 0 u c q) (vars c q)) p d) Hr). apply (SY tm _ _ r p ET Hr Hp).
Qed.
Print Assumptions C113_moments.

(** Large deformations: if [P F^T] is symmetric with [F = I + grad u] (every frame-indifferent energy),
    moments balance about the deformed positions [x + u]. *)
Theorem C113_moments_finite :
  forall (K : CRing) dim nq nfq det inv norm (V W : Type) (f : fe K) vw (ph : physics K V) vars (bnd : list (bdata K W)) vj sj xv xs pb bs0 (u : list K) rows p r,
  wf_fes [f] -> (forall b, In b bnd -> wf_bdata [f] b) ->
  (forall u x, length (vj u x) = num_local [f] * num_local [f]) ->
  (forall u x, length (sj u x) = num_local [f] * num_local [f]) -> 0 < bs0 ->
  ph_universal ph = None -> ph_extra ph = None -> (forall b, In b bnd -> bp_universal (bd_ph b) = None) ->
  build dim nq nfq det inv norm [f] vw ph vars bnd vj sj xv xs = Some pb ->
  fe_vec f = dim -> (forall c q, c < length (fe_cells f) -> q < nq -> inverse_ok K dim inv f c q) ->
  (forall tm G y i j, match ph_tensor ph with Some t => Some t | None => ph_energy_grad ph end = Some tm -> i < dim -> j < dim ->
     let F k d := cadd (if (k =? d)%nat then c1 else c0) (get2 G k d) in
     Sum dim (fun d => cmul (get2 (tm G y) i d) (F j d)) = Sum dim (fun d => cmul (get2 (tm G y) j d) (F i d))) ->
  equilibrium (pr_n pb) rows (get_res pb bs0 u) -> p < dim -> r < dim ->
  let at_node a j := cadd (get2 (fe_points f) a j) (get u (a * dim + j)) in
  let at_point c q j := cadd (get (quad_point dim f c q) j) (get (field_at [f] 0 u c q) j) in
  let at_face c e q j := cadd (get (face_point dim f c e q) j) (get (face_field_at [f] 0 u c e q) j) in
  Sum (length (fe_points f)) (fun a => moment p r (at_node a) (reaction dim rows (get_res pb bs0 u) a)) =
  cadd (body_total dim nq det f ph vars u (fun c q m => moment p r (at_point c q) (get m)))
       (surface_total dim nfq det inv norm f bnd u (fun c e q t => moment p r (at_face c e q) (get t))).
Proof.
  intros K dim nq nfq det inv norm V W f vw ph vars bnd vj sj xv xs pb bs0 u rows p r WF WB TJ TS Hbs PU PE PB EB VD IO SY Q Hp Hr. subst dim. cbv zeta.
  set (z := placed K f c1 u).
  assert (IP := fun w c k => interp_placed K (fe_vec f) nq nfq det inv norm V W f vw ph vars bnd vj sj xv xs pb bs0 WF WB TJ TS Hbs PU PE PB EB w c1 u c k). fold z in IP.
  transitivity (virtual_work (pr_n pb) (lever K f z p r) (get_res pb bs0 u)).
  - rewrite <- (lever_reactions K (fe_vec f) nq nfq det inv norm V W f vw ph vars bnd vj sj xv xs pb bs0 WF WB TJ TS Hbs PU PE PB EB rows z p r _ Hp Hr Q).
    apply Sum_ext. intros a Ha. apply moment_ext; try reflexivity; unfold z;
      rewrite (get_placed K (fe_vec f) nq nfq det inv norm V W f vw ph vars bnd vj sj xv xs pb bs0 WF WB TJ TS Hbs PU PE PB EB) by assumption; symmetry; apply plus_one.
  - rewrite (lever_work K (fe_vec f) nq nfq det inv norm V W f vw ph vars bnd vj sj xv xs pb bs0 WF WB TJ TS Hbs PU PE PB EB u z p r Hp Hr).
    + unfold body_total, surface_total. f_equal.
      * destruct (ph_mass ph) as [mm|]; cbn [opt_term]; [|reflexivity]. unfold over_cells. apply Sum_ext. intros c Hc. apply Sum_ext. intros q Hq. f_equal.
        apply moment_ext; try reflexivity; unfold field_at, quad_point; cbn [fe_at nth]; rewrite !get_tab by assumption; rewrite IP by assumption; apply plus_one.
      * apply sumf_ext. intros b Hb. destruct (bp_map (bd_ph b)) as [sm|]; cbn [opt_term]; [|reflexivity]. unfold over_faces. apply sumf_ext. intros [[c e] w] Hin. cbn [fst snd].
        assert (Hc : c < length (fe_cells f)). { apply (proj2 (WB b Hb) (c, e)). apply in_combine_l in Hin. exact Hin. }
        apply Sum_ext. intros q Hq. f_equal. apply moment_ext; try reflexivity; unfold face_field_at, face_point; cbn [fe_at nth]; rewrite !get_tab by assumption; rewrite IP by assumption; apply plus_one.
    + intros tm c q ET Hc Hq.
      assert (GZ : forall k d, k < fe_vec f -> d < fe_vec f -> get2 (grad_at (fe_vec f) inv [f] 0 z c q) k d = cadd (if (k =? d)%nat then c1 else c0) (get2 (grad_at (fe_vec f) inv [f] 0 u c q) k d)).
      { intros k d Hk Hd. unfold grad_at. cbn [fe_at nth]. rewrite !(get2_tab K _ (fe_vec f)) by assumption. rewrite IP by assumption. rewrite plus_one. f_equal.
        apply (grad_coo K (fe_vec f) nq nfq det inv norm V W f vw ph vars bnd vj sj xv xs pb bs0 WF WB TJ TS Hbs PU PE PB EB c q k d (IO c q Hc Hq) Hk Hd). }
      specialize (SY tm (grad_at (fe_vec f) inv [f] 0 u c q) (vars c q) r p ET Hr Hp). cbv zeta in SY.
      etransitivity; [|etransitivity; [exact SY|]]; apply Sum_ext; intros d Hd; f_equal; [apply GZ; assumption|symmetry; apply GZ; assumption].
Qed.
Print Assumptions C113_moments_finite.

(** Three triangles around node 0, held at nodes 1 to 3, with a body force and a traction on one edge;
    the stress is linear and symmetric. Node 0 is in equilibrium, the reactions are not zero, and forces and
    moments balance. *)
Definition mo_fe : fe ZK :=
  @Build_fe ZK 2 3 [[0; 0]; [1; 0]; [0; 1]; [-1; -1]]%Z [[0; 1; 2]; [0; 2; 3]; [0; 3; 1]]
    (fun _ n => if n =? 0 then 1%Z else 0%Z) (fun _ n e => nth e (nth n [[-1; -1]; [1; 0]; [0; 1]] [])%Z 0%Z) (fun _ => 1%Z)
    (fun g _ n => if n =? (g + 1) mod 3 then 1%Z else 0%Z) (fun _ _ n e => nth e (nth n [[-1; -1]; [1; 0]; [0; 1]] [])%Z 0%Z) (fun _ _ => 1%Z) (fun _ _ => 1%Z).
Definition mo_det (M : list (list Z)) : Z := (nth 0 (nth 0 M []) 0 * nth 1 (nth 1 M []) 0 - nth 1 (nth 0 M []) 0 * nth 0 (nth 1 M []) 0)%Z.
Definition mo_inv (M : list (list Z)) : list (list Z) :=
  [[nth 1 (nth 1 M []) 0; - nth 1 (nth 0 M []) 0]; [- nth 0 (nth 1 M []) 0; nth 0 (nth 0 M []) 0]]%Z.
Definition mo_tm : tensor_map ZK Z := fun G y => tab 2 (fun i => tab 2 (fun j => (y * (get2 (K := ZK) G i j + get2 (K := ZK) G j i))%Z)).
Definition mo_mm : mass_map ZK Z := fun _ _ _ => [-12; -33]%Z.
Definition mo_ph : physics ZK Z := Build_physics ZK Z None None (Some mo_mm) (Some mo_tm) None None.
Definition mo_bnd : list (bdata ZK Z) := [Build_bdata ZK Z [(0, 0)] (Build_bphysics ZK Z None None (Some (fun _ _ y => [y; 5]%Z))) [fun _ => 4%Z]].
Definition mo_build :=
  build (K := ZK) 2 1 1 mo_det mo_inv (fun _ => 1%Z) [mo_fe] FULL mo_ph (fun _ _ => 3%Z) mo_bnd (fun _ _ => repeat 0%Z 36) (fun _ _ => repeat 0%Z 36)
    (vinp_of 2 mo_det mo_inv [mo_fe] (fun c q => 0%Z) 0) (finp_of 2 mo_det mo_inv (fun _ => 1%Z) [mo_fe] (fun _ => 0%Z) (0, 0)).
Definition mo_u : list Z := [1; 2; 0; 0; 0; 0; 0; 0]%Z.
Example C113_example :
  wf_fes [mo_fe] /\ (forall b, In b mo_bnd -> wf_bdata [mo_fe] b) /\ unity ZK 2 mo_fe /\
  (forall q, q < 1 -> Sum (K := ZK) 3 (fe_sv mo_fe q) = 1%Z) /\ (forall g q, q < 1 -> Sum (K := ZK) 3 (fe_fsv mo_fe g q) = 1%Z) /\
  (forall c q, c < 3 -> q < 1 -> inverse_ok ZK 2 mo_inv mo_fe c q) /\
  (forall G y i j, i < 2 -> j < 2 -> get2 (K := ZK) (mo_tm G y) i j = get2 (K := ZK) (mo_tm G y) j i) /\
  exists pb, mo_build = Some pb /\ pr_n pb = 8 /\ equilibrium (K := ZK) 8 [2; 3; 4; 5; 6; 7] (get_res pb 1 mo_u) /\
    get_res pb 1 mo_u = [0; 0; -8; -28; -12; -33; -12; -33]%Z /\
    Sum (K := ZK) 4 (fun a => moment (K := ZK) 0 1 (get2 (K := ZK) (fe_points mo_fe) a) (reaction (K := ZK) 2 [2; 3; 4; 5; 6; 7] (get_res pb 1 mo_u) a)) = 5%Z /\
    surface_total (K := ZK) 2 1 mo_det mo_inv (fun _ => 1%Z) mo_fe mo_bnd mo_u
      (fun c e q t => moment (K := ZK) 0 1 (get (K := ZK) (face_point (K := ZK) 2 mo_fe c e q)) (get (K := ZK) t)) = 5%Z.
Proof.
  split. { intros f [<-|[]]. split; [reflexivity|]. intros c [<-|[<-|[<-|[]]]]; (split; [reflexivity|]); cbn; intros n Hn; lia. }
  split. { intros b [<-|[]]. split; [reflexivity|]. intros cg [<-|[]]. cbn. lia. }
  split. { intros q e He. destruct e as [|[|e]]; [reflexivity|reflexivity|lia]. }
  split. { intros q Hq. reflexivity. }
  split. { intros g q Hq. cbn [mo_fe fe_fsv]. assert (M : (g + 1) mod 3 < 3) by (apply Nat.mod_upper_bound; lia). destruct ((g + 1) mod 3) as [|[|[|m]]]; [reflexivity|reflexivity|reflexivity|lia]. }
  split. { intros c q Hc Hq i d Hi Hd. destruct c as [|[|[|c]]]; [ | | |lia]; destruct i as [|[|i]]; try lia; destruct d as [|[|d]]; try lia; reflexivity. }
  split. { intros G y i j Hi Hj. unfold mo_tm. rewrite !(get2_tab ZK 2 2) by assumption. rewrite Z.add_comm. reflexivity. }
  eexists. split; [reflexivity|]. split; [reflexivity|].
  split. { intros i Hi Hn. destruct i as [|[|i]]; [vm_compute; reflexivity|vm_compute; reflexivity|]. exfalso. apply Hn. cbn. lia. }
  split; [vm_compute; reflexivity|]. split; vm_compute; reflexivity.
Qed.
