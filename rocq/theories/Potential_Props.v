(** C114: equilibria of problems with convex potentials minimise the total potential energy; uniqueness. *)
From Coq Require Import Reals.
From Verif Require Import Base Csr_Model Assembly_Model AssemblyMain_Proofs Dof_Model Dof_Spec Dof_Proofs Bc_Model Bc_Proofs Bc_Props
                          Kernel_Model Kernel_Spec Kernel_Proofs Kernel_Props Moment_Props Helmholtz_Model.
From Coq Require Import List Arith Lia ZArith.
Local Close Scope R_scope.
Local Open Scope nat_scope.
Import ListNotations.

(** ** Specification *)
Section Spec.
  Variable K : CRing.
  Local Open Scope ring_K.
  (** An order on the numbers that is compatible with sums and with products of non-negative numbers. *)
  Record ordered (le : K -> K -> Prop) : Prop := {
    le_refl : forall a, le a a;
    le_trans : forall a b c, le a b -> le b c -> le a c;
    le_antisym : forall a b, le a b -> le b a -> a = b;
    le_add : forall a b c d, le a b -> le c d -> le (a + c) (b + d);
    le_mul : forall a b, le 0 a -> le 0 b -> le 0 (a * b)
  }.
  Variable le : K -> K -> Prop.
  (** Differences of component arrays. *)
  Definition sub1 (n : nat) (a b : list K) : list K := tab n (fun k => get a k - get b k).
  Definition sub2 (n m : nat) (a b : list (list K)) : list (list K) := tab n (fun k => tab m (fun d => get2 a k d - get2 b k d)).

  Variables (dim nq nfq : nat) (det : list (list K) -> K) (inv : list (list K) -> list (list K)) (norm : list K -> K) (V W : Type).
  Variables (f : fe K) (ph : physics K V) (vars : nat -> nat -> V) (bnd : list (bdata K W)).
  (** Energy density of the stress, whose convexity gap is at least [gap] (zero if nothing more is known);
      potential of the body term; potential of the surface terms, for every boundary. *)
  Variables (psi : list (list K) -> V -> K) (gap : list (list K) -> K)
            (phi : list K -> list K -> V -> K) (chi : bdata K W -> list K -> list K -> W -> K).
  Definition convex_stress : Prop :=
    forall c q, c < length (fe_cells f) -> q < nq -> forall G H, let y := vars c q in match match ph_tensor ph with Some t => Some t | None => ph_energy_grad ph end with
    | Some tm => le (psi G y + dot2 (fe_vec f) dim (tm G y) (sub2 (fe_vec f) dim H G) + gap (sub2 (fe_vec f) dim H G)) (psi H y)
    | None => psi G y = 0 /\ gap G = 0
    end.
  Definition convex_body : Prop :=
    forall c q, c < length (fe_cells f) -> q < nq -> forall a b x, let y := vars c q in match ph_mass ph with
    | Some mm => le (phi a x y + dot1 (fe_vec f) (mm a x y) (sub1 (fe_vec f) b a)) (phi b x y)
    | None => phi a x y = 0
    end.
  Definition convex_surface : Prop :=
    forall bd, In bd bnd -> forall v q, In v (bd_vars bd) -> q < nfq -> forall a b x, let y := v q in match bp_map (bd_ph bd) with
    | Some sm => le (chi bd a x y + dot1 (fe_vec f) (sm a x y) (sub1 (fe_vec f) b a)) (chi bd b x y)
    | None => chi bd a x y = 0
    end.
  (** Strain energy (as computed by [create_energy_fn]) plus the potentials of the loads. *)
  Definition potential (u : list K) : K :=
    energy dim nq det inv [f] psi vars u +
    over_cells nq [f] (fun c q => JxW dim det f c q * phi (field_at [f] 0 u c q) (quad_point dim f c q) (vars c q)) +
    sumf (fun b => over_faces nfq b (fun c e q w => nanson dim det inv norm f c e q * chi b (face_field_at [f] 0 u c e q) (face_point dim f c e q) w)) bnd.
End Spec.
Arguments ordered {K}. Arguments sub1 {K}. Arguments sub2 {K}. Arguments convex_stress {K} le dim nq {V}. Arguments convex_body {K} le nq {V}. Arguments convex_surface {K} le nfq {W}.
Arguments potential {K} dim nq nfq det inv norm {V W}.

Section Order.
  Variable K : CRing.
  Add Ring KR114 : (cth K).
  Local Open Scope ring_K.
  Variable le : K -> K -> Prop.
  Hypothesis (OR : ordered le).
  Lemma le0_sub a b : le a b -> le 0 (b - a).
  Proof using OR. intros H. pose proof (le_add _ _ OR _ _ _ _ H (le_refl _ _ OR (- a))) as E. replace 0 with (a + - a) by ring. replace (b - a) with (b + - a) by ring. exact E. Qed.
  Lemma sub_le0 a b : le 0 (b - a) -> le a b.
  Proof using OR. intros H. pose proof (le_add _ _ OR _ _ _ _ H (le_refl _ _ OR a)) as E. replace (0 + a) with a in E by ring. replace (b - a + a) with b in E by ring. exact E. Qed.
  Lemma le_mul_l c a b : le 0 c -> le a b -> le (c * a) (c * b).
  Proof using OR. intros Hc H. apply sub_le0. replace (c * b - c * a) with (c * (b - a)) by ring. apply (le_mul _ _ OR); [exact Hc|apply le0_sub; exact H]. Qed.
  Lemma Sum_le n (g h : nat -> K) : (forall i, i < n -> le (g i) (h i)) -> le (Sum n g) (Sum n h).
  Proof using OR. induction n as [|n IH]; intros H; [apply (le_refl _ _ OR)|]. rewrite !Sum_S. apply (le_add _ _ OR); [apply IH; intros; apply H; lia|apply H; lia]. Qed.
  Lemma sumf_le {A} (l : list A) (g h : A -> K) : (forall i, In i l -> le (g i) (h i)) -> le (sumf g l) (sumf h l).
  Proof using OR. induction l as [|x l IH]; intros H; [apply (le_refl _ _ OR)|]. cbn. apply (le_add _ _ OR); [apply H; left; reflexivity|apply IH; intros; apply H; right; assumption]. Qed.
  Lemma Sum_nonneg n (g : nat -> K) : (forall i, i < n -> le 0 (g i)) -> le 0 (Sum n g).
  Proof using OR. intros H. replace 0 with (Sum (K := K) n (fun _ => 0)) by (apply Sum_zero; reflexivity). apply Sum_le. exact H. Qed.
  Lemma Sum_zero_each n (g : nat -> K) : (forall i, i < n -> le 0 (g i)) -> le (Sum n g) 0 -> forall i, i < n -> g i = 0.
  Proof using OR.
    induction n as [|n IH]; intros H Z i Hi; [lia|]. rewrite Sum_S in Z.
    assert (A : le 0 (Sum n g)) by (apply Sum_nonneg; intros; apply H; lia).
    assert (B : le 0 (g n)) by (apply H; lia).
    assert (Z1 : le (Sum n g) 0). { apply (le_trans _ _ OR) with (Sum n g + g n); [|exact Z]. replace (Sum n g) with (Sum n g + 0) at 1 by ring. apply (le_add _ _ OR); [apply (le_refl _ _ OR)|exact B]. }
    assert (Z2 : le (g n) 0). { apply (le_trans _ _ OR) with (Sum n g + g n); [|exact Z]. replace (g n) with (0 + g n) at 1 by ring. apply (le_add _ _ OR); [exact A|apply (le_refl _ _ OR)]. }
    destruct (Nat.eq_dec i n) as [->|Hn]; [apply (le_antisym _ _ OR); assumption|]. apply IH; [intros; apply H; lia|exact Z1|lia].
  Qed.
  Lemma zero_mul (a : K) : 0 * a = 0. Proof using. ring. Qed.
  Lemma sub_zero (a b : K) : a - b = 0 <-> a = b.
  Proof using. split; intros H; [|subst b; ring]. replace a with (a - b + b) by ring. rewrite H. ring. Qed.
  Lemma sub_both a b c : le (a + b) (a + c) -> le b c.
  Proof using OR. intros H. apply sub_le0. apply le0_sub in H. replace (c - b) with (a + c - (a + b)) by ring. exact H. Qed.
End Order.

Section Diff.
  Variable K : CRing.
  Add Ring KR114c : (cth K).
  Local Open Scope ring_K.
  Variables (dim : nat) (inv : list (list K) -> list (list K)) (f : fe K).
  (** Nodal values of the difference of two fields. *)
  Definition vdiff (w u : list K) : list K := tab (length (fe_points f) * fe_vec f) (fun i => get w i - get u i).
  Hypothesis (WF : wf_fes [f]).
  Lemma nodal_vdiff w u c n k : c < length (fe_cells f) -> n < fe_nn f -> k < fe_vec f ->
    nodal [f] 0 (vdiff w u) c n k = nodal [f] 0 w c n k - nodal [f] 0 u c n k.
  Proof using WF.
    intros Hc Hn Hk. unfold nodal. rewrite !dof_single. cbn [fe_at nth]. unfold vdiff.
    assert (Ha : node_of f c n < length (fe_points f)).
    { destruct (WF f (or_introl eq_refl)) as [_ Wf]. apply (Wf (nth c (fe_cells f) [])); [apply nth_In; exact Hc|].
      unfold node_of. apply nth_In. rewrite (proj1 (Wf _ (nth_In _ _ Hc))). exact Hn. }
    rewrite get_tab by nia. reflexivity.
  Qed.
  Lemma interp_vdiff (s : nat -> K) w u c k : c < length (fe_cells f) -> k < fe_vec f ->
    Sum (fe_nn f) (fun n => s n * nodal [f] 0 (vdiff w u) c n k) = Sum (fe_nn f) (fun n => s n * nodal [f] 0 w c n k) - Sum (fe_nn f) (fun n => s n * nodal [f] 0 u c n k).
  Proof using WF. intros Hc Hk. rewrite <- Sum_sub. apply Sum_ext. intros n Hn. rewrite nodal_vdiff by assumption. ring. Qed.
  Lemma grad_vdiff w u c q : c < length (fe_cells f) ->
    grad_at dim inv [f] 0 (vdiff w u) c q = sub2 (fe_vec f) dim (grad_at dim inv [f] 0 w c q) (grad_at dim inv [f] 0 u c q).
  Proof using WF.
    intros Hc. unfold grad_at at 1, sub2. cbn [fe_at nth]. apply tab_ext. intros k Hk. apply tab_ext. intros d Hd.
    rewrite interp_vdiff by assumption. unfold grad_at. cbn [fe_at nth]. rewrite !(get2_tab K _ dim) by assumption. reflexivity.
  Qed.
  Lemma field_vdiff w u c q : c < length (fe_cells f) ->
    field_at [f] 0 (vdiff w u) c q = sub1 (fe_vec f) (field_at [f] 0 w c q) (field_at [f] 0 u c q).
  Proof using WF.
    intros Hc. unfold field_at at 1, sub1. cbn [fe_at nth]. apply tab_ext. intros k Hk.
    rewrite interp_vdiff by assumption. unfold field_at. cbn [fe_at nth]. rewrite !get_tab by assumption. reflexivity.
  Qed.
  Lemma face_vdiff w u c e q : c < length (fe_cells f) ->
    face_field_at [f] 0 (vdiff w u) c e q = sub1 (fe_vec f) (face_field_at [f] 0 w c e q) (face_field_at [f] 0 u c e q).
  Proof using WF.
    intros Hc. unfold face_field_at at 1, sub1. cbn [fe_at nth]. apply tab_ext. intros k Hk.
    rewrite interp_vdiff by assumption. unfold face_field_at. cbn [fe_at nth]. rewrite !get_tab by assumption. reflexivity.
  Qed.
End Diff.

Section Gap.
  Variable K : CRing.
  Add Ring KR114b : (cth K).
  Local Open Scope ring_K.
  Variable le : K -> K -> Prop.
  Hypothesis (OR : ordered le).
  Variables (dim nq nfq : nat) (det : list (list K) -> K) (inv : list (list K) -> list (list K)) (norm : list K -> K) (V W : Type).
  Variables (f : fe K) (vw : view) (ph : physics K V) (vars : nat -> nat -> V) (bnd : list (bdata K W))
            (vj : list K -> vinp K V -> list K) (sj : list K -> finp K W -> list K) (xv : vinp K V) (xs : finp K W)
            (pb : problem K (vinp K V) (finp K W)) (bs0 : nat).
  Hypothesis (WF : wf_fes [f]).
  Hypothesis (WB : forall b, In b bnd -> wf_bdata [f] b).
  Hypothesis (TJ : forall u x, length (vj u x) = (num_local [f] * num_local [f])%nat).
  Hypothesis (TS : forall u x, length (sj u x) = (num_local [f] * num_local [f])%nat).
  Hypothesis (Hbs : (0 < bs0)%nat).
  Hypothesis (PU : ph_universal ph = None).
  Hypothesis (PE : ph_extra ph = None).
  Hypothesis (PB : forall b, In b bnd -> bp_universal (bd_ph b) = None).
  Hypothesis (EB : build dim nq nfq det inv norm [f] vw ph vars bnd vj sj xv xs = Some pb).
  Hypothesis (JP : forall c q, c < length (fe_cells f) -> q < nq -> le 0 (JxW dim det f c q)).
  Hypothesis (NP : forall b c e q, In b bnd -> In (c, e) (bd_inds b) -> q < nfq -> le 0 (nanson dim det inv norm f c e q)).
  Variables (psi : list (list K) -> V -> K) (gap : list (list K) -> K)
            (phi : list K -> list K -> V -> K) (chi : bdata K W -> list K -> list K -> W -> K).
  Hypothesis (CS : convex_stress le dim nq f ph vars psi gap).
  Hypothesis (CB : convex_body le nq f ph vars phi).
  Hypothesis (CF : convex_surface le nfq f bnd chi).

  Lemma energy_grad u : energy dim nq det inv [f] psi vars u = over_cells nq [f] (fun c q => JxW dim det f c q * psi (grad_at dim inv [f] 0 u c q) (vars c q)).
  Proof using.
    unfold energy, over_cells. change (fe_at [f] 0) with f. apply Sum_ext. intros c _. apply Sum_ext. intros q _.
    replace (op_grad dim f (fun n k => get u (node_of f c n * fe_vec f + k)) (shape_grad dim inv f c q)) with (grad_at dim inv [f] 0 u c q); [ring|].
    unfold op_grad, grad_at. cbn [fe_at nth]. apply tab_ext. intros k Hk. apply tab_ext. intros d Hd.
    apply Sum_ext. intros n Hn. unfold nodal. rewrite dof_single. cbn [fe_at nth]. ring.
  Qed.
  Definition gap_total (v : list K) : K := over_cells nq [f] (fun c q => JxW dim det f c q * gap (grad_at dim inv [f] 0 v c q)).

  Lemma stress_gap u w :
    le (energy dim nq det inv [f] psi vars u +
        opt_term (match ph_tensor ph with Some t => Some t | None => ph_energy_grad ph end) (fun tm => tensor_volume dim nq det inv [f] tm vars u (vdiff K f w u)) +
        gap_total (vdiff K f w u)) (energy dim nq det inv [f] psi vars w).
  Proof using OR WF JP CS.
    rewrite !energy_grad. unfold gap_total. set (o := match ph_tensor ph with Some t => Some t | None => ph_energy_grad ph end).
    assert (C := CS). unfold convex_stress in C. fold o in C. destruct o as [tm|]; cbn [opt_term].
    - unfold tensor_volume, over_cells. rewrite <- !Sum_add. apply (Sum_le K le OR). intros c Hc. rewrite <- !Sum_add. apply (Sum_le K le OR). intros q Hq.
      change (fe_at [f] 0) with f. rewrite (grad_vdiff K dim inv f WF w u c q Hc).
      match goal with |- le (?j * ?a + ?j * ?b + ?j * ?d) _ => replace (j * a + j * b + j * d) with (j * (a + b + d)) by ring end.
      apply (le_mul_l K le OR); [apply JP; assumption|exact (C c q Hc Hq _ _)].
    - assert (Z : forall u, over_cells nq [f] (fun c q => JxW dim det f c q * psi (grad_at dim inv [f] 0 u c q) (vars c q)) = 0).
      { intros z. unfold over_cells. apply Sum_zero. intros c Hc. apply Sum_zero. intros q Hq. rewrite (proj1 (C c q Hc Hq (grad_at dim inv [f] 0 z c q) [])). ring. }
      rewrite !Z. assert (Z2 : over_cells nq [f] (fun c q => JxW dim det f c q * gap (grad_at dim inv [f] 0 (vdiff K f w u) c q)) = 0).
      { unfold over_cells. apply Sum_zero. intros c Hc. apply Sum_zero. intros q Hq. rewrite (proj2 (C c q Hc Hq _ [])). ring. }
      rewrite Z2. replace (0 + 0 + 0) with (@Base.c0 K) by ring. apply (le_refl _ _ OR).
  Qed.
  Lemma body_gap u w :
    le (over_cells nq [f] (fun c q => JxW dim det f c q * phi (field_at [f] 0 u c q) (quad_point dim f c q) (vars c q)) +
        opt_term (ph_mass ph) (fun mm => mass_volume dim nq det [f] mm vars u (vdiff K f w u)))
       (over_cells nq [f] (fun c q => JxW dim det f c q * phi (field_at [f] 0 w c q) (quad_point dim f c q) (vars c q))).
  Proof using OR WF JP CB.
    assert (C := CB). unfold convex_body in C. destruct (ph_mass ph) as [mm|]; cbn [opt_term].
    - unfold mass_volume, over_cells. rewrite <- !Sum_add. apply (Sum_le K le OR). intros c Hc. rewrite <- !Sum_add. apply (Sum_le K le OR). intros q Hq.
      change (fe_at [f] 0) with f. rewrite (field_vdiff K f WF w u c q Hc).
      match goal with |- le (?j * ?a + ?j * ?b) _ => replace (j * a + j * b) with (j * (a + b)) by ring end.
      apply (le_mul_l K le OR); [apply JP; assumption|exact (C c q Hc Hq _ _ _)].
    - replace (over_cells nq [f] (fun c q => JxW dim det f c q * phi (field_at [f] 0 u c q) (quad_point dim f c q) (vars c q)) + 0)
        with (over_cells nq [f] (fun c q => JxW dim det f c q * phi (field_at [f] 0 w c q) (quad_point dim f c q) (vars c q))); [apply (le_refl _ _ OR)|].
      assert (Z : forall u, over_cells nq [f] (fun c q => JxW dim det f c q * phi (field_at [f] 0 u c q) (quad_point dim f c q) (vars c q)) = 0).
      { intros z. unfold over_cells. apply Sum_zero. intros c Hc. apply Sum_zero. intros q Hq. rewrite (C c q Hc Hq _ [] _). ring. }
      rewrite !Z. ring.
  Qed.
  Lemma surface_gap u w :
    le (sumf (fun b => over_faces nfq b (fun c e q x => nanson dim det inv norm f c e q * chi b (face_field_at [f] 0 u c e q) (face_point dim f c e q) x)) bnd +
        sumf (fun b => opt_term (bp_map (bd_ph b)) (fun sm => map_surface dim nfq det inv norm [f] sm b u (vdiff K f w u))) bnd)
       (sumf (fun b => over_faces nfq b (fun c e q x => nanson dim det inv norm f c e q * chi b (face_field_at [f] 0 w c e q) (face_point dim f c e q) x)) bnd).
  Proof using OR WF WB NP CF.
    rewrite <- sumf_add. apply (sumf_le K le OR). intros b Hb.
    assert (C := CF b Hb). destruct (bp_map (bd_ph b)) as [sm|]; cbn [opt_term].
    - unfold map_surface, over_faces. rewrite <- sumf_add. apply (sumf_le K le OR). intros [[c e] x] Hin. cbn [fst snd].
      assert (Hv := in_combine_r _ _ _ _ Hin). apply in_combine_l in Hin.
      assert (Hc : c < length (fe_cells f)) by exact (proj2 (WB b Hb) (c, e) Hin).
      rewrite <- Sum_add. apply (Sum_le K le OR). intros q Hq.
      change (fe_at [f] 0) with f. rewrite (face_vdiff K f WF w u c e q Hc).
      match goal with |- le (?j * ?a + ?j * ?b) _ => replace (j * a + j * b) with (j * (a + b)) by ring end.
      apply (le_mul_l K le OR); [exact (NP b c e q Hb Hin Hq)|exact (C x q Hv Hq _ _ _)].
    - assert (Z : forall u, over_faces nfq b (fun c e q x => nanson dim det inv norm f c e q * chi b (face_field_at [f] 0 u c e q) (face_point dim f c e q) x) = 0).
      { intros z. unfold over_faces. apply sumf_zero. intros [p v] Hp. apply in_combine_r in Hp. apply Sum_zero. intros q Hq. cbn [fst snd]. rewrite (C v q Hp Hq _ [] _). ring. }
      rewrite !Z. replace (0 + 0) with (@Base.c0 K) by ring. apply (le_refl _ _ OR).
  Qed.

  Lemma gap_core u w :
    le (potential dim nq nfq det inv norm f vars bnd psi phi chi u + virtual_work (pr_n pb) (vdiff K f w u) (get_res pb bs0 u) + gap_total (vdiff K f w u))
       (potential dim nq nfq det inv norm f vars bnd psi phi chi w).
  Proof using OR WF WB TJ TS Hbs PU PE PB EB JP NP CS CB CF.
    rewrite (work_terms K dim nq nfq det inv norm V W f vw ph vars bnd vj sj xv xs pb bs0 WF WB TJ TS Hbs PU PE PB EB).
    pose proof (le_add _ _ OR _ _ _ _ (le_add _ _ OR _ _ _ _ (stress_gap u w) (body_gap u w)) (surface_gap u w)) as H.
    unfold potential. eapply (le_trans _ _ OR); [|exact H].
    match goal with |- le ?a ?b => replace a with b by ring end. apply (le_refl _ _ OR).
  Qed.
  Lemma no_work u w rows : equilibrium (pr_n pb) rows (get_res pb bs0 u) -> (forall i, In i rows -> get w i = get u i) ->
    virtual_work (pr_n pb) (vdiff K f w u) (get_res pb bs0 u) = 0.
  Proof using WF WB TJ TS Hbs PU PE PB EB.
    intros Q E. unfold virtual_work. apply Sum_zero. intros i Hi. destruct (in_dec Nat.eq_dec i rows) as [Y|N].
    - unfold vdiff. rewrite get_tab; [rewrite (E i Y); ring|].
      rewrite <- (ndofs K dim nq nfq det inv norm V W f vw ph vars bnd vj sj xv xs pb bs0 WF WB TJ TS Hbs PU PE PB EB). exact Hi.
    - rewrite (Q i Hi N). ring.
  Qed.
  Lemma gap_eq u w rows : equilibrium (pr_n pb) rows (get_res pb bs0 u) -> (forall i, In i rows -> get w i = get u i) ->
    le (potential dim nq nfq det inv norm f vars bnd psi phi chi u + gap_total (vdiff K f w u)) (potential dim nq nfq det inv norm f vars bnd psi phi chi w).
  Proof using OR WF WB TJ TS Hbs PU PE PB EB JP NP CS CB CF.
    intros Q E. pose proof (gap_core u w) as G. rewrite (no_work u w rows Q E) in G.
    match type of G with le (?a + 0 + ?b) _ => replace (a + 0 + b) with (a + b) in G by ring end. exact G.
  Qed.
End Gap.

(** ** Theorems *)

(** Among all fields with the same values at the supports, an equilibrium has the least potential energy,
    and every other field exceeds it by at least the integrated gap of the difference. *)
Theorem C114_gap :
  forall (K : CRing) (le : K -> K -> Prop) dim nq nfq det inv norm (V W : Type) (f : fe K) vw (ph : physics K V) vars (bnd : list (bdata K W)) vj sj xv xs pb bs0
         psi gap phi chi (u w : list K) rows,
  ordered le ->
  wf_fes [f] -> (forall b, In b bnd -> wf_bdata [f] b) ->
  (forall u x, length (vj u x) = num_local [f] * num_local [f]) ->
  (forall u x, length (sj u x) = num_local [f] * num_local [f]) -> 0 < bs0 ->
  ph_universal ph = None -> ph_extra ph = None -> (forall b, In b bnd -> bp_universal (bd_ph b) = None) ->
  build dim nq nfq det inv norm [f] vw ph vars bnd vj sj xv xs = Some pb ->
  (* non-negative quadrature weights and Jacobians *)
  (forall c q, c < length (fe_cells f) -> q < nq -> le c0 (JxW dim det f c q)) ->
  (forall b c e q, In b bnd -> In (c, e) (bd_inds b) -> q < nfq -> le c0 (nanson dim det inv norm f c e q)) ->
  convex_stress le dim nq f ph vars psi gap -> convex_body le nq f ph vars phi -> convex_surface le nfq f bnd chi ->
  equilibrium (pr_n pb) rows (get_res pb bs0 u) ->
  (forall i, In i rows -> get w i = get u i) ->
  le (cadd (potential dim nq nfq det inv norm f vars bnd psi phi chi u)
           (over_cells nq [f] (fun c q => cmul (JxW dim det f c q) (gap (sub2 (fe_vec f) dim (grad_at dim inv [f] 0 w c q) (grad_at dim inv [f] 0 u c q))))))
     (potential dim nq nfq det inv norm f vars bnd psi phi chi w).
Proof.
  intros K le dim nq nfq det inv norm V W f vw ph vars bnd vj sj xv xs pb bs0 psi gap phi chi u w rows OR WF WB TJ TS Hbs PU PE PB EB JP NP CS CB CF Q E.
  pose proof (gap_eq K le OR dim nq nfq det inv norm V W f vw ph vars bnd vj sj xv xs pb bs0 WF WB TJ TS Hbs PU PE PB EB JP NP psi gap phi chi CS CB CF u w rows Q E) as G.
  replace (over_cells nq [f] (fun c q => cmul (JxW dim det f c q) (gap (sub2 (fe_vec f) dim (grad_at dim inv [f] 0 w c q) (grad_at dim inv [f] 0 u c q)))))
    with (gap_total K dim nq det inv f gap (vdiff K f w u)); [exact G|].
  unfold gap_total, over_cells. apply Sum_ext. intros c Hc. apply Sum_ext. intros q Hq. rewrite (grad_vdiff K dim inv f WF w u c q Hc). reflexivity.
Qed.
Print Assumptions C114_gap.

(** A solution of the constrained problem minimises the potential energy among all fields that meet the
    Dirichlet values. *)
Theorem C114_minimum :
  forall (K : CRing) (le : K -> K -> Prop) dim nq nfq det inv norm (V W : Type) (f : fe K) vw (ph : physics K V) vars (bnd : list (bdata K W)) vj sj xv xs pb bs0
         psi gap phi chi (u w : list K) bc,
  ordered le ->
  wf_fes [f] -> (forall b, In b bnd -> wf_bdata [f] b) ->
  (forall u x, length (vj u x) = num_local [f] * num_local [f]) ->
  (forall u x, length (sj u x) = num_local [f] * num_local [f]) -> 0 < bs0 ->
  ph_universal ph = None -> ph_extra ph = None -> (forall b, In b bnd -> bp_universal (bd_ph b) = None) ->
  build dim nq nfq det inv norm [f] vw ph vars bnd vj sj xv xs = Some pb ->
  (* non-negative quadrature weights and Jacobians *)
  (forall c q, c < length (fe_cells f) -> q < nq -> le c0 (JxW dim det f c q)) ->
  (forall b c e q, In b bnd -> In (c, e) (bd_inds b) -> q < nfq -> le c0 (nanson dim det inv norm f c e q)) ->
  convex_stress le dim nq f ph vars psi gap -> convex_body le nq f ph vars phi -> convex_surface le nfq f bnd chi ->
  (forall G, le c0 (gap G)) ->
  wf_bc bc (pr_n pb) ->
  (forall i, i < pr_n pb -> get (apply_res bc (get_res pb bs0 u) u c1) i = c0) ->
  (forall k, k < length (bc_rows bc) -> get w (nth k (bc_rows bc) 0) = get (bc_vals bc) k) ->
  le (potential dim nq nfq det inv norm f vars bnd psi phi chi u) (potential dim nq nfq det inv norm f vars bnd psi phi chi w).
Proof.
  intros K le dim nq nfq det inv norm V W f vw ph vars bnd vj sj xv xs pb bs0 psi gap phi chi u w bc OR WF WB TJ TS Hbs PU PE PB EB JP NP CS CB CF GP WC SU SW.
  destruct (proj1 (C11_zero_iff (get_res pb bs0 u) u WC (get_res_length pb bs0 u)) SU) as [SV SR].
  pose proof (C114_gap K le dim nq nfq det inv norm V W f vw ph vars bnd vj sj xv xs pb bs0 psi gap phi chi u w (bc_rows bc) OR WF WB TJ TS Hbs PU PE PB EB JP NP CS CB CF (fun i Hi Hn => SR i Hi Hn)) as G.
  eapply (le_trans _ _ OR); [|apply G].
  - rewrite <- (plus_zero K (potential dim nq nfq det inv norm f vars bnd psi phi chi u) c0) at 1.
    apply (le_add _ _ OR); [apply (le_refl _ _ OR)|]. rewrite (zero_mul K).
    unfold over_cells. apply (Sum_nonneg K le OR). intros c Hc. apply (Sum_nonneg K le OR). intros q Hq.
    apply (le_mul _ _ OR); [apply JP; assumption|apply GP].
  - intros i Hi. destruct (In_nth _ _ 0 Hi) as (k & Hk & <-). rewrite SW, SV by assumption. reflexivity.
Qed.
Print Assumptions C114_minimum.

(** Two solutions with the same Dirichlet values differ by a field without gap (for elasticity: without
    strain), so if the supports prevent such fields the solution is unique. *)
Theorem C114_unique :
  forall (K : CRing) (le : K -> K -> Prop) dim nq nfq det inv norm (V W : Type) (f : fe K) vw (ph : physics K V) vars (bnd : list (bdata K W)) vj sj xv xs pb bs0
         psi gap phi chi (u w : list K) bc,
  ordered le ->
  wf_fes [f] -> (forall b, In b bnd -> wf_bdata [f] b) ->
  (forall u x, length (vj u x) = num_local [f] * num_local [f]) ->
  (forall u x, length (sj u x) = num_local [f] * num_local [f]) -> 0 < bs0 ->
  ph_universal ph = None -> ph_extra ph = None -> (forall b, In b bnd -> bp_universal (bd_ph b) = None) ->
  build dim nq nfq det inv norm [f] vw ph vars bnd vj sj xv xs = Some pb ->
  (* non-negative quadrature weights and Jacobians *)
  (forall c q, c < length (fe_cells f) -> q < nq -> le c0 (JxW dim det f c q)) ->
  (forall b c e q, In b bnd -> In (c, e) (bd_inds b) -> q < nfq -> le c0 (nanson dim det inv norm f c e q)) ->
  convex_stress le dim nq f ph vars psi gap -> convex_body le nq f ph vars phi -> convex_surface le nfq f bnd chi ->
  (forall G, le c0 (gap G)) ->
  (* positive Jacobians: a product with one is zero only if the other factor is *)
  (forall c q x, c < length (fe_cells f) -> q < nq -> cmul (JxW dim det f c q) x = c0 -> x = c0) ->
  wf_bc bc (pr_n pb) ->
  (forall i, i < pr_n pb -> get (apply_res bc (get_res pb bs0 u) u c1) i = c0) ->
  (forall i, i < pr_n pb -> get (apply_res bc (get_res pb bs0 w) w c1) i = c0) ->
  (forall c q, c < length (fe_cells f) -> q < nq -> gap (sub2 (fe_vec f) dim (grad_at dim inv [f] 0 w c q) (grad_at dim inv [f] 0 u c q)) = c0) /\
  ((forall v, length v = pr_n pb -> (forall i, In i (bc_rows bc) -> get v i = c0) ->
      (forall c q, c < length (fe_cells f) -> q < nq -> gap (grad_at dim inv [f] 0 v c q) = c0) -> forall i, i < pr_n pb -> get v i = c0) ->
   forall i, i < pr_n pb -> get w i = get u i).
Proof.
  intros K le dim nq nfq det inv norm V W f vw ph vars bnd vj sj xv xs pb bs0 psi gap phi chi u w bc OR WF WB TJ TS Hbs PU PE PB EB JP NP CS CB CF GP JC WC SU SW.
  destruct (proj1 (C11_zero_iff (get_res pb bs0 u) u WC (get_res_length pb bs0 u)) SU) as [UV UR].
  destruct (proj1 (C11_zero_iff (get_res pb bs0 w) w WC (get_res_length pb bs0 w)) SW) as [WV WR].
  assert (EQ : forall i, In i (bc_rows bc) -> get w i = get u i).
  { intros i Hi. destruct (In_nth _ _ 0 Hi) as (k & Hk & <-). rewrite WV, UV by assumption. reflexivity. }
  pose proof (C114_gap K le dim nq nfq det inv norm V W f vw ph vars bnd vj sj xv xs pb bs0 psi gap phi chi u w (bc_rows bc) OR WF WB TJ TS Hbs PU PE PB EB JP NP CS CB CF (fun i Hi Hn => UR i Hi Hn) EQ) as G1.
  pose proof (C114_minimum K le dim nq nfq det inv norm V W f vw ph vars bnd vj sj xv xs pb bs0 psi gap phi chi w u bc OR WF WB TJ TS Hbs PU PE PB EB JP NP CS CB CF GP WC SW UV) as G2.
  pose proof (le_trans _ _ OR _ _ _ G1 G2) as G3. rewrite <- (plus_zero K (potential dim nq nfq det inv norm f vars bnd psi phi chi u) c0) in G3 at 2.
  apply (sub_both K le OR) in G3. rewrite (zero_mul K) in G3.
  assert (NN : forall c q, c < length (fe_cells f) -> q < nq ->
     le c0 (cmul (JxW dim det f c q) (gap (sub2 (fe_vec f) dim (grad_at dim inv [f] 0 w c q) (grad_at dim inv [f] 0 u c q)))))
    by (intros c q Hc Hq; apply (le_mul _ _ OR); [apply JP; assumption|apply GP]).
  assert (Z : forall c q, c < length (fe_cells f) -> q < nq -> gap (sub2 (fe_vec f) dim (grad_at dim inv [f] 0 w c q) (grad_at dim inv [f] 0 u c q)) = c0).
  { intros c q Hc Hq. apply (JC c q _ Hc Hq).
    pose proof (Sum_zero_each K le OR _ _ (fun c' Hc' => Sum_nonneg K le OR _ _ (fun q' Hq' => NN c' q' Hc' Hq')) G3 c Hc) as A. cbv beta in A.
    refine (Sum_zero_each K le OR nq (fun q => cmul (JxW dim det f c q) (gap (sub2 (fe_vec f) dim (grad_at dim inv [f] 0 w c q) (grad_at dim inv [f] 0 u c q)))) (fun q' Hq' => NN c q' Hc Hq') _ q Hq).
    rewrite A. apply (le_refl _ _ OR). }
  split; [exact Z|]. intros SUP i Hi.
  assert (ND : pr_n pb = length (fe_points f) * fe_vec f) by exact (ndofs K dim nq nfq det inv norm V W f vw ph vars bnd vj sj xv xs pb bs0 WF WB TJ TS Hbs PU PE PB EB).
  assert (D : forall i, i < pr_n pb -> get (vdiff K f w u) i = csub (get w i) (get u i)) by (intros j Hj; unfold vdiff; rewrite get_tab by (rewrite <- ND; exact Hj); reflexivity).
  apply (proj1 (sub_zero K (get w i) (get u i))). rewrite <- D by exact Hi. apply SUP; [| | |exact Hi].
  - unfold vdiff. unfold tab. rewrite map_length, seq_length. symmetry. exact ND.
  - intros j Hj. destruct (Nat.lt_ge_cases j (pr_n pb)) as [L|L].
    + rewrite D by exact L. apply (proj2 (sub_zero K (get w j) (get u j))). apply EQ. exact Hj.
    + unfold get. rewrite nth_overflow; [reflexivity|]. unfold vdiff, tab. rewrite map_length, seq_length, <- ND. exact L.
  - intros c q Hc Hq. rewrite (grad_vdiff K dim inv f WF w u c q Hc). apply Z; assumption.
Qed.
Print Assumptions C114_unique.

(** ** Concrete cases *)
Lemma Z_ordered : ordered (K := ZK) Z.le.
Proof. constructor; cbn; intros; nia. Qed.
Lemma R_ordered : ordered (K := RK) Rle.
Proof.
  constructor; cbn; intros.
  - apply Rle_refl.
  - exact (Rle_trans _ _ _ H H0).
  - exact (Rle_antisym _ _ H H0).
  - exact (Rplus_le_compat _ _ _ _ H H0).
  - exact (Rmult_le_pos _ _ H H0).
Qed.

(** The triangles of C113 with a linear elastic stress, a dead body force and a dead traction. *)
Definition po_tm : tensor_map ZK Z := fun G y => tab 2 (fun i => tab 2 (fun j => (2 * y * (get2 (K := ZK) G i j + get2 (K := ZK) G j i))%Z)).
Definition po_psi (G : list (list Z)) (y : Z) : Z :=
  let a := get2 (K := ZK) G 0 0 : Z in let b := get2 (K := ZK) G 0 1 : Z in let d := get2 (K := ZK) G 1 0 : Z in let e := get2 (K := ZK) G 1 1 : Z in
  (2 * y * (a * a + e * e) + y * ((b + d) * (b + d)))%Z.
Definition po_gap (G : list (list Z)) : Z := po_psi G 1.
Definition po_mm : mass_map ZK Z := fun _ _ _ => [-24; -66]%Z.
Definition po_phi (a x : list Z) (y : Z) : Z := (-24 * get (K := ZK) a 0 + -66 * get (K := ZK) a 1)%Z.
Definition po_chi (b : bdata ZK Z) (a x : list Z) (y : Z) : Z := (y * get (K := ZK) a 0 + 5 * get (K := ZK) a 1)%Z.
Definition po_ph : physics ZK Z := Build_physics ZK Z None None (Some po_mm) (Some po_tm) None None.
Definition po_build :=
  build (K := ZK) 2 1 1 mo_det mo_inv (fun _ => 1%Z) [mo_fe] FULL po_ph (fun _ _ => 3%Z) mo_bnd (fun _ _ => repeat 0%Z 36) (fun _ _ => repeat 0%Z 36)
    (vinp_of 2 mo_det mo_inv [mo_fe] (fun c q => 0%Z) 0) (finp_of 2 mo_det mo_inv (fun _ => 1%Z) [mo_fe] (fun _ => 0%Z) (0, 0)).
Definition po_bc : dirichlet ZK :=
  {| bc_rows := [2; 3; 4; 5; 6; 7]; bc_vals := ([0; 0; 0; 0; 0; 0]%Z : list ZK); bc_total := 8;
     bc_mask := [false; false; true; true; true; true; true; true] |}.
Definition po_energy := potential (K := ZK) 2 1 1 mo_det mo_inv (fun _ => 1%Z) mo_fe (fun _ _ => 3%Z) mo_bnd po_psi po_phi po_chi.
Lemma po_convex_stress : convex_stress (K := ZK) Z.le 2 1 mo_fe po_ph (fun _ _ => 3%Z) po_psi po_gap.
Proof.
  intros c q _ _ G H. cbn [ph_tensor po_ph].
  change (fe_vec mo_fe) with 2.
  set (a := get2 (K := ZK) G 0 0 : Z). set (b := get2 (K := ZK) G 0 1 : Z). set (d := get2 (K := ZK) G 1 0 : Z). set (e := get2 (K := ZK) G 1 1 : Z).
  set (a' := get2 (K := ZK) H 0 0 : Z). set (b' := get2 (K := ZK) H 0 1 : Z). set (d' := get2 (K := ZK) H 1 0 : Z). set (e' := get2 (K := ZK) H 1 1 : Z).
  assert (E1 : sub2 (K := ZK) 2 2 H G = [[a' - a; b' - b]; [d' - d; e' - e]]%Z) by reflexivity.
  assert (E2 : po_tm G 3%Z = [[2 * 3 * (a + a); 2 * 3 * (b + d)]; [2 * 3 * (d + b); 2 * 3 * (e + e)]]%Z) by reflexivity.
  cbv zeta. rewrite E1, E2.
  assert (E3 : po_psi H 3%Z = (2 * 3 * (a' * a' + e' * e') + 3 * ((b' + d') * (b' + d')))%Z) by reflexivity.
  assert (E4 : po_psi G 3%Z = (2 * 3 * (a * a + e * e) + 3 * ((b + d) * (b + d)))%Z) by reflexivity.
  rewrite E3, E4. clearbody a b d e a' b' d' e'. cbn [cadd ZK carrier].
  replace (dot2 (K := ZK) 2 2 [[2 * 3 * (a + a); 2 * 3 * (b + d)]; [2 * 3 * (d + b); 2 * 3 * (e + e)]]%Z [[a' - a; b' - b]; [d' - d; e' - e]]%Z)
    with (12 * a * (a' - a) + 6 * (b + d) * (b' - b) + 6 * (d + b) * (d' - d) + 12 * e * (e' - e))%Z
    by (cbv [dot2 Sum get2 get nth tab map seq sumf fold_right ZK cadd cmul c0 carrier]; ring).
  replace (po_gap [[a' - a; b' - b]; [d' - d; e' - e]]%Z) with (2 * ((a' - a) * (a' - a) + (e' - e) * (e' - e)) + (b' - b + (d' - d)) * (b' - b + (d' - d)))%Z
    by (cbv [po_gap po_psi get2 get nth]; ring).
  pose proof (Z.square_nonneg (a' - a)). pose proof (Z.square_nonneg (e' - e)). pose proof (Z.square_nonneg (b' - b + (d' - d))). nia.
Qed.
Lemma po_convex_body : convex_body (K := ZK) Z.le 1 mo_fe po_ph (fun _ _ => 3%Z) po_phi.
Proof. intros c q _ _ a b x. cbv [ph_mass po_ph po_phi po_mm sub1 dot1 mo_fe fe_vec tab map seq Sum sumf fold_right ZK cadd cmul csub c0 carrier]. cbn [get nth]. unfold get. cbn [nth]. cbv [cadd cmul csub c0]. lia. Qed.
Lemma po_convex_surface : convex_surface (K := ZK) Z.le 1 mo_fe mo_bnd po_chi.
Proof.
  intros bd [<-|[]] v q [<-|[]] _ a b x. cbn [bd_ph bp_map]. cbv [po_chi sub1 dot1 mo_fe fe_vec tab map seq Sum sumf fold_right ZK cadd cmul csub c0 carrier].
  unfold get. cbn [nth]. cbv [cadd cmul csub c0]. lia.
Qed.
(** The supports leave no strain-free field. *)
Lemma po_supported v : length v = 8 -> (forall i, In i (bc_rows po_bc) -> get (K := ZK) v i = 0%Z) ->
  (forall c q, c < 3 -> q < 1 -> po_gap (grad_at (K := ZK) 2 mo_inv [mo_fe] 0 v c q) = 0%Z) -> forall i, i < 8 -> get (K := ZK) v i = 0%Z.
Proof.
  intros L S H i Hi. destruct v as [|v0 [|v1 [|v2 [|v3 [|v4 [|v5 [|v6 [|v7 [|]]]]]]]]]; try discriminate L.
  assert (S2 := S 2 ltac:(cbn; tauto)). assert (S3 := S 3 ltac:(cbn; tauto)). assert (S4 := S 4 ltac:(cbn; tauto)). assert (S5 := S 5 ltac:(cbn; tauto)). assert (S6 := S 6 ltac:(cbn; tauto)). assert (S7 := S 7 ltac:(cbn; tauto)).
  cbn in S2, S3, S4, S5, S6, S7. subst v2 v3 v4 v5 v6 v7. specialize (H 0 0 ltac:(lia) ltac:(lia)).
  assert (E : po_gap (grad_at (K := ZK) 2 mo_inv [mo_fe] 0 [v0; v1; 0; 0; 0; 0; 0; 0]%Z 0 0) = (2 * (v0 * v0 + v1 * v1) + (v0 + v1) * (v0 + v1))%Z).
  { cbv -[Z.add Z.mul Z.sub Z.opp]. ring. }
  apply (eq_trans (eq_sym E)) in H. clear E. cbn [carrier ZK] in v0, v1. assert (v0 = 0 /\ v1 = 0)%Z as [-> ->] by nia.
  do 8 (destruct i as [|i]; [reflexivity|]). lia.
Qed.
Example C114_example :
  ordered (K := ZK) Z.le /\ ordered (K := RK) Rle /\
  wf_fes [mo_fe] /\ (forall b, In b mo_bnd -> wf_bdata [mo_fe] b) /\
  (forall c q, c < 3 -> q < 1 -> (0 <= JxW (K := ZK) 2 mo_det mo_fe c q)%Z) /\
  (forall b c e q, In b mo_bnd -> In (c, e) (bd_inds b) -> q < 1 -> (0 <= nanson (K := ZK) 2 mo_det mo_inv (fun _ => 1%Z) mo_fe c e q)%Z) /\
  convex_stress (K := ZK) Z.le 2 1 mo_fe po_ph (fun _ _ => 3%Z) po_psi po_gap /\
  convex_body (K := ZK) Z.le 1 mo_fe po_ph (fun _ _ => 3%Z) po_phi /\ convex_surface (K := ZK) Z.le 1 mo_fe mo_bnd po_chi /\
  (forall G, 0 <= po_gap G)%Z /\
  (forall c q x, c < 3 -> q < 1 -> (JxW (K := ZK) 2 mo_det mo_fe c q * x = 0)%Z -> x = 0%Z) /\
  wf_bc po_bc 8 /\
  (exists pb, po_build = Some pb /\ pr_n pb = 8 /\ forall i, i < 8 -> get (apply_res po_bc (get_res pb 1 mo_u) mo_u 1%Z) i = 0%Z) /\
  (po_energy mo_u, po_energy [1; 1; 0; 0; 0; 0; 0; 0]%Z, po_energy [2; 2; 0; 0; 0; 0; 0; 0]%Z, po_energy [0; 0; 0; 0; 0; 0; 0; 0]%Z) = (-234, -180, -180, 0)%Z.
Proof.
  split; [exact Z_ordered|]. split; [exact R_ordered|].
  split. { intros f [<-|[]]. split; [reflexivity|]. intros c [<-|[<-|[<-|[]]]]; (split; [reflexivity|]); cbn; intros n Hn; lia. }
  split. { intros b [<-|[]]. split; [reflexivity|]. intros cg [<-|[]]. cbn. lia. }
  split. { intros c q Hc Hq. assert (q = 0) as -> by lia. destruct c as [|[|[|c]]]; try lia; vm_compute; discriminate. }
  split. { intros b c e q [<-|[]] [[= <- <-]|[]] Hq. assert (q = 0) as -> by lia. vm_compute; discriminate. }
  split; [exact po_convex_stress|]. split; [exact po_convex_body|]. split; [exact po_convex_surface|].
  split. { intros G. unfold po_gap, po_psi. cbv zeta. generalize (get2 (K := ZK) G 0 0 : Z) (get2 (K := ZK) G 0 1 : Z) (get2 (K := ZK) G 1 0 : Z) (get2 (K := ZK) G 1 1 : Z). cbn [carrier ZK]. intros a b d e. pose proof (Z.square_nonneg a). pose proof (Z.square_nonneg e). pose proof (Z.square_nonneg (b + d)). lia. }
  split. { intros c q x Hc Hq. assert (q = 0) as -> by lia. assert (J : JxW (K := ZK) 2 mo_det mo_fe c 0 = 1%Z) by (destruct c as [|[|[|c]]]; try lia; vm_compute; reflexivity). rewrite J. intros H. cbn [carrier ZK] in x. lia. }
  split. { constructor; cbn; try reflexivity.
           - repeat constructor.
           - intros r Hr. lia.
           - intros i. do 8 (destruct i as [|i]; [cbn; split; intros; (discriminate || reflexivity || lia || (repeat (try (left; reflexivity); right)))|]).
             cbn. split; [destruct i; discriminate|lia]. }
  split. { eexists. split; [reflexivity|]. split; [reflexivity|]. intros i Hi. do 8 (destruct i as [|i]; [vm_compute; reflexivity|]). lia. }
  vm_compute. reflexivity.
Qed.
