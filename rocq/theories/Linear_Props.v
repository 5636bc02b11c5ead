(** C116: superposition of load cases and reciprocity (Maxwell-Betti) for linear problems. *)
From Verif Require Import Base Csr_Model Assembly_Model AssemblyMain_Proofs Dof_Model Dof_Spec Dof_Proofs Bc_Model Bc_Proofs Bc_Props
                          Kernel_Model Kernel_Spec Kernel_Proofs Kernel_Props Patch_Props Moment_Props.
From Coq Require Import List Arith Lia ZArith.
Import ListNotations.

(** ** Specification *)
Section Spec.
  Variable K : CRing.
  Local Open Scope ring_K.
  Definition add1 (n : nat) (a b : list K) : list K := tab n (fun k => get a k + get b k).
  Definition add2 (n m : nat) (a b : list (list K)) : list (list K) := tab n (fun k => tab m (fun d => get2 a k d + get2 b k d)).
  Definition stress_of {V} (ph : physics K V) : option (tensor_map K V) := match ph_tensor ph with Some s => Some s | None => ph_energy_grad ph end.
  Variables (dim nq nfq : nat) (V W : Type) (f : fe K) (ph : physics K V).
  (** Three load cases of one problem: parameters [y1], [y2] and [y3] at every quadrature point of the cells and faces;
      the third is the sum of the others, for the stress, the body term and every surface term. *)
  Definition sum_case (v1 v2 v3 : nat -> nat -> V) : Prop :=
    forall c q, c < length (fe_cells f) -> q < nq ->
    (forall tm G1 G2 k d, stress_of ph = Some tm -> k < fe_vec f -> d < dim ->
       get2 (tm (add2 (fe_vec f) dim G1 G2) (v3 c q)) k d = get2 (tm G1 (v1 c q)) k d + get2 (tm G2 (v2 c q)) k d) /\
    (forall mm a1 a2 x k, ph_mass ph = Some mm -> k < fe_vec f ->
       get (mm (add1 (fe_vec f) a1 a2) x (v3 c q)) k = get (mm a1 x (v1 c q)) k + get (mm a2 x (v2 c q)) k).
  Inductive sum_faces (ph : bphysics K W) : list (nat -> W) -> list (nat -> W) -> list (nat -> W) -> Prop :=
  | no_face : sum_faces ph [] [] []
  | a_face w1 w2 w3 l1 l2 l3 :
      (forall sm q a1 a2 x k, bp_map ph = Some sm -> q < nfq -> k < fe_vec f ->
         get (sm (add1 (fe_vec f) a1 a2) x (w3 q)) k = get (sm a1 x (w1 q)) k + get (sm a2 x (w2 q)) k) ->
      sum_faces ph l1 l2 l3 -> sum_faces ph (w1 :: l1) (w2 :: l2) (w3 :: l3).
  Inductive sum_bounds : list (bdata K W) -> list (bdata K W) -> list (bdata K W) -> Prop :=
  | no_bound : sum_bounds [] [] []
  | a_bound inds bph x1 x2 x3 l1 l2 l3 : sum_faces bph x1 x2 x3 -> sum_bounds l1 l2 l3 ->
      sum_bounds (Build_bdata K W inds bph x1 :: l1) (Build_bdata K W inds bph x2 :: l2) (Build_bdata K W inds bph x3 :: l3).
  (** Work of the reactions at the constrained rows on a field. *)
  Definition reaction_work (n : nat) (rows : list nat) (R v : list K) : K := Sum n (fun i => if existsb (Nat.eqb i) rows then get R i * get v i else 0).
End Spec.
Arguments add1 {K}. Arguments add2 {K}. Arguments stress_of {K V}. Arguments sum_case {K} dim nq {V}. Arguments sum_bounds {K} nfq {W}. Arguments sum_faces {K} nfq {W}.
Arguments reaction_work {K}.

Section Add.
  Variable K : CRing.
  Add Ring KR116 : (cth K).
  Local Open Scope ring_K.
  Variables (dim : nat) (inv : list (list K) -> list (list K)) (f : fe K) (u1 u2 u3 : list K).
  Hypothesis (WF : wf_fes [f]).
  Hypothesis (US : forall i, i < length (fe_points f) * fe_vec f -> get u3 i = get u1 i + get u2 i).
  Lemma nodal_sum c n k : c < length (fe_cells f) -> n < fe_nn f -> k < fe_vec f -> nodal [f] 0 u3 c n k = nodal [f] 0 u1 c n k + nodal [f] 0 u2 c n k.
  Proof using WF US. intros Hc Hn Hk. unfold nodal. rewrite !dof_single. cbn [fe_at nth]. apply US. pose proof (node_bound K f c n WF Hc Hn). nia. Qed.
  Lemma interp_sum (w : nat -> K) c k : c < length (fe_cells f) -> k < fe_vec f ->
    Sum (fe_nn f) (fun n => w n * nodal [f] 0 u3 c n k) = Sum (fe_nn f) (fun n => w n * nodal [f] 0 u1 c n k) + Sum (fe_nn f) (fun n => w n * nodal [f] 0 u2 c n k).
  Proof using WF US. intros Hc Hk. rewrite <- Sum_add. apply Sum_ext. intros n Hn. rewrite nodal_sum by assumption. ring. Qed.
  Lemma grad_sum c q : c < length (fe_cells f) -> grad_at dim inv [f] 0 u3 c q = add2 (fe_vec f) dim (grad_at dim inv [f] 0 u1 c q) (grad_at dim inv [f] 0 u2 c q).
  Proof using WF US.
    intros Hc. unfold grad_at at 1, add2. cbn [fe_at nth]. apply tab_ext. intros k Hk. apply tab_ext. intros d Hd. rewrite interp_sum by assumption.
    unfold grad_at. cbn [fe_at nth]. rewrite !(get2_tab K _ dim) by assumption. reflexivity.
  Qed.
  Lemma field_sum c q : c < length (fe_cells f) -> field_at [f] 0 u3 c q = add1 (fe_vec f) (field_at [f] 0 u1 c q) (field_at [f] 0 u2 c q).
  Proof using WF US.
    intros Hc. unfold field_at at 1, add1. cbn [fe_at nth]. apply tab_ext. intros k Hk. rewrite interp_sum by assumption.
    unfold field_at. cbn [fe_at nth]. rewrite !get_tab by assumption. reflexivity.
  Qed.
  Lemma face_sum c e q : c < length (fe_cells f) -> face_field_at [f] 0 u3 c e q = add1 (fe_vec f) (face_field_at [f] 0 u1 c e q) (face_field_at [f] 0 u2 c e q).
  Proof using WF US.
    intros Hc. unfold face_field_at at 1, add1. cbn [fe_at nth]. apply tab_ext. intros k Hk. rewrite interp_sum by assumption.
    unfold face_field_at. cbn [fe_at nth]. rewrite !get_tab by assumption. reflexivity.
  Qed.
End Add.

Section Terms.
  Variable K : CRing.
  Add Ring KR116b : (cth K).
  Local Open Scope ring_K.
  Variables (dim nq nfq : nat) (det : list (list K) -> K) (inv : list (list K) -> list (list K)) (norm : list K -> K) (V W : Type).
  Variables (f : fe K) (ph : physics K V) (v1 v2 v3 : nat -> nat -> V) (u1 u2 u3 v : list K).
  Hypothesis (WF : wf_fes [f]).
  Hypothesis (US : forall i, i < length (fe_points f) * fe_vec f -> get u3 i = get u1 i + get u2 i).
  Hypothesis (SC : sum_case dim nq f ph v1 v2 v3).
  Lemma mass_sum mm : ph_mass ph = Some mm -> mass_volume dim nq det [f] mm v3 u3 v = mass_volume dim nq det [f] mm v1 u1 v + mass_volume dim nq det [f] mm v2 u2 v.
  Proof using WF US SC.
    intros E. unfold mass_volume, over_cells. rewrite <- Sum_add. apply Sum_ext. intros c Hc. rewrite <- Sum_add. apply Sum_ext. intros q Hq.
    change (fe_at [f] 0) with f. rewrite (field_sum K f u1 u2 u3 WF US c q Hc).
    match goal with |- ?j * ?a = ?j * ?b + ?j * ?d => replace (j * b + j * d) with (j * (b + d)) by ring end. f_equal. unfold dot1. rewrite <- Sum_add.
    apply Sum_ext. intros k Hk. rewrite (proj2 (SC c q Hc Hq) mm _ _ _ k E Hk). ring.
  Qed.
  Lemma stress_sum tm : stress_of ph = Some tm -> tensor_volume dim nq det inv [f] tm v3 u3 v = tensor_volume dim nq det inv [f] tm v1 u1 v + tensor_volume dim nq det inv [f] tm v2 u2 v.
  Proof using WF US SC.
    intros E. unfold tensor_volume, over_cells. rewrite <- Sum_add. apply Sum_ext. intros c Hc. rewrite <- Sum_add. apply Sum_ext. intros q Hq.
    change (fe_at [f] 0) with f. rewrite (grad_sum K dim inv f u1 u2 u3 WF US c q Hc).
    match goal with |- ?j * ?a = ?j * ?b + ?j * ?d => replace (j * b + j * d) with (j * (b + d)) by ring end. f_equal. unfold dot2. rewrite <- Sum_add.
    apply Sum_ext. intros k Hk. rewrite <- Sum_add. apply Sum_ext. intros d Hd. rewrite (proj1 (SC c q Hc Hq) tm _ _ k d E Hk Hd). ring.
  Qed.
  Lemma surf_sum (l1 l2 l3 : list (bdata K W)) : sum_bounds nfq f l1 l2 l3 -> (forall b, In b l1 -> wf_bdata [f] b) ->
    let s (l : list (bdata K W)) u := sumf (fun b => opt_term (bp_map (bd_ph b)) (fun sm => map_surface dim nfq det inv norm [f] sm b u v)) l in
    s l3 u3 = s l1 u1 + s l2 u2.
  Proof using WF US.
    intros S WB s. induction S as [|inds bph x1 x2 x3 l1 l2 l3 SF S IH]; [cbn; ring|].
    unfold s in *. cbn [sumf bd_ph].
    assert (IH' := IH (fun b Hb => WB b (or_intror Hb))). rewrite IH'. clear IH IH'.
    assert (T : opt_term (bp_map bph) (fun sm => map_surface dim nfq det inv norm [f] sm (Build_bdata K W inds bph x3) u3 v) =
                opt_term (bp_map bph) (fun sm => map_surface dim nfq det inv norm [f] sm (Build_bdata K W inds bph x1) u1 v) +
                opt_term (bp_map bph) (fun sm => map_surface dim nfq det inv norm [f] sm (Build_bdata K W inds bph x2) u2 v)).
    { destruct (bp_map bph) as [sm|] eqn:E; cbn [opt_term]; [|ring]. unfold map_surface, over_faces. cbn [bd_inds bd_vars].
      assert (HI : forall p, In p inds -> fst p < length (fe_cells f)) by exact (proj2 (WB _ (or_introl eq_refl))).
      clear WB S s. revert inds HI. induction SF as [|w1 w2 w3 m1 m2 m3 H SF IH]; intros inds HI; [destruct inds; cbn; ring|].
      destruct inds as [|[c e] inds]; [cbn; ring|]. cbn [combine sumf fst snd]. rewrite (IH inds (fun p Hp => HI p (or_intror Hp))). clear IH.
      match goal with |- ?a + (?b + ?d) = _ => assert (T : a = Sum nfq (fun q => nanson dim det inv norm (fe_at [f] 0) c e q * dot1 (fe_vec (fe_at [f] 0)) (sm (face_field_at [f] 0 u1 c e q) (face_point dim (fe_at [f] 0) c e q) (w1 q)) (face_field_at [f] 0 v c e q)) +
          Sum nfq (fun q => nanson dim det inv norm (fe_at [f] 0) c e q * dot1 (fe_vec (fe_at [f] 0)) (sm (face_field_at [f] 0 u2 c e q) (face_point dim (fe_at [f] 0) c e q) (w2 q)) (face_field_at [f] 0 v c e q))) end; [|rewrite T; ring].
      change (fe_at [f] 0) with f. rewrite <- Sum_add. apply Sum_ext. intros q Hq.
      rewrite (face_sum K f u1 u2 u3 WF US c e q (HI (c, e) (or_introl eq_refl))).
      match goal with |- ?j * ?a = ?j * ?b + ?j * ?d => replace (j * b + j * d) with (j * (b + d)) by ring end. f_equal. unfold dot1. rewrite <- Sum_add.
      apply Sum_ext. intros k Hk. rewrite (H sm q _ _ _ k E Hq Hk). ring. }
    rewrite T. ring.
  Qed.
End Terms.

Section Ring.
  Variable K : CRing.
  Add Ring KR116c : (cth K).
  Local Open Scope ring_K.
  Lemma add6 (a b c d e g : K) : a + d + (b + e) + (c + g) = a + b + c + (d + e + g). Proof. ring. Qed.
  Lemma add00 : 0 + 0 = (0 : K). Proof. ring. Qed.
  Lemma add_sub1 (a b c d : K) : a - c * 1 + (b - d * 1) = a + b - (c + d) * 1. Proof. ring. Qed.
  Lemma betti_ring (s r1 r2 L1 L2 S1 S2 : K) : r1 = L1 + s + S1 -> r2 = L2 + s + S2 -> L1 + S1 - r1 = L2 + S2 - r2.
  Proof. intros -> ->. ring. Qed.
End Ring.

(** ** Theorems *)

(** The residual of the summed load case at the sum of two displacements is the sum of the residuals. *)
Theorem C116_superposition :
  forall (K : CRing) dim nq nfq det inv norm (V W : Type) (f : fe K) vw (ph : physics K V) v1 v2 v3 (b1 b2 b3 : list (bdata K W))
         vj sj xv1 xv2 xv3 xs1 xs2 xs3 pb1 pb2 pb3 bs1 bs2 bs3 (u1 u2 u3 : list K),
  wf_fes [f] ->
  (forall b, In b b1 -> wf_bdata [f] b) -> (forall b, In b b2 -> wf_bdata [f] b) -> (forall b, In b b3 -> wf_bdata [f] b) ->
  (forall u x, length (vj u x) = num_local [f] * num_local [f]) ->
  (forall u x, length (sj u x) = num_local [f] * num_local [f]) -> 0 < bs1 -> 0 < bs2 -> 0 < bs3 ->
  ph_universal ph = None -> ph_extra ph = None ->
  (forall b, In b b1 -> bp_universal (bd_ph b) = None) -> (forall b, In b b2 -> bp_universal (bd_ph b) = None) -> (forall b, In b b3 -> bp_universal (bd_ph b) = None) ->
  build dim nq nfq det inv norm [f] vw ph v1 b1 vj sj xv1 xs1 = Some pb1 ->
  build dim nq nfq det inv norm [f] vw ph v2 b2 vj sj xv2 xs2 = Some pb2 ->
  build dim nq nfq det inv norm [f] vw ph v3 b3 vj sj xv3 xs3 = Some pb3 ->
  sum_case dim nq f ph v1 v2 v3 -> sum_bounds nfq f b1 b2 b3 ->
  (forall i, i < length (fe_points f) * fe_vec f -> get u3 i = cadd (get u1 i) (get u2 i)) ->
  forall i, i < length (fe_points f) * fe_vec f ->
  get (get_res pb3 bs3 u3) i = cadd (get (get_res pb1 bs1 u1) i) (get (get_res pb2 bs2 u2) i).
Proof.
  intros K dim nq nfq det inv norm V W f vw ph v1 v2 v3 b1 b2 b3 vj sj xv1 xv2 xv3 xs1 xs2 xs3 pb1 pb2 pb3 bs1 bs2 bs3 u1 u2 u3
         WF W1 W2 W3 TJ TS H1 H2 H3 PU PE P1 P2 P3 E1 E2 E3 SC SB US i Hi.
  assert (N1 := ndofs K dim nq nfq det inv norm V W f vw ph v1 b1 vj sj xv1 xs1 pb1 bs1 WF W1 TJ TS H1 PU PE P1 E1).
  assert (N2 := ndofs K dim nq nfq det inv norm V W f vw ph v2 b2 vj sj xv2 xs2 pb2 bs2 WF W2 TJ TS H2 PU PE P2 E2).
  assert (N3 := ndofs K dim nq nfq det inv norm V W f vw ph v3 b3 vj sj xv3 xs3 pb3 bs3 WF W3 TJ TS H3 PU PE P3 E3).
  rewrite <- (unit_work K (pr_n pb3) i (get_res pb3 bs3 u3)) by (rewrite N3; exact Hi).
  rewrite <- (unit_work K (pr_n pb1) i (get_res pb1 bs1 u1)) by (rewrite N1; exact Hi).
  rewrite <- (unit_work K (pr_n pb2) i (get_res pb2 bs2 u2)) by (rewrite N2; exact Hi).
  rewrite (work_terms K dim nq nfq det inv norm V W f vw ph v1 b1 vj sj xv1 xs1 pb1 bs1 WF W1 TJ TS H1 PU PE P1 E1).
  rewrite (work_terms K dim nq nfq det inv norm V W f vw ph v2 b2 vj sj xv2 xs2 pb2 bs2 WF W2 TJ TS H2 PU PE P2 E2).
  rewrite (work_terms K dim nq nfq det inv norm V W f vw ph v3 b3 vj sj xv3 xs3 pb3 bs3 WF W3 TJ TS H3 PU PE P3 E3).
  rewrite N1, N2, N3. set (v := tab _ _). rewrite <- add6. f_equal; [f_equal|].
  - destruct (ph_mass ph) as [mm|] eqn:E; cbn [opt_term]; [|symmetry; apply add00]. apply (mass_sum K dim nq det V f ph v1 v2 v3 u1 u2 u3 v WF US SC mm E).
  - fold (stress_of ph). destruct (stress_of ph) as [tm|] eqn:E; cbn [opt_term]; [|symmetry; apply add00]. apply (stress_sum K dim nq det inv V f ph v1 v2 v3 u1 u2 u3 v WF US SC tm E).
  - apply (surf_sum K dim nfq det inv norm W f u1 u2 u3 v WF US b1 b2 b3 SB W1).
Qed.
Print Assumptions C116_superposition.

(** So solutions add up: with prescribed values that add up too, the sum of the solutions solves the summed case. *)
Theorem C116_solutions :
  forall (K : CRing) dim nq nfq det inv norm (V W : Type) (f : fe K) vw (ph : physics K V) v1 v2 v3 (b1 b2 b3 : list (bdata K W))
         vj sj xv1 xv2 xv3 xs1 xs2 xs3 pb1 pb2 pb3 bs1 bs2 bs3 (u1 u2 u3 : list K) (bc1 bc2 bc3 : dirichlet K),
  let n := length (fe_points f) * fe_vec f in
  wf_fes [f] ->
  (forall b, In b b1 -> wf_bdata [f] b) -> (forall b, In b b2 -> wf_bdata [f] b) -> (forall b, In b b3 -> wf_bdata [f] b) ->
  (forall u x, length (vj u x) = num_local [f] * num_local [f]) ->
  (forall u x, length (sj u x) = num_local [f] * num_local [f]) -> 0 < bs1 -> 0 < bs2 -> 0 < bs3 ->
  ph_universal ph = None -> ph_extra ph = None ->
  (forall b, In b b1 -> bp_universal (bd_ph b) = None) -> (forall b, In b b2 -> bp_universal (bd_ph b) = None) -> (forall b, In b b3 -> bp_universal (bd_ph b) = None) ->
  build dim nq nfq det inv norm [f] vw ph v1 b1 vj sj xv1 xs1 = Some pb1 ->
  build dim nq nfq det inv norm [f] vw ph v2 b2 vj sj xv2 xs2 = Some pb2 ->
  build dim nq nfq det inv norm [f] vw ph v3 b3 vj sj xv3 xs3 = Some pb3 ->
  sum_case dim nq f ph v1 v2 v3 -> sum_bounds nfq f b1 b2 b3 ->
  (forall i, i < n -> get u3 i = cadd (get u1 i) (get u2 i)) ->
  wf_bc bc1 n -> wf_bc bc2 n -> wf_bc bc3 n -> bc_rows bc2 = bc_rows bc1 -> bc_rows bc3 = bc_rows bc1 ->
  (forall k, k < length (bc_rows bc1) -> get (bc_vals bc3) k = cadd (get (bc_vals bc1) k) (get (bc_vals bc2) k)) ->
  (forall i, i < n -> get (apply_res bc1 (get_res pb1 bs1 u1) u1 c1) i = c0) ->
  (forall i, i < n -> get (apply_res bc2 (get_res pb2 bs2 u2) u2 c1) i = c0) ->
  forall i, i < n -> get (apply_res bc3 (get_res pb3 bs3 u3) u3 c1) i = c0.
Proof.
  intros K dim nq nfq det inv norm V W f vw ph v1 v2 v3 b1 b2 b3 vj sj xv1 xv2 xv3 xs1 xs2 xs3 pb1 pb2 pb3 bs1 bs2 bs3 u1 u2 u3 bc1 bc2 bc3 n
         WF W1 W2 W3 TJ TS H1 H2 H3 PU PE P1 P2 P3 E1 E2 E3 SC SB US B1 B2 B3 R2 R3 VS S1 S2.
  assert (N1 := ndofs K dim nq nfq det inv norm V W f vw ph v1 b1 vj sj xv1 xs1 pb1 bs1 WF W1 TJ TS H1 PU PE P1 E1).
  assert (N2 := ndofs K dim nq nfq det inv norm V W f vw ph v2 b2 vj sj xv2 xs2 pb2 bs2 WF W2 TJ TS H2 PU PE P2 E2).
  assert (N3 := ndofs K dim nq nfq det inv norm V W f vw ph v3 b3 vj sj xv3 xs3 pb3 bs3 WF W3 TJ TS H3 PU PE P3 E3).
  fold n in N1, N2, N3.
  apply (proj1 (C11_zero_iff (get_res pb1 bs1 u1) u1 B1 (eq_trans (get_res_length pb1 bs1 u1) N1))) in S1.
  apply (proj1 (C11_zero_iff (get_res pb2 bs2 u2) u2 B2 (eq_trans (get_res_length pb2 bs2 u2) N2))) in S2.
  apply (proj2 (C11_zero_iff (get_res pb3 bs3 u3) u3 B3 (eq_trans (get_res_length pb3 bs3 u3) N3))).
  rewrite R2 in S2. rewrite R3. split.
  - intros k Hk. rewrite US by (apply (wb_range B1); apply nth_In; exact Hk). rewrite (proj1 S1 k Hk), (proj1 S2 k Hk), (VS k Hk). reflexivity.
  - intros i Hi Hn. rewrite (C116_superposition K dim nq nfq det inv norm V W f vw ph v1 v2 v3 b1 b2 b3 vj sj xv1 xv2 xv3 xs1 xs2 xs3 pb1 pb2 pb3 bs1 bs2 bs3 u1 u2 u3) by assumption.
    rewrite (proj2 S1 i Hi Hn), (proj2 S2 i Hi Hn). apply add00.
Qed.
Print Assumptions C116_solutions.

(** Reciprocity: for a stress with a symmetric bilinear form, the loads and support reactions of one case do as much work on the
    displacements of the other as the other way round. The load terms may differ in everything. *)
Theorem C116_reciprocity :
  forall (K : CRing) dim nq nfq det inv norm (V1 W1 V2 W2 : Type) (f : fe K) vw1 vw2 (ph1 : physics K V1) (ph2 : physics K V2) v1 v2
         (b1 : list (bdata K W1)) (b2 : list (bdata K W2)) vj1 vj2 sj1 sj2 xv1 xv2 xs1 xs2 pb1 pb2 bs1 bs2 (u1 u2 : list K) rows,
  let n := length (fe_points f) * fe_vec f in
  wf_fes [f] ->
  (forall b, In b b1 -> wf_bdata [f] b) -> (forall b, In b b2 -> wf_bdata [f] b) ->
  (forall u x, length (vj1 u x) = num_local [f] * num_local [f]) -> (forall u x, length (vj2 u x) = num_local [f] * num_local [f]) ->
  (forall u x, length (sj1 u x) = num_local [f] * num_local [f]) -> (forall u x, length (sj2 u x) = num_local [f] * num_local [f]) -> 0 < bs1 -> 0 < bs2 ->
  ph_universal ph1 = None -> ph_extra ph1 = None -> ph_universal ph2 = None -> ph_extra ph2 = None ->
  (forall b, In b b1 -> bp_universal (bd_ph b) = None) -> (forall b, In b b2 -> bp_universal (bd_ph b) = None) ->
  build dim nq nfq det inv norm [f] vw1 ph1 v1 b1 vj1 sj1 xv1 xs1 = Some pb1 ->
  build dim nq nfq det inv norm [f] vw2 ph2 v2 b2 vj2 sj2 xv2 xs2 = Some pb2 ->
  (* symmetric: P1(G) : H = P2(H) : G at every quadrature point *)
  (exists tm1 tm2, stress_of ph1 = Some tm1 /\ stress_of ph2 = Some tm2 /\
     forall c q G H, c < length (fe_cells f) -> q < nq -> dot2 (fe_vec f) dim (tm1 G (v1 c q)) H = dot2 (fe_vec f) dim (tm2 H (v2 c q)) G) ->
  equilibrium n rows (get_res pb1 bs1 u1) -> equilibrium n rows (get_res pb2 bs2 u2) ->
  csub (cadd (body_total dim nq det f ph1 v1 u1 (fun c q m => dot1 (fe_vec f) m (field_at [f] 0 u2 c q)))
             (surface_total dim nfq det inv norm f b1 u1 (fun c e q s => dot1 (fe_vec f) s (face_field_at [f] 0 u2 c e q))))
       (reaction_work n rows (get_res pb1 bs1 u1) u2) =
  csub (cadd (body_total dim nq det f ph2 v2 u2 (fun c q m => dot1 (fe_vec f) m (field_at [f] 0 u1 c q)))
             (surface_total dim nfq det inv norm f b2 u2 (fun c e q s => dot1 (fe_vec f) s (face_field_at [f] 0 u1 c e q))))
       (reaction_work n rows (get_res pb2 bs2 u2) u1).
Proof.
  intros K dim nq nfq det inv norm V1 W1 V2 W2 f vw1 vw2 ph1 ph2 v1 v2 b1 b2 vj1 vj2 sj1 sj2 xv1 xv2 xs1 xs2 pb1 pb2 bs1 bs2 u1 u2 rows n
         WF WB1 WB2 TJ1 TJ2 TS1 TS2 H1 H2 PU1 PE1 PU2 PE2 P1 P2 E1 E2 (tm1 & tm2 & T1 & T2 & SY) Q1 Q2.
  assert (N1 := ndofs K dim nq nfq det inv norm V1 W1 f vw1 ph1 v1 b1 vj1 sj1 xv1 xs1 pb1 bs1 WF WB1 TJ1 TS1 H1 PU1 PE1 P1 E1).
  assert (N2 := ndofs K dim nq nfq det inv norm V2 W2 f vw2 ph2 v2 b2 vj2 sj2 xv2 xs2 pb2 bs2 WF WB2 TJ2 TS2 H2 PU2 PE2 P2 E2).
  fold n in N1, N2.
  assert (RW : forall (R v : list K), equilibrium n rows R -> reaction_work n rows R v = virtual_work n v R).
  { intros R v Q. unfold reaction_work, virtual_work. apply Sum_ext. intros i Hi. destruct (existsb (Nat.eqb i) rows) eqn:X; [apply kcomm|].
    rewrite (Q i Hi); [symmetry; apply kmul0|]. intros Hin. apply Bool.not_true_iff_false in X. apply X. apply existsb_exists. exists i. split; [exact Hin|apply Nat.eqb_refl]. }
  apply betti_ring with (tensor_volume dim nq det inv [f] tm1 v1 u1 u2).
  - rewrite (RW _ _ Q1). rewrite <- N1.
    rewrite (work_terms K dim nq nfq det inv norm V1 W1 f vw1 ph1 v1 b1 vj1 sj1 xv1 xs1 pb1 bs1 WF WB1 TJ1 TS1 H1 PU1 PE1 P1 E1).
    fold (stress_of ph1). rewrite T1. reflexivity.
  - rewrite (RW _ _ Q2). rewrite <- N2.
    rewrite (work_terms K dim nq nfq det inv norm V2 W2 f vw2 ph2 v2 b2 vj2 sj2 xv2 xs2 pb2 bs2 WF WB2 TJ2 TS2 H2 PU2 PE2 P2 E2).
    fold (stress_of ph2). rewrite T2. cbn [opt_term].
    assert (T : tensor_volume dim nq det inv [f] tm2 v2 u2 u1 = tensor_volume dim nq det inv [f] tm1 v1 u1 u2).
    { unfold tensor_volume, over_cells. apply Sum_ext. intros c Hc. apply Sum_ext. intros q Hq. f_equal. change (fe_at [f] 0) with f. symmetry. apply (SY c q _ _ Hc Hq). }
    rewrite T. reflexivity.
Qed.
Print Assumptions C116_reciprocity.

(** ** Concrete case: the triangles of C113 with a linear stress; parameters are the modulus and the body force at the quadrature
    points and the traction on one edge. *)
Definition li_tm : tensor_map ZK (list Z) := fun G y => mo_tm G (nth 0 y 0%Z).
Definition li_mm : mass_map ZK (list Z) := fun _ _ y => [nth 1 y 0; nth 2 y 0]%Z.
Definition li_ph : physics ZK (list Z) := Build_physics ZK (list Z) None None (Some li_mm) (Some li_tm) None None.
Definition li_bnd (t : Z) : list (bdata ZK Z) := [Build_bdata ZK Z [(0, 0)] (Build_bphysics ZK Z None None (Some (fun _ _ y => [y; 5 * y]%Z))) [fun _ => t]].
Definition li_build (y : list Z) (t : Z) :=
  build (K := ZK) 2 1 1 mo_det mo_inv (fun _ => 1%Z) [mo_fe] FULL li_ph (fun _ _ => y) (li_bnd t) (fun _ _ => repeat 0%Z 36) (fun _ _ => repeat 0%Z 36)
    (vinp_of 2 mo_det mo_inv [mo_fe] (fun c q => []) 0) (finp_of 2 mo_det mo_inv (fun _ => 1%Z) [mo_fe] (fun _ => 0%Z) (0, 0)).
Definition li_u2 : list Z := [2; -1; 1; 0; 0; 0; 0; 0]%Z.
Definition li_u3 : list Z := [3; 1; 1; 0; 0; 0; 0; 0]%Z.
Definition li_y1 : list Z := [3; -12; -33]%Z.
Definition li_y2 : list Z := [3; -33; 23]%Z.
Definition li_y3 : list Z := [3; -45; -10]%Z.
Lemma li_sum_case : sum_case (K := ZK) 2 1 mo_fe li_ph (fun _ _ => li_y1) (fun _ _ => li_y2) (fun _ _ => li_y3).
Proof.
  intros c q _ _. split.
  - intros tm G1 G2 k d [= <-] Hk Hd. change (fe_vec mo_fe) with 2 in *. unfold li_tm, mo_tm. change (nth 0 li_y1 0%Z) with 3%Z. change (nth 0 li_y2 0%Z) with 3%Z. change (nth 0 li_y3 0%Z) with 3%Z.
    rewrite !(get2_tab ZK 2 2) by assumption. unfold add2. rewrite !(get2_tab ZK 2 2) by assumption. cbn [cadd ZK carrier].
    generalize (get2 (K := ZK) G1 k d : Z) (get2 (K := ZK) G1 d k : Z) (get2 (K := ZK) G2 k d : Z) (get2 (K := ZK) G2 d k : Z). cbn [carrier ZK]. intros. match goal with |- @eq _ ?l ?r => change (@eq Z l r) end. ring.
  - intros mm a1 a2 x k [= <-] Hk. change (fe_vec mo_fe) with 2 in *. destruct k as [|[|k]]; [reflexivity|reflexivity|lia].
Qed.
Lemma li_sum_bounds : sum_bounds (K := ZK) 1 mo_fe (li_bnd 4%Z) (li_bnd 7%Z) (li_bnd 11%Z).
Proof.
  constructor; [|constructor]. constructor; [|constructor]. intros sm q a1 a2 x k [= <-] _ Hk. change (fe_vec mo_fe) with 2 in *.
  destruct k as [|[|k]]; [reflexivity|reflexivity|lia].
Qed.
Lemma li_symmetric G H : dot2 (K := ZK) 2 2 (li_tm G li_y1) H = dot2 (K := ZK) 2 2 (li_tm H li_y2) G.
Proof.
  unfold li_tm. change (nth 0 li_y1 0%Z) with 3%Z. change (nth 0 li_y2 0%Z) with 3%Z.
  assert (E : forall G, mo_tm G 3%Z = [[3 * (get2 (K := ZK) G 0 0 + get2 (K := ZK) G 0 0); 3 * (get2 (K := ZK) G 0 1 + get2 (K := ZK) G 1 0)];
     [3 * (get2 (K := ZK) G 1 0 + get2 (K := ZK) G 0 1); 3 * (get2 (K := ZK) G 1 1 + get2 (K := ZK) G 1 1)]]%Z) by reflexivity.
  rewrite !E.
  assert (D : forall a b c d (X : list (list Z)), dot2 (K := ZK) 2 2 [[a; b]; [c; d]] X = (a * get2 (K := ZK) X 0 0 + b * get2 (K := ZK) X 0 1 + c * get2 (K := ZK) X 1 0 + d * get2 (K := ZK) X 1 1)%Z).
  { intros a b c d X. set (x := get2 (K := ZK) X 0 0 : Z). set (y := get2 (K := ZK) X 0 1 : Z). set (z := get2 (K := ZK) X 1 0 : Z). set (w := get2 (K := ZK) X 1 1 : Z).
    change (dot2 (K := ZK) 2 2 [[a; b]; [c; d]] X) with (a * x + (b * y + 0) + (c * z + (d * w + 0) + 0))%Z. match goal with |- @eq _ ?l ?r => change (@eq Z l r) end. ring. }
  rewrite !D. cbn [carrier ZK]. generalize (get2 (K := ZK) G 0 0 : Z) (get2 (K := ZK) G 0 1 : Z) (get2 (K := ZK) G 1 0 : Z) (get2 (K := ZK) G 1 1 : Z)
    (get2 (K := ZK) H 0 0 : Z) (get2 (K := ZK) H 0 1 : Z) (get2 (K := ZK) H 1 0 : Z) (get2 (K := ZK) H 1 1 : Z). cbn [carrier ZK]. intros. match goal with |- @eq _ ?l ?r => change (@eq Z l r) end. ring.
Qed.
Example C116_example :
  wf_fes [mo_fe] /\ (forall t b, In b (li_bnd t) -> wf_bdata [mo_fe] b) /\
  sum_case (K := ZK) 2 1 mo_fe li_ph (fun _ _ => li_y1) (fun _ _ => li_y2) (fun _ _ => li_y3) /\ sum_bounds (K := ZK) 1 mo_fe (li_bnd 4%Z) (li_bnd 7%Z) (li_bnd 11%Z) /\
  (forall i, i < 8 -> get (K := ZK) li_u3 i = (get (K := ZK) mo_u i + get (K := ZK) li_u2 i)%Z) /\
  (forall c q G H, c < 3 -> q < 1 -> dot2 (K := ZK) 2 2 (li_tm G li_y1) H = dot2 (K := ZK) 2 2 (li_tm H li_y2) G) /\
  exists pb1 pb2 pb3, li_build li_y1 4%Z = Some pb1 /\ li_build li_y2 7%Z = Some pb2 /\ li_build li_y3 11%Z = Some pb3 /\
    equilibrium (K := ZK) 8 [2; 3; 4; 5; 6; 7] (get_res pb1 1 mo_u) /\ equilibrium (K := ZK) 8 [2; 3; 4; 5; 6; 7] (get_res pb2 1 li_u2) /\
    get_res pb1 1 mo_u = [0; 0; -8; -13; -12; -33; -12; -33]%Z /\
    get_res pb2 1 li_u2 = [0; 0; -17; 56; -39; 24; -36; 24]%Z /\
    get_res pb3 1 li_u3 = [0; 0; -25; 43; -51; -9; -48; -9]%Z.
Proof.
  split. { intros f [<-|[]]. split; [reflexivity|]. intros c [<-|[<-|[<-|[]]]]; (split; [reflexivity|]); cbn; intros n Hn; lia. }
  split. { intros t b [<-|[]]. split; [reflexivity|]. intros cg [<-|[]]. cbn. lia. }
  split; [exact li_sum_case|]. split; [exact li_sum_bounds|].
  split. { intros i Hi. do 8 (destruct i as [|i]; [reflexivity|]). lia. }
  split. { intros c q G H _ _. apply li_symmetric. }
  do 3 eexists. split; [reflexivity|]. split; [reflexivity|]. split; [reflexivity|].
  assert (EQ : forall R : list Z, nth 0 R 0%Z = 0%Z -> nth 1 R 0%Z = 0%Z -> equilibrium (K := ZK) 8 [2; 3; 4; 5; 6; 7] R).
  { intros R A B i Hi Hn. destruct i as [|[|i]]; [exact A|exact B|]. exfalso. apply Hn. cbn. lia. }
  split; [apply EQ; vm_compute; reflexivity|]. split; [apply EQ; vm_compute; reflexivity|].
  repeat split; vm_compute; reflexivity.
Qed.
