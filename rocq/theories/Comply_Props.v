(** C118: how the compliance changes with the material and the supports. *)
From Coq Require Import List Arith Lia ZArith.
From Verif Require Import Base Csr_Model Assembly_Model AssemblyMain_Proofs Dof_Model Dof_Spec Dof_Proofs Bc_Model Bc_Proofs Bc_Props
                          Kernel_Model Kernel_Spec Kernel_Proofs Kernel_Props Response_Model Response_Props Patch_Props Moment_Props Potential_Props Linear_Props Stiffness_Props.
Import ListNotations.

(** ** Specification *)
Section Spec.
  Variable K : CRing.
  Local Open Scope ring_K.
  Variables (dim nq nfq : nat) (det : list (list K) -> K) (inv : list (list K) -> list (list K)) (V W : Type) (f : fe K).
  (** Linear elastic stress: additive, with a symmetric non-negative form. *)
  Definition elastic (le : K -> K -> Prop) (tm : tensor_map K V) (vars : nat -> nat -> V) : Prop :=
    forall c q, c < length (fe_cells f) -> q < nq -> let y := vars c q in
    (forall G H k d, k < fe_vec f -> d < dim -> get2 (tm (sub2 (fe_vec f) dim G H) y) k d = get2 (tm G y) k d - get2 (tm H y) k d) /\
    (forall G H, dot2 (fe_vec f) dim (tm G y) H = dot2 (fe_vec f) dim (tm H y) G) /\
    (forall G, le 0 (dot2 (fe_vec f) dim (tm G y) G)).
  (** Loads that do not follow the body. *)
  Definition dead_loads (bnd : list (bdata K W)) : Prop :=
    forall b sm w q a a' x k, In b bnd -> In w (bd_vars b) -> bp_map (bd_ph b) = Some sm -> q < nfq -> k < fe_vec f -> get (sm a x (w q)) k = get (sm a' x (w q)) k.
  (** Internal work of a field: the integral of stress times gradient. *)
  Definition internal_work (tm : tensor_map K V) (vars : nat -> nat -> V) (u : list K) : K := tensor_volume dim nq det inv [f] tm vars u u.
  (** [u] is the displacement of a problem with this stress and these loads on the mesh [f]: it vanishes at the supports [rows] and is in
      equilibrium everywhere else.  The problem has no body force; how it is built and evaluated (view, batch size, tangents) is arbitrary. *)
  Definition response (norm : list K -> K) (bnd : list (bdata K W)) (tm : tensor_map K V) (vars : nat -> nat -> V) (rows : list nat) (u : list K) : Prop :=
    exists vw ph vj sj xv xs pb bs,
    (forall u x, length (vj u x) = num_local [f] * num_local [f])%nat /\ (forall u x, length (sj u x) = num_local [f] * num_local [f])%nat /\ 0 < bs /\
    ph_universal ph = None /\ ph_extra ph = None /\ ph_mass ph = None /\ stress_of ph = Some tm /\
    build dim nq nfq det inv norm [f] vw ph vars bnd vj sj xv xs = Some pb /\
    equilibrium (length (fe_points f) * fe_vec f)%nat rows (get_res pb bs u) /\ (forall i, In i rows -> get u i = 0).
End Spec.
Arguments response {K} dim nq nfq det inv {V W}. Arguments elastic {K} dim nq {V}. Arguments dead_loads {K} nfq {W}. Arguments internal_work {K} dim nq det inv {V}.

Section Core.
  Variable K : CRing.
  Add Ring KR118 : (cth K).
  Local Open Scope ring_K.
  Variable le : K -> K -> Prop.
  Variables (dim nq nfq : nat) (det : list (list K) -> K) (inv : list (list K) -> list (list K)) (norm : list K -> K) (W : Type).
  Variables (f : fe K) (bnd : list (bdata K W)).
  Hypothesis (OR : ordered le) (WF : wf_fes [f]) (WB : forall b, In b bnd -> wf_bdata [f] b).
  Hypothesis (PB : forall b, In b bnd -> bp_universal (bd_ph b) = None).
  Hypothesis (JP : forall c q, c < length (fe_cells f) -> q < nq -> le 0 (JxW dim det f c q)).
  Hypothesis (DL : dead_loads nfq f bnd).
  (** Work of the surface terms of the residual. *)
  Definition surf (u v : list K) : K := sumf (fun b => opt_term (bp_map (bd_ph b)) (fun sm => map_surface dim nfq det inv norm [f] sm b u v)) bnd.
  Lemma surf_dead u u' v : surf u v = surf u' v.
  Proof using DL.
    unfold surf. apply sumf_ext. intros b Hb. destruct (bp_map (bd_ph b)) as [sm|] eqn:E; [|reflexivity]. cbn [opt_term]. unfold map_surface, over_faces.
    apply sumf_ext. intros [[c e] w] Hp. cbn [fst snd]. apply Sum_ext. intros q Hq. f_equal. unfold dot1. apply Sum_ext. intros k Hk. f_equal.
    apply (DL b sm w q _ _ _ k Hb (in_combine_r _ _ _ _ Hp) E Hq Hk).
  Qed.
  Lemma compliance_surf u : dynamic_compliance dim nfq det inv norm [f] bnd u (map (@bd_vars K W) bnd) = 0 - surf u u.
  Proof using PB.
    rewrite C73_load_work; [|reflexivity|exact PB]. f_equal. unfold surf. clear WB DL. induction bnd as [|b l IH]; [reflexivity|]. cbn [map combine sumf].
    rewrite IH by (intros b' Hb'; apply PB; right; exact Hb'). f_equal. unfold surface_terms, with_vars. change (1 <? length [f])%nat with false. cbv zeta. cbn [fst snd].
    destruct b as [i p v]. cbn [bd_ph bd_inds bd_vars]. rewrite (PB _ (or_introl eq_refl) : bp_universal p = None). cbn [opt_term]. ring.
  Qed.
  Section Work.
    Variables (V : Type) (tm : tensor_map K V) (vars : nat -> nat -> V).
    Hypothesis (EL : elastic dim nq f le tm vars).
    Local Notation T := (tensor_volume dim nq det inv [f] tm vars).
    Lemma work_diff u w : T (vdiff K f u w) (vdiff K f u w) = T u u - T u w - (T w u - T w w).
    Proof using WF EL.
      unfold tensor_volume, over_cells. rewrite <- !Sum_sub. apply Sum_ext. intros c Hc. rewrite <- !Sum_sub. apply Sum_ext. intros q Hq.
      change (fe_at [f] 0) with f. rewrite (grad_vdiff K dim inv f WF u w c q Hc). set (G := grad_at dim inv [f] 0 u c q). set (H := grad_at dim inv [f] 0 w c q).
      assert (D : dot2 (fe_vec f) dim (tm (sub2 (fe_vec f) dim G H) (vars c q)) (sub2 (fe_vec f) dim G H) =
                  dot2 (fe_vec f) dim (tm G (vars c q)) G - dot2 (fe_vec f) dim (tm G (vars c q)) H - (dot2 (fe_vec f) dim (tm H (vars c q)) G - dot2 (fe_vec f) dim (tm H (vars c q)) H)).
      { unfold dot2. rewrite <- !Sum_sub. apply Sum_ext. intros k Hk. rewrite <- !Sum_sub. apply Sum_ext. intros d Hd.
        rewrite (proj1 (EL c q Hc Hq) G H k d Hk Hd). unfold sub2. rewrite (get2_tab K _ dim) by assumption. ring. }
      rewrite D. ring.
    Qed.
    Lemma work_sym u w : T u w = T w u.
    Proof using EL. unfold tensor_volume, over_cells. apply Sum_ext. intros c Hc. apply Sum_ext. intros q Hq. f_equal. apply (proj1 (proj2 (EL c q Hc Hq))). Qed.
    Lemma work_nonneg u : le 0 (T u u).
    Proof using OR JP EL.
      unfold tensor_volume, over_cells. apply (Sum_nonneg K le OR). intros c Hc. apply (Sum_nonneg K le OR). intros q Hq. apply (le_mul _ _ OR); [apply (JP c q Hc Hq)|].
      apply (proj2 (proj2 (EL c q Hc Hq))).
    Qed.
  End Work.
  Section Equation.
    Variables (V : Type) (vw : view) (ph : physics K V) (vars : nat -> nat -> V).
    Variables (vj : list K -> vinp K V -> list K) (sj : list K -> finp K W -> list K) (xv : vinp K V) (xs : finp K W).
    Variables (pb : problem K (vinp K V) (finp K W)) (bs0 : nat) (tm : tensor_map K V).
    Hypothesis (TJ : forall u x, length (vj u x) = (num_local [f] * num_local [f])%nat).
    Hypothesis (TS : forall u x, length (sj u x) = (num_local [f] * num_local [f])%nat).
    Hypothesis (Hbs : 0 < bs0).
    Hypothesis (PU : ph_universal ph = None) (PE : ph_extra ph = None) (PM : ph_mass ph = None) (PT : stress_of ph = Some tm).
    Hypothesis (EB : build dim nq nfq det inv norm [f] vw ph vars bnd vj sj xv xs = Some pb).
    (** The weak equation of an equilibrium, tested with any field that vanishes at the supports. *)
    Lemma weak_equation u v rows : equilibrium (length (fe_points f) * fe_vec f)%nat rows (get_res pb bs0 u) -> (forall i, In i rows -> get v i = 0) ->
      tensor_volume dim nq det inv [f] tm vars u v = 0 - surf v v.
    Proof using WF WB PB DL TJ TS Hbs PU PE PM PT EB.
      intros Q Z. pose proof (work_terms K dim nq nfq det inv norm V W f vw ph vars bnd vj sj xv xs pb bs0 WF WB TJ TS Hbs PU PE PB EB u v) as E.
      rewrite (ndofs K dim nq nfq det inv norm V W f vw ph vars bnd vj sj xv xs pb bs0 WF WB TJ TS Hbs PU PE PB EB) in E.
      assert (VZ : virtual_work (length (fe_points f) * fe_vec f)%nat v (get_res pb bs0 u) = 0).
      { unfold virtual_work. apply Sum_zero. intros i Hi. destruct (in_dec Nat.eq_dec i rows) as [Hin|Hn]; [rewrite (Z i Hin); ring|rewrite (Q i Hi Hn); ring]. }
      rewrite VZ, PM in E. fold (stress_of ph) in E. rewrite PT in E. cbn [opt_term] in E. fold (surf u v) in E. rewrite (surf_dead u v v) in E.
      set (t := tensor_volume dim nq det inv [f] tm vars u v) in *. set (s := surf v v) in *.
      replace t with (0 + t + s - s) by ring. rewrite <- E. reflexivity.
    Qed.
  End Equation.
  Lemma bound_ring (C1 C2 A B : K) : le 0 (C1 - C2 - (C2 - B)) -> A = C2 -> le (A - B) (C1 - C2).
  Proof using OR. intros H ->. apply (sub_le0 K le OR). replace (C1 - C2 - (C2 - B)) with (C1 - C2 - (C2 - B)) by ring. exact H. Qed.
  Lemma flip_ring (A B C D : K) : le (B - A) (D - C) -> le (C - D) (A - B).
  Proof using OR. intros H. apply (sub_le0 K le OR). apply (le0_sub K le OR) in H. replace (A - B - (C - D)) with (D - C - (B - A)) by ring. exact H. Qed.
  Lemma mean_ring (C1 C2 C3 A1 A2 A3 s t : K) : le 0 s -> le 0 t -> (s + t) * A3 = s * A1 + t * A2 -> le (A3 - A1) (C1 - C3) -> le (A3 - A2) (C2 - C3) -> le ((s + t) * C3) (s * C1 + t * C2).
  Proof using OR.
    intros Hs Ht M B1 B2. apply (le0_sub K le OR) in B1. apply (le0_sub K le OR) in B2.
    pose proof (le_add _ _ OR _ _ _ _ (le_mul _ _ OR _ _ Hs B1) (le_mul _ _ OR _ _ Ht B2)) as P. apply (sub_le0 K le OR).
    replace (s * C1 + t * C2 - (s + t) * C3) with (s * (C1 - C3 - (A3 - A1)) + t * (C2 - C3 - (A3 - A2))); [replace (0 + 0) with (@c0 K) in P by ring; exact P|].
    replace (s * (C1 - C3 - (A3 - A1)) + t * (C2 - C3 - (A3 - A2))) with (s * C1 + t * C2 - (s + t) * C3 - (s + t) * A3 + (s * A1 + t * A2)) by ring.
    rewrite <- M. ring.
  Qed.
  Lemma swap_ring (r j a : K) : r * (j * a) = j * (r * a). Proof using. ring. Qed.
  Lemma dist_ring (j a b s t : K) : j * (s * a + t * b) = s * (j * a) + t * (j * b). Proof using. ring. Qed.
End Core.

(** ** Theorems *)

(** Two designs on one mesh under the same loads; the second may also have more supports. The second saves at least as much compliance as
    its own displacement costs more internal work in its own material than in the first. *)
Theorem C118_bound :
  forall (K : CRing) (le : K -> K -> Prop) dim nq nfq det inv norm (V1 V2 W : Type) (f : fe K) (bnd : list (bdata K W)) tm1 tm2 (y1 : nat -> nat -> V1) (y2 : nat -> nat -> V2) (u1 u2 : list K) rows1 rows2,
  let C u := dynamic_compliance dim nfq det inv norm [f] bnd u (map (@bd_vars K W) bnd) in
  ordered le -> wf_fes [f] -> (forall b, In b bnd -> wf_bdata [f] b) -> (forall b, In b bnd -> bp_universal (bd_ph b) = None) ->
  (forall c q, c < length (fe_cells f) -> q < nq -> le c0 (JxW dim det f c q)) -> dead_loads nfq f bnd ->
  elastic dim nq f le tm1 y1 -> response dim nq nfq det inv f norm bnd tm1 y1 rows1 u1 -> response dim nq nfq det inv f norm bnd tm2 y2 rows2 u2 -> incl rows1 rows2 ->
  le (csub (internal_work dim nq det inv f tm2 y2 u2) (internal_work dim nq det inv f tm1 y1 u2)) (csub (C u1) (C u2)).
Proof.
  intros K le dim nq nfq det inv norm V1 V2 W f bnd tm1 tm2 y1 y2 u1 u2 rows1 rows2 C OR WF WB PB JP DL EL1
         (vw1 & ph1 & vj1 & sj1 & xv1 & xs1 & pb1 & bs1 & TJ1 & TS1 & H1 & PU1 & PE1 & PM1 & PT1 & E1 & Q1 & Z1)
         (vw2 & ph2 & vj2 & sj2 & xv2 & xs2 & pb2 & bs2 & TJ2 & TS2 & H2 & PU2 & PE2 & PM2 & PT2 & E2 & Q2 & Z2) IN.
  pose proof (weak_equation K dim nq nfq det inv norm W f bnd WF WB PB DL V1 vw1 ph1 y1 vj1 sj1 xv1 xs1 pb1 bs1 tm1 TJ1 TS1 H1 PU1 PE1 PM1 PT1 E1 u1 u1 rows1 Q1 Z1) as W11.
  pose proof (weak_equation K dim nq nfq det inv norm W f bnd WF WB PB DL V1 vw1 ph1 y1 vj1 sj1 xv1 xs1 pb1 bs1 tm1 TJ1 TS1 H1 PU1 PE1 PM1 PT1 E1 u1 u2 rows1 Q1 (fun i Hi => Z2 i (IN i Hi))) as W12.
  pose proof (weak_equation K dim nq nfq det inv norm W f bnd WF WB PB DL V2 vw2 ph2 y2 vj2 sj2 xv2 xs2 pb2 bs2 tm2 TJ2 TS2 H2 PU2 PE2 PM2 PT2 E2 u2 u2 rows2 Q2 Z2) as W22.
  unfold C. rewrite !(compliance_surf K dim nfq det inv norm W f bnd PB).
  pose proof (work_nonneg K le dim nq det inv f OR JP V1 tm1 y1 EL1 (vdiff K f u1 u2)) as P.
  rewrite (work_diff K le dim nq det inv f WF V1 tm1 y1 EL1 u1 u2), W11, W12, (work_sym K le dim nq det inv f V1 tm1 y1 EL1 u2 u1), W12 in P.
  apply (bound_ring K le OR); [exact P|exact W22].
Qed.
Print Assumptions C118_bound.

(** A design that is at least as stiff everywhere, with at least the same supports, has no more compliance. *)
Theorem C118_monotone :
  forall (K : CRing) (le : K -> K -> Prop) dim nq nfq det inv norm (V1 V2 W : Type) (f : fe K) (bnd : list (bdata K W)) tm1 tm2 (y1 : nat -> nat -> V1) (y2 : nat -> nat -> V2) (u1 u2 : list K) rows1 rows2,
  let C u := dynamic_compliance dim nfq det inv norm [f] bnd u (map (@bd_vars K W) bnd) in
  ordered le -> wf_fes [f] -> (forall b, In b bnd -> wf_bdata [f] b) -> (forall b, In b bnd -> bp_universal (bd_ph b) = None) ->
  (forall c q, c < length (fe_cells f) -> q < nq -> le c0 (JxW dim det f c q)) -> dead_loads nfq f bnd ->
  elastic dim nq f le tm1 y1 -> response dim nq nfq det inv f norm bnd tm1 y1 rows1 u1 -> response dim nq nfq det inv f norm bnd tm2 y2 rows2 u2 -> incl rows1 rows2 ->
  (forall c q G, c < length (fe_cells f) -> q < nq -> le (dot2 (fe_vec f) dim (tm1 G (y1 c q)) G) (dot2 (fe_vec f) dim (tm2 G (y2 c q)) G)) ->
  le (C u2) (C u1).
Proof.
  intros K le dim nq nfq det inv norm V1 V2 W f bnd tm1 tm2 y1 y2 u1 u2 rows1 rows2 C OR WF WB PB JP DL EL1 R1 R2 IN ST.
  pose proof (C118_bound K le dim nq nfq det inv norm V1 V2 W f bnd tm1 tm2 y1 y2 u1 u2 rows1 rows2 OR WF WB PB JP DL EL1 R1 R2 IN) as B. cbv zeta in B.
  apply (sub_le0 K le OR). apply (le_trans _ _ OR) with (2 := B). unfold internal_work. apply (le0_sub K le OR).
  unfold tensor_volume, over_cells. apply (Sum_le K le OR). intros c Hc. apply (Sum_le K le OR). intros q Hq.
  apply (le_mul_l K le OR); [apply (JP c q Hc Hq)|apply (ST c q _ Hc Hq)].
Qed.
Print Assumptions C118_monotone.

(** Two-sided bounds on the change of compliance between two designs with the same supports. *)
Theorem C118_sensitivity :
  forall (K : CRing) (le : K -> K -> Prop) dim nq nfq det inv norm (V1 V2 W : Type) (f : fe K) (bnd : list (bdata K W)) tm1 tm2 (y1 : nat -> nat -> V1) (y2 : nat -> nat -> V2) (u1 u2 : list K) rows,
  let C u := dynamic_compliance dim nfq det inv norm [f] bnd u (map (@bd_vars K W) bnd) in
  ordered le -> wf_fes [f] -> (forall b, In b bnd -> wf_bdata [f] b) -> (forall b, In b bnd -> bp_universal (bd_ph b) = None) ->
  (forall c q, c < length (fe_cells f) -> q < nq -> le c0 (JxW dim det f c q)) -> dead_loads nfq f bnd ->
  elastic dim nq f le tm1 y1 -> elastic dim nq f le tm2 y2 ->
  response dim nq nfq det inv f norm bnd tm1 y1 rows u1 -> response dim nq nfq det inv f norm bnd tm2 y2 rows u2 ->
  le (csub (internal_work dim nq det inv f tm2 y2 u2) (internal_work dim nq det inv f tm1 y1 u2)) (csub (C u1) (C u2)) /\
  le (csub (C u1) (C u2)) (csub (internal_work dim nq det inv f tm2 y2 u1) (internal_work dim nq det inv f tm1 y1 u1)).
Proof.
  intros K le dim nq nfq det inv norm V1 V2 W f bnd tm1 tm2 y1 y2 u1 u2 rows C OR WF WB PB JP DL EL1 EL2 R1 R2. split.
  - exact (C118_bound K le dim nq nfq det inv norm V1 V2 W f bnd tm1 tm2 y1 y2 u1 u2 rows rows OR WF WB PB JP DL EL1 R1 R2 (incl_refl rows)).
  - apply (flip_ring K le OR).
    exact (C118_bound K le dim nq nfq det inv norm V2 V1 W f bnd tm2 tm1 y2 y1 u2 u1 rows rows OR WF WB PB JP DL EL2 R2 R1 (incl_refl rows)).
Qed.
Print Assumptions C118_sensitivity.

(** Compliance is a convex function of the stiffness: a design whose internal work is the weighted mean of two others' (weights [s] and [t]), with
    the supports of both, has at most the weighted mean of their compliances. *)
Theorem C118_convex :
  forall (K : CRing) (le : K -> K -> Prop) dim nq nfq det inv norm (V1 V2 V3 W : Type) (f : fe K) (bnd : list (bdata K W)) tm1 tm2 tm3 (y1 : nat -> nat -> V1) (y2 : nat -> nat -> V2) (y3 : nat -> nat -> V3) (u1 u2 u3 : list K) rows1 rows2 rows3 (s t : K),
  let C u := dynamic_compliance dim nfq det inv norm [f] bnd u (map (@bd_vars K W) bnd) in
  ordered le -> wf_fes [f] -> (forall b, In b bnd -> wf_bdata [f] b) -> (forall b, In b bnd -> bp_universal (bd_ph b) = None) ->
  (forall c q, c < length (fe_cells f) -> q < nq -> le c0 (JxW dim det f c q)) -> dead_loads nfq f bnd ->
  elastic dim nq f le tm1 y1 -> elastic dim nq f le tm2 y2 ->
  response dim nq nfq det inv f norm bnd tm1 y1 rows1 u1 -> response dim nq nfq det inv f norm bnd tm2 y2 rows2 u2 -> response dim nq nfq det inv f norm bnd tm3 y3 rows3 u3 ->
  incl rows1 rows3 -> incl rows2 rows3 -> le c0 s -> le c0 t ->
  (forall c q G, c < length (fe_cells f) -> q < nq -> cmul (cadd s t) (dot2 (fe_vec f) dim (tm3 G (y3 c q)) G) =
     cadd (cmul s (dot2 (fe_vec f) dim (tm1 G (y1 c q)) G)) (cmul t (dot2 (fe_vec f) dim (tm2 G (y2 c q)) G))) ->
  le (cmul (cadd s t) (C u3)) (cadd (cmul s (C u1)) (cmul t (C u2))).
Proof.
  intros K le dim nq nfq det inv norm V1 V2 V3 W f bnd tm1 tm2 tm3 y1 y2 y3 u1 u2 u3 rows1 rows2 rows3 s t C OR WF WB PB JP DL EL1 EL2 R1 R2 R3 I1 I2 Hs Ht MX.
  pose proof (C118_bound K le dim nq nfq det inv norm V1 V3 W f bnd tm1 tm3 y1 y3 u1 u3 rows1 rows3 OR WF WB PB JP DL EL1 R1 R3 I1) as B1.
  pose proof (C118_bound K le dim nq nfq det inv norm V2 V3 W f bnd tm2 tm3 y2 y3 u2 u3 rows2 rows3 OR WF WB PB JP DL EL2 R2 R3 I2) as B2.
  cbv zeta in B1, B2. fold (C u1) (C u2) (C u3) in B1, B2. apply (mean_ring K le OR) with (4 := B1) (5 := B2); [exact Hs|exact Ht|].
  unfold internal_work, tensor_volume, over_cells. rewrite <- !Sum_mul_l, <- Sum_add. apply Sum_ext. intros c Hc. rewrite <- !Sum_mul_l, <- Sum_add. apply Sum_ext. intros q Hq.
  change (fe_at [f] 0) with f. rewrite swap_ring, (MX c q _ Hc Hq). apply dist_ring.
Qed.
Print Assumptions C118_convex.

(** ** Concrete case: two bars in a row pulled at the right end by a force of 12.  First design: stiffnesses 1 and 2; second: 2 and 3;
    third: the first with the middle node held as well; fourth: 3 and 4, so that the second is the mean of the first and the fourth. *)
Definition co_sm : surface_map ZK Z := fun _ _ y => [y].
Definition co_ph : physics ZK Z := Build_physics ZK Z None None None (Some st_lt) None None.
Definition co_bnd : list (bdata ZK Z) := [Build_bdata ZK Z [(1, 1)] (Build_bphysics ZK Z None None (Some co_sm)) [fun _ => (-12)%Z]].
Definition co_y1 (c q : nat) : Z := Z.of_nat c + 1.
Definition co_y2 (c q : nat) : Z := Z.of_nat c + 2.
Definition co_y4 (c q : nat) : Z := Z.of_nat c + 3.
Definition co_build (y : nat -> nat -> Z) :=
  build (K := ZK) 1 1 1 st_det st_inv (fun _ => 1%Z) [st_fe] FULL co_ph y co_bnd (fun _ _ => [0; 0; 0; 0]%Z) (fun _ _ => [0; 0; 0; 0]%Z)
    (vinp_of 1 st_det st_inv [st_fe] (fun c q => 0%Z) 0) (finp_of 1 st_det st_inv (fun _ => 1%Z) [st_fe] (fun _ => 0%Z) (0, 0)).
Lemma co_elastic y : (forall c q, (0 <= y c q)%Z) -> elastic (K := ZK) 1 1 st_fe Z.le st_lt y.
Proof.
  intros Y c q _ _. cbv zeta. specialize (Y c q). revert Y. generalize (y c q). clear y. intros y Y. change (fe_vec st_fe) with 1. split; [|split].
  - intros G H k d Hk Hd. assert (k = 0) as -> by lia. assert (d = 0) as -> by lia. unfold st_lt, sub2. rewrite (get2_tab ZK 1 1) by lia.
    generalize (get2 (K := ZK) G 0 0 : Z) (get2 (K := ZK) H 0 0 : Z). cbn [carrier ZK]. intros g h.
    match goal with |- @eq _ ?l ?r => change (@eq Z (y * (g - h))%Z (y * g - y * h)%Z) end. ring.
  - intros G H. unfold st_lt. rewrite !st_dot2. generalize (get2 (K := ZK) G 0 0 : Z) (get2 (K := ZK) H 0 0 : Z). cbn [carrier ZK]. intros g h. match goal with |- @eq _ ?l ?r => change (@eq Z l r) end. ring.
  - intros G. unfold st_lt. rewrite !st_dot2. generalize (get2 (K := ZK) G 0 0 : Z). cbn [carrier ZK]. intros g. change (0 <= y * g * g)%Z. nia.
Qed.
Lemma co_response y rows u pb : co_build y = Some pb ->
  (forallb (fun i => existsb (Nat.eqb i) rows || Z.eqb (get (K := ZK) (get_res pb 1 u) i) 0) [0; 1; 2] && forallb (fun i => Z.eqb (get (K := ZK) u i) 0) rows = true)%bool ->
  response (K := ZK) 1 1 1 st_det st_inv st_fe (fun _ => 1%Z) co_bnd st_lt y rows u.
Proof.
  intros E H. apply andb_prop in H. destruct H as [H1 H2]. rewrite forallb_forall in H1, H2.
  do 8 eexists. split; [|split; [|split; [|split; [|split; [|split; [|split; [|split; [exact E|split]]]]]]]]; try reflexivity.
  - exact (le_n 1).
  - intros i Hi Hn. assert (I : In i [0; 1; 2]) by (change (i < 3) in Hi; cbn; lia). specialize (H1 i I). apply Bool.orb_prop in H1. destruct H1 as [H1|H1].
    + apply existsb_exists in H1. destruct H1 as (x & Hx & Ex). apply Nat.eqb_eq in Ex. subst x. contradiction.
    + apply Z.eqb_eq in H1. exact H1.
  - intros i Hi. apply Z.eqb_eq. exact (H2 i Hi).
Qed.
Example C118_example :
  let C u := dynamic_compliance (K := ZK) 1 1 st_det st_inv (fun _ => 1%Z) [st_fe] co_bnd u (map (@bd_vars ZK Z) co_bnd) in
  wf_fes [st_fe] /\ (forall b, In b co_bnd -> wf_bdata [st_fe] b) /\ dead_loads (K := ZK) 1 st_fe co_bnd /\
  (forall c q, c < 2 -> q < 1 -> (0 <= JxW (K := ZK) 1 st_det st_fe c q)%Z) /\
  elastic (K := ZK) 1 1 st_fe Z.le st_lt co_y1 /\ elastic (K := ZK) 1 1 st_fe Z.le st_lt co_y2 /\
  (forall c q G, c < 2 -> q < 1 -> (dot2 (K := ZK) 1 1 (st_lt G (co_y1 c q)) G <= dot2 (K := ZK) 1 1 (st_lt G (co_y2 c q)) G)%Z) /\
  response (K := ZK) 1 1 1 st_det st_inv st_fe (fun _ => 1%Z) co_bnd st_lt co_y1 [0] [0; 12; 18]%Z /\
  response (K := ZK) 1 1 1 st_det st_inv st_fe (fun _ => 1%Z) co_bnd st_lt co_y2 [0] [0; 6; 10]%Z /\
  response (K := ZK) 1 1 1 st_det st_inv st_fe (fun _ => 1%Z) co_bnd st_lt co_y1 [0; 1] [0; 0; 6]%Z /\
  response (K := ZK) 1 1 1 st_det st_inv st_fe (fun _ => 1%Z) co_bnd st_lt co_y4 [0] [0; 4; 7]%Z /\ elastic (K := ZK) 1 1 st_fe Z.le st_lt co_y4 /\
  (forall c q G, c < 2 -> q < 1 -> (2 * dot2 (K := ZK) 1 1 (st_lt G (co_y2 c q)) G = 1 * dot2 (K := ZK) 1 1 (st_lt G (co_y1 c q)) G + 1 * dot2 (K := ZK) 1 1 (st_lt G (co_y4 c q)) G)%Z) /\
  C [0; 12; 18]%Z = 216%Z /\ C [0; 6; 10]%Z = 120%Z /\ C [0; 0; 6]%Z = 72%Z /\ C [0; 4; 7]%Z = 84%Z /\
  internal_work (K := ZK) 1 1 st_det st_inv st_fe st_lt co_y2 [0; 6; 10]%Z = 120%Z /\ internal_work (K := ZK) 1 1 st_det st_inv st_fe st_lt co_y1 [0; 6; 10]%Z = 68%Z /\
  internal_work (K := ZK) 1 1 st_det st_inv st_fe st_lt co_y2 [0; 12; 18]%Z = 396%Z /\ internal_work (K := ZK) 1 1 st_det st_inv st_fe st_lt co_y1 [0; 12; 18]%Z = 216%Z.
Proof.
  cbv zeta. split. { intros f [<-|[]]. split; [reflexivity|]. intros c [<-|[<-|[]]]; (split; [reflexivity|]); cbn; intros n Hn; lia. }
  split. { intros b [<-|[]]. split; [reflexivity|]. intros cg [<-|[]]. cbn. lia. }
  split. { intros b sm w q a a' x k [<-|[]] _ [= <-] _ _. reflexivity. }
  split. { intros c q Hc Hq. assert (q = 0) as -> by lia. destruct c as [|[|c]]; try lia; vm_compute; discriminate. }
  split. { apply co_elastic. intros c q. unfold co_y1. lia. } split. { apply co_elastic. intros c q. unfold co_y2. lia. }
  split. { intros c q G _ _. unfold st_lt. rewrite !st_dot2. unfold co_y1, co_y2. generalize (Z.of_nat c) (get2 (K := ZK) G 0 0 : Z). cbn [carrier ZK]. intros z g. nia. }
  split; [eapply co_response; [reflexivity|vm_compute; repeat split]|]. split; [eapply co_response; [reflexivity|vm_compute; repeat split]|].
  split; [eapply co_response; [reflexivity|vm_compute; repeat split]|]. split; [eapply co_response; [reflexivity|vm_compute; repeat split]|].
  split. { apply co_elastic. intros c q. unfold co_y4. lia. }
  split. { intros c q G _ _. unfold st_lt. rewrite !st_dot2. unfold co_y1, co_y2, co_y4. generalize (Z.of_nat c) (get2 (K := ZK) G 0 0 : Z). cbn [carrier ZK]. intros z g. ring. }
  repeat split; vm_compute; reflexivity.
Qed.
