(** Property C47: skipping the surface tangents. *)
From Verif Require Import Base Csr_Model Csr_Proofs Ops_Proofs Assembly_Model Assembly_Spec
     Assembly_Proofs AssemblyMain_Proofs Csr_Props Assembly_Props SurfaceSkip_Model.
From Coq Require Import List Arith Lia Bool.
Import ListNotations.

(** Parameters that fit the problem (one input list per boundary, one input per
    face, one per cell). *)
Definition fits {K Inp FInp} (pb : problem K Inp FInp) (q : params Inp FInp) : Prop :=
  length (q_surf q) = length (pr_bnd pb) /\ wf_problem (with_params K Inp FInp pb q).

Definition all_fit {K Inp FInp} (pb : problem K Inp FInp) (cs : list (creation Inp FInp)) : Prop :=
  forall c q, In c cs -> k_params c = Some q -> fits pb q.

(** The tangent the solver is supposed to assemble, on the stored triangle. *)
Definition exact_tangent {K Inp FInp} (pb : problem K Inp FInp) (q : params Inp FInp)
           (sol : list K) (A : csr K) : Prop :=
  forall i j,
    (kept (pr_view pb) i j -> todense A i j = spec_jac (with_params K Inp FInp pb q) sol i j) /\
    (~ kept (pr_view pb) i j -> todense A i j = c0).

(** A dead load: the surface tangent depends neither on the solution nor on the
    parameters. *)
Definition dead_loads {K Inp FInp} (pb : problem K Inp FInp) : Prop :=
  forall b u u' x x', In b (pr_bnd pb) -> length u = pr_nd pb -> length u' = pr_nd pb ->
    snd (b_kern b u x) = snd (b_kern b u' x').

(** A load whose tangent does not depend on the solution (it may depend on the
    parameters, such as an elastic foundation). *)
Definition linear_loads {K Inp FInp} (pb : problem K Inp FInp) : Prop :=
  forall b u u' x, In b (pr_bnd pb) -> length u = pr_nd pb -> length u' = pr_nd pb ->
    snd (b_kern b u x) = snd (b_kern b u' x).

Section Proofs.
  Variable K : CRing.
  Variables (Inp FInp : Type).
  Variable is_zero : K -> bool.
  Hypothesis is_zero_ok : forall x, is_zero x = true -> x = c0.
  Variables (p1 p2 : list K).
  Variable bs0 : nat.
  Hypothesis Hbs : 0 < bs0.
  Variable pb : problem K Inp FInp.

  Let wp := with_params K Inp FInp pb.

  Lemma flag_wf q f : wf_problem (wp q) -> wf_problem (with_flag K Inp FInp (wp q) f).
  Proof using. intros [a b c d e f0 g]. constructor; assumption. Qed.

  Lemma tangent_spec q f sol : fits pb q ->
    let A := get_jacobian (with_flag K Inp FInp (wp q) f) bs0 sol in
    (f = false \/ forall i j, spec_face_jac (wp q) sol i j = c0) -> exact_tangent pb q sol A.
  Proof using Hbs.
    intros (_ & W) A H i j. pose proof (flag_wf q f W) as W'.
    unfold A. rewrite (get_jacobian_dense Hbs W'). unfold eff_jac. cbn [pr_surface_jac_zero with_flag].
    rewrite <- in_view_kept. cbn [pr_view with_flag with_params wp].
    destruct (in_view (pr_view pb) (i, j)) eqn:E; split; intros Hk; try congruence; try reflexivity.
    assert (ES : spec_jac (with_flag K Inp FInp (wp q) f) sol i j = spec_jac (wp q) sol i j) by reflexivity.
    assert (EV : spec_vol_jac (with_flag K Inp FInp (wp q) f) sol i j = spec_vol_jac (wp q) sol i j) by reflexivity.
    destruct f; [|exact ES]. destruct H as [H|H]; [discriminate|].
    rewrite EV. unfold spec_jac. fold wp. rewrite H.
    symmetry. rewrite (Radd_comm (cth K)). apply (Radd_0_l (cth K)).
  Qed.

  Lemma elem_jac_zeros nd d (m : list K) i j : (forall v, In v m -> v = c0) -> elem_jac nd d m i j = c0.
  Proof using.
    intros H. unfold elem_jac. apply sumf_zero. intros a _. apply sumf_zero. intros b _.
    destruct (_ && _); [|reflexivity]. unfold get.
    destruct (nth_in_or_default (a * nd + b) m c0) as [Hin|E]; [apply H, Hin|exact E].
  Qed.

  (** A positive detection at [q]: every boundary has a face, and all its tangents
      are zero at the first probe. *)
  Lemma detect_zero q : fits pb q -> detect K Inp FInp is_zero p1 p2 bs0 (wp q) = true ->
    forall b x, In (b, x) (combine (pr_bnd pb) (q_surf q)) ->
    (exists u y, length u = pr_nd pb /\ In y x /\ forall v, In v (snd (b_kern b u y)) -> v = c0) /\
    (forall c y, In (c, y) (combine (b_cells b) x) ->
       exists u, length u = pr_nd pb /\ forall v, In v (snd (b_kern b u y)) -> v = c0).
  Proof using Hbs is_zero_ok.
    intros (L & W) D b x Hin. unfold detect in D.
    assert (D1 : forallb (all_zero K is_zero) (compute_face (wp q) bs0 p1) = true).
    { destruct (pr_bnd (wp q)); [discriminate|]. cbn in D. apply andb_true_iff in D. apply D. }
    rewrite (compute_face_eq _ Hbs) in D1. rewrite forallb_forall in D1.
    set (b' := set_binp K FInp b x).
    assert (Hb' : In b' (pr_bnd (wp q))).
    { cbn. apply in_map_iff. exists (b, x). auto. }
    specialize (D1 _ (in_map (fun b0 => map (fun x0 => b_kern b0 (fst x0) (snd x0))
             (combine (map (local_sol p1) (face_dofs (wp q) b0)) (b_inp b0))) _ _ Hb')).
    cbn beta in D1. unfold all_zero in D1.
    set (rows := map _ (combine _ _)) in D1.
    assert (Z : forall r v, In r rows -> In v (snd r) -> v = c0).
    { intros r v Hr Hv. apply is_zero_ok.
      destruct (concat (map snd rows)) eqn:E; [discriminate|]. rewrite <- E in D1.
      rewrite forallb_forall in D1. apply D1. apply in_concat. exists (snd r). split; [apply in_map, Hr|exact Hv]. }
    assert (F : forall c y, In (c, y) (combine (b_cells b) x) ->
       let u := local_sol p1 (nth c (pr_cells pb) []) in
       length u = pr_nd pb /\ forall v, In v (snd (b_kern b u y)) -> v = c0).
    { intros c y Hc u. split.
      - unfold u, local_sol. rewrite map_length. apply (w_cells W). cbn. apply nth_In.
        apply (w_bcells W b'); [exact Hb'|]. apply in_combine_l in Hc. exact Hc.
      - intros v Hv. apply (Z (b_kern b u y)); [|exact Hv]. unfold rows.
        apply in_map_iff. exists (u, y). split; [reflexivity|].
        cbn. unfold face_dofs. cbn. rewrite map_map.
        clear -Hc. revert Hc. unfold u. generalize (b_cells b). intros l. revert x.
        induction l as [|c0 l IH]; intros [|y0 x]; cbn; try tauto.
        intros [E|H]; [inversion E; subst; left; reflexivity|right; apply IH, H]. }
    split.
    - destruct (combine (b_cells b) x) as [|[c y] rest] eqn:EC.
      + exfalso. assert (rows = []) as E0; [|rewrite E0 in D1; discriminate].
        unfold rows. cbn. unfold face_dofs. cbn. rewrite map_map.
        clear -EC. destruct (b_cells b), x; cbn in *; try reflexivity; discriminate.
      + destruct (F c y (or_introl eq_refl)) as (Lu & Zv).
        exists (local_sol p1 (nth c (pr_cells pb) [])), y. repeat split; auto.
        assert (In (c, y) (combine (b_cells b) x)) as Hc by (rewrite EC; left; reflexivity).
        apply in_combine_r in Hc. exact Hc.
    - intros c y Hc. exists (local_sol p1 (nth c (pr_cells pb) [])). apply F. exact Hc.
  Qed.

  Lemma face_zero q sol : fits pb q ->
    (forall b x c y u, In (b, x) (combine (pr_bnd pb) (q_surf q)) -> In (c, y) (combine (b_cells b) x) ->
       length u = pr_nd pb -> forall v, In v (snd (b_kern b u y)) -> v = c0) ->
    forall i j, spec_face_jac (wp q) sol i j = c0.
  Proof using.
    intros (L & W) H i j. unfold spec_face_jac. apply sumf_zero. intros b' Hb'.
    pose proof Hb' as Hb2. cbn in Hb2.
    apply in_map_iff in Hb2. destruct Hb2 as ([b x] & E & Hin). apply sumf_zero. intros [c y] Hc.
    cbn [fst snd] in *. subst b'. cbn in Hc.
    apply elem_jac_zeros. intros v Hv. cbn in Hv.
    refine (H b x c y _ Hin Hc _ v Hv). unfold local_sol. rewrite map_length. apply (w_cells W).
    cbn. apply nth_In. apply (w_bcells W _ _ Hb'). cbn. apply in_combine_l in Hc. exact Hc.
  Qed.

  Lemma flag_true_from cs f : fold_left (create_flag K Inp FInp is_zero p1 p2 bs0 pb) cs f = true ->
    f = true \/ exists c q, In c cs /\ k_params c = Some q /\
                  detect K Inp FInp is_zero p1 p2 bs0 (wp q) = true.
  Proof using.
    revert f. induction cs as [|c cs IH]; intros f H; [left; exact H|]. cbn in H.
    destruct (IH _ H) as [E|(c' & q & Hc & Hq & D)].
    - unfold create_flag in E. destruct (k_params c) as [q|] eqn:Eq; [|left; exact E].
      destruct (k_direct c && k_env c); [|left; exact E].
      right. exists c, q. cbn. auto.
    - right. exists c', q. cbn. auto.
  Qed.
End Proofs.

(** ** C47 *)

(** For dead loads (tractions and pressures whose tangent depends neither on the
    solution nor on the parameters) the skip is sound: after any number of solver
    creations on the same problem, the tangent assembled for every solution and
    every parameter set is the exact one. *)
Theorem C47_dead_loads :
  forall (K : CRing) (Inp FInp : Type) (is_zero : K -> bool) (p1 p2 : list K) (bs0 : nat)
         (pb : problem K Inp FInp),
  (forall x, is_zero x = true -> x = c0) -> 0 < bs0 -> dead_loads pb ->
  forall cs q sol, all_fit pb cs -> fits pb q ->
  exact_tangent pb q sol (tangent_after K Inp FInp is_zero p1 p2 bs0 pb cs q sol).
Proof.
  intros K Inp FInp is_zero p1 p2 bs0 pb Hz Hbs Dead cs q sol Hcs Hq.
  apply (tangent_spec K Inp FInp bs0 Hbs pb q _ sol Hq).
  destruct (flag_after K Inp FInp is_zero p1 p2 bs0 pb cs) eqn:E; [right|left; reflexivity].
  destruct (flag_true_from K Inp FInp is_zero p1 p2 bs0 pb cs false E) as [F|(c & q0 & Hc & Hq0 & D)];
    [discriminate|].
  pose proof (Hcs c q0 Hc Hq0) as Fit0.
  apply (face_zero K Inp FInp pb q sol Hq).
  intros b x c' y u Hb Hcy Hu v Hv.
  assert (In b (pr_bnd pb)) as Hbb by (apply in_combine_l in Hb; exact Hb).
  assert (exists x0, In (b, x0) (combine (pr_bnd pb) (q_surf q0))) as (x0 & Hx0).
  { destruct Fit0 as (L & _). clear -L Hbb. revert L Hbb. generalize (q_surf q0).
    induction (pr_bnd pb) as [|b0 l IH]; intros [|x0 xs] L H; cbn in *; try tauto; try discriminate.
    destruct H as [->|H]; [exists x0; left; reflexivity|].
    destruct (IH xs ltac:(lia) H) as (x1 & H1). exists x1. right. exact H1. }
  destruct (detect_zero K Inp FInp is_zero Hz p1 p2 bs0 Hbs pb q0 Fit0 D b x0 Hx0) as ((u0 & y0 & Lu & _ & Z) & _).
  apply Z. rewrite (Dead b u0 u y0 y); assumption.
Qed.
Print Assumptions C47_dead_loads.

(** For loads that are linear in the solution, a solver created alone and used with
    the parameters it was created with assembles the exact tangent for every
    solution. *)
Theorem C47_linear_loads_same_params :
  forall (K : CRing) (Inp FInp : Type) (is_zero : K -> bool) (p1 p2 : list K) (bs0 : nat)
         (pb : problem K Inp FInp),
  (forall x, is_zero x = true -> x = c0) -> 0 < bs0 -> linear_loads pb ->
  forall direct env q q' sol, fits pb q -> fits pb q' -> q_surf q' = q_surf q ->
  exact_tangent pb q' sol
    (tangent_after K Inp FInp is_zero p1 p2 bs0 pb [Build_creation direct (Some q) env] q' sol).
Proof.
  intros K Inp FInp is_zero p1 p2 bs0 pb Hz Hbs Lin direct env q q' sol Hq Hq' Es.
  apply (tangent_spec K Inp FInp bs0 Hbs pb q' _ sol Hq').
  unfold flag_after. cbn. unfold create_flag. cbn.
  destruct (direct && env); [|left; reflexivity].
  destruct (detect _ _ _ _ _ _ _ _) eqn:D; [right|left; reflexivity].
  apply (face_zero K Inp FInp pb q' sol Hq').
  intros b x c' y u Hb Hcy Hu v Hv. rewrite Es in Hb.
  destruct (detect_zero K Inp FInp is_zero Hz p1 p2 bs0 Hbs pb q Hq D b x Hb) as (_ & H).
  destruct (H c' y Hcy) as (u0 & Lu & Z). apply Z. rewrite (Lin b u0 u y); try assumption.
  apply in_combine_l in Hb. exact Hb.
Qed.
Print Assumptions C47_linear_loads_same_params.

(** Whatever the loads: as long as no creation has detected zero tangents, nothing
    is skipped; in particular when detection is switched off, when no parameters
    are given and when no direct solver is used. *)
Theorem C47_not_skipped :
  forall (K : CRing) (Inp FInp : Type) (is_zero : K -> bool) (p1 p2 : list K) (bs0 : nat)
         (pb : problem K Inp FInp), 0 < bs0 ->
  forall cs q sol, fits pb q ->
  (forall c p, In c cs -> k_params c = Some p -> k_direct c = true -> k_env c = true ->
     detect K Inp FInp is_zero p1 p2 bs0 (with_params K Inp FInp pb p) = false) ->
  exact_tangent pb q sol (tangent_after K Inp FInp is_zero p1 p2 bs0 pb cs q sol).
Proof.
  intros K Inp FInp is_zero p1 p2 bs0 pb Hbs cs q sol Hq Hc.
  apply (tangent_spec K Inp FInp bs0 Hbs pb q _ sol Hq). left.
  unfold flag_after. generalize (eq_refl false). generalize false at 1 3. intros f Ef. revert f Ef Hc.
  induction cs as [|c cs IH]; intros f Ef Hc; [exact Ef|]. cbn. apply IH.
  - unfold create_flag. destruct (k_params c) as [p|] eqn:Ep; [|exact Ef].
    destruct (k_direct c) eqn:Ed; destruct (k_env c) eqn:Ee; cbn; try exact Ef.
    apply (Hc c p); auto. left. reflexivity.
  - intros c' p H. apply Hc. right. exact H.
Qed.
Print Assumptions C47_not_skipped.

(** *** The detection is not sound in general *)

(** One cell with two DOFs, one face, values in hundredths, so that the code's two
    probe states are [13; 100] and [-90; 41]. *)
Definition probe_a : list Z := [13; 100]%Z.
Definition probe_b : list Z := [-90; 41]%Z.

Definition skip_pb (kern : list Z -> Z -> list Z * list Z) : problem ZK Z Z :=
  @Build_problem ZK Z Z 2 FULL 2 [[0; 1]] [0%Z] 0%Z
    (fun u x => (u, [1; 0; 0; 1]%Z))
    [@Build_boundary ZK Z [0] [0%Z] 0%Z kern] false.

Definition skip_q (x : Z) : params Z Z := Build_params [0%Z] [[x]].

Lemma skip_fits kern x : (forall u y, length (fst (kern u y)) = 2 /\ length (snd (kern u y)) = 4) ->
  fits (skip_pb kern) (skip_q x).
Proof.
  intros H. split; [reflexivity|]. constructor; cbn.
  - intros d [<-|[]]; reflexivity.
  - intros d y [<-|[]]; cbn; lia.
  - reflexivity.
  - intros u y Hu. auto.
  - intros b c [<-|[]]; cbn; lia.
  - intros b [<-|[]]; reflexivity.
  - intros b u y [<-|[]] _; cbn. apply H.
Qed.

(** An elastic foundation on the face: traction [k u_1], [k] a parameter. *)
Definition spring (u : list Z) (k : Z) : list Z * list Z :=
  ([0; k * nth 1 u 0]%Z, [0; 0; 0; k]%Z).

(** Contact with an obstacle at distance 2 (200 hundredths): traction
    [max(u_1 - 2, 0)]. *)
Definition contact (u : list Z) (x : Z) : list Z * list Z :=
  ([0; Z.max (nth 1 u 0 - 200) 0]%Z, [0; 0; 0; if (200 <? nth 1 u 0)%Z then 1 else 0]%Z).

(** The foundation stiffness is zero in the parameters given at creation and
    nonzero in the solve: the assembled tangent lacks it (the load is linear in the
    solution). *)
Theorem C47_parameter_refuted :
  exists (pb : problem ZK Z Z) c q sol, linear_loads pb /\ all_fit pb [c] /\ fits pb q /\
    ~ exact_tangent pb q sol (tangent_after ZK Z Z (Z.eqb 0) probe_a probe_b 256 pb [c] q sol).
Proof.
  exists (skip_pb spring), (Build_creation true (Some (skip_q 0)) true), (skip_q 7), [1; 2]%Z.
  assert (L : forall x, fits (skip_pb spring) (skip_q x)) by (intros; apply skip_fits; intros; cbn; auto).
  split; [intros b u u' x [<-|[]] _ _; reflexivity|].
  split; [intros c q [<-|[]] E; inversion E; apply L|].
  split; [apply L|].
  intros H. destruct (H 1 1) as (E & _). specialize (E I). vm_compute in E. discriminate.
Qed.
Print Assumptions C47_parameter_refuted.

(** A contact load whose tangent vanishes at both probe states: the parameters are
    those of the creation, and the tangent is wrong once the gap closes. *)
Theorem C47_contact_refuted :
  exists (pb : problem ZK Z Z) c q sol, k_params c = Some q /\ all_fit pb [c] /\ fits pb q /\
    ~ exact_tangent pb q sol (tangent_after ZK Z Z (Z.eqb 0) probe_a probe_b 256 pb [c] q sol).
Proof.
  exists (skip_pb contact), (Build_creation true (Some (skip_q 0)) true), (skip_q 0), [0; 300]%Z.
  assert (L : forall x, fits (skip_pb contact) (skip_q x)) by (intros; apply skip_fits; intros; cbn; auto).
  split; [reflexivity|]. split; [intros c q [<-|[]] E; inversion E; apply L|]. split; [apply L|].
  intros H. destruct (H 1 1) as (E & _). specialize (E I). vm_compute in E. discriminate.
Qed.
Print Assumptions C47_contact_refuted.

(** The flag lives on the problem, not on the solver: a solver whose own detection
    correctly said "keep" assembles a wrong tangent, at its own parameters, after
    another solver has been created on the same problem. *)
Theorem C47_shared_flag_refuted :
  exists (pb : problem ZK Z Z) c1 c2 q sol, linear_loads pb /\ all_fit pb [c1; c2] /\
    k_params c1 = Some q /\ fits pb q /\
    exact_tangent pb q sol (tangent_after ZK Z Z (Z.eqb 0) probe_a probe_b 256 pb [c1] q sol) /\
    ~ exact_tangent pb q sol (tangent_after ZK Z Z (Z.eqb 0) probe_a probe_b 256 pb [c1; c2] q sol).
Proof.
  exists (skip_pb spring), (Build_creation true (Some (skip_q 7)) true),
         (Build_creation true (Some (skip_q 0)) true), (skip_q 7), [1; 2]%Z.
  assert (L : forall x, fits (skip_pb spring) (skip_q x)) by (intros; apply skip_fits; intros; cbn; auto).
  assert (LL : linear_loads (skip_pb spring)) by (intros b u u' x [<-|[]] _ _; reflexivity).
  split; [exact LL|].
  split; [intros c q [<-|[<-|[]]] E; inversion E; apply L|].
  split; [reflexivity|]. split; [apply L|]. split.
  - apply C47_linear_loads_same_params; try apply L; auto; try lia.
    intros x Hx. symmetry. apply Z.eqb_eq. exact Hx.
  - intros H. destruct (H 1 1) as (E & _). specialize (E I). vm_compute in E. discriminate.
Qed.
Print Assumptions C47_shared_flag_refuted.

(** A traction: detected as dead, skipped, and the tangent is the exact one at a
    different parameter and solution. *)
Definition traction (u : list Z) (t : Z) : list Z * list Z := ([0; - t]%Z, [0; 0; 0; 0]%Z).
Example C47_example :
  dead_loads (skip_pb traction) /\
  flag_after ZK Z Z (Z.eqb 0) probe_a probe_b 256 (skip_pb traction)
    [Build_creation true (Some (skip_q 5)) true] = true /\
  exact_tangent (skip_pb traction) (skip_q 9) [3; 4]%Z
    (tangent_after ZK Z Z (Z.eqb 0) probe_a probe_b 256 (skip_pb traction)
       [Build_creation true (Some (skip_q 5)) true] (skip_q 9) [3; 4]%Z).
Proof.
  assert (L : forall x, fits (skip_pb traction) (skip_q x)) by (intros; apply skip_fits; intros; cbn; auto).
  assert (D : dead_loads (skip_pb traction)) by (intros b u u' x x' [<-|[]] _ _; reflexivity).
  split; [exact D|]. split; [vm_compute; reflexivity|].
  apply C47_dead_loads; try apply L; try exact D; try lia.
  - intros x Hx. symmetry. apply Z.eqb_eq. exact Hx.
  - intros c q [<-|[]] E; inversion E; apply L.
Qed.
Print Assumptions C47_example.
