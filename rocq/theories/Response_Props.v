(** C73: compliance is the work of the surface loads; C74: the volume fraction. *)
From Verif Require Import Base Csr_Model Assembly_Model Assembly_Spec Assembly_Proofs AssemblyMain_Proofs Dof_Model Dof_Spec
     Dof_Proofs Dof_Props Kernel_Model Kernel_Spec Kernel_Proofs Kernel_Props.
From Verif Require Import Response_Model.
From Coq Require Import ZArith.

Section C73.
  Variable K : CRing.
  Add Ring Kring73 : (cth K).
  Local Open Scope ring_K.
  Variables (dim nq nfq : nat).
  Variable det : list (list K) -> K.
  Variable inv : list (list K) -> list (list K).
  Variable norm : list K -> K.
  Variable W : Type.

  Lemma kneg_assoc (a b c : K) : (0 - a) * b * c = 0 - c * (a * b).
  Proof. ring. Qed.
  Lemma ksub_eq (a b : K) : a + b = 0 -> 0 - b = a.
  Proof. intros H. transitivity (a + b - b); [rewrite H; reflexivity|ring]. Qed.
  Lemma Sum_opp n (f : nat -> K) : Sum n (fun i => 0 - f i) = 0 - Sum n f.
  Proof. rewrite Sum_sub. rewrite (Sum_zero K n (fun _ => 0)) by reflexivity. reflexivity. Qed.
  Lemma sumf_neg A (f : A -> K) l : sumf (fun x => 0 - f x) l = 0 - sumf f l.
  Proof. rewrite sumf_sub. rewrite (sumf_zero K (fun _ : A => 0)) by reflexivity. reflexivity. Qed.

  Lemma u_face_field (fes : list (fe K)) sol c g q : 0 < length fes ->
    u_face (fe_at fes 0) sol c g q = face_field_at fes 0 sol c g q.
  Proof.
    intros Hp. unfold u_face, face_field_at. apply tab_ext. intros k Hk. apply Sum_ext. intros n Hn. unfold nodal, dof.
    cbn [firstn sum_nat]. destruct fes as [|f t]; [cbn in Hp; lia|]. cbn [layout_of map nth snd fe_at]. f_equal.
  Qed.
  Lemma surface_compliance_work (fes : list (fe K)) (b : bdata K W) sm vars sol : 0 < length fes ->
    bp_map (bd_ph b) = Some sm ->
    surface_compliance dim nfq det inv norm (fe_at fes 0) b vars sol =
    0 - map_surface dim nfq det inv norm fes sm (Build_bdata K W (bd_inds b) (bd_ph b) vars) sol sol.
  Proof.
    intros Hp E. unfold surface_compliance, map_surface, over_faces. cbn [bd_inds bd_vars]. rewrite <- sumf_neg. apply sumf_ext.
    intros p _. cbv zeta. rewrite <- Sum_opp. apply Sum_ext. intros q _. rewrite u_face_field by exact Hp.
    unfold surface_fn. rewrite E. unfold dot1. rewrite <- Sum_mul_l, <- Sum_opp. apply Sum_ext. intros k _. apply kneg_assoc.
  Qed.
  Lemma surface_compliance_zero (f : fe K) (b : bdata K W) vars sol : bp_map (bd_ph b) = None ->
    surface_compliance dim nfq det inv norm f b vars sol = 0.
  Proof.
    intros E. unfold surface_compliance. apply sumf_zero. intros p _. apply Sum_zero. intros q _. apply Sum_zero. intros k _.
    unfold surface_fn. rewrite E.
    assert (Z : forall l : list K, get (map (fun _ : K => (0 : K)) l) k = 0).
    { intros l. unfold get. clear. revert k. induction l as [|x l IH]; intros [|k]; cbn; auto. }
    rewrite Z. ring.
  Qed.
End C73.

(** The surface data of a problem whose loads are all surface maps, with the given surface variables. *)
Definition with_vars {K W} (bv : bdata K W * list (nat -> W)) : bdata K W :=
  Build_bdata K W (bd_inds (fst bv)) (bd_ph (fst bv)) (snd bv).
Definition maps_only {K W} (b : bdata K W) : Prop := bp_universal (bd_ph b) = None.

(** The dynamic compliance is minus the virtual work that the surface terms of the residual do on the
    solution itself (the residual carries the loads with the opposite sign), for single-variable problems
    whose loads are surface maps. *)
Theorem C73_load_work : forall (K : CRing) dim nfq det inv norm (W : Type) (fes : list (fe K)) (bnd : list (bdata K W)) vars sol,
  length fes = 1 -> (forall b, In b bnd -> maps_only b) ->
  dynamic_compliance dim nfq det inv norm fes bnd sol vars =
  csub c0 (sumf (fun bv => surface_terms dim nfq det inv norm fes (with_vars bv) sol sol) (combine bnd vars)).
Proof.
  intros K dim nfq det inv norm W fes bnd vars sol H1 HM. unfold dynamic_compliance. rewrite <- sumf_neg. apply sumf_ext.
  intros [b v] Hb. cbn [fst snd]. assert (Hbb : In b bnd) by (eapply in_combine_l; exact Hb).
  assert (T : (1 <? length fes) = false) by (rewrite H1; reflexivity).
  unfold surface_terms, with_vars. rewrite T. cbn [fst snd bd_ph]. rewrite (HM b Hbb). cbn [opt_term].
  destruct (bp_map (bd_ph b)) as [sm|] eqn:E; cbn [opt_term].
  - rewrite (surface_compliance_work K dim nfq det inv norm W fes b sm v sol) by (try exact E; lia). f_equal. symmetry. apply kadd0r.
  - rewrite (surface_compliance_zero K dim nfq det inv norm W) by exact E. rewrite kadd0r. symmetry.
    apply (ksub_eq K c0 c0). apply kadd0r.
Qed.
Print Assumptions C73_load_work.

(** The static version with resolved parameters is the dynamic one with every surface variable constant;
    it is defined exactly when there are no surfaces or the parameters are absent, a scalar or a list of
    one parameter per surface. *)
Theorem C73_static : forall (K : CRing) dim nfq det inv norm (W : Type) (one : W) (fes : list (fe K)) (bnd : list (bdata K W)) p,
  (bnd <> [] -> forall fn, compliance dim nfq det inv norm one fes bnd p = Some fn -> exists ws,
     length ws = length bnd /\
     (p = LNone -> ws = repeat one (length bnd)) /\ (forall w, p = LScalar w -> ws = repeat w (length bnd)) /\ (forall l, p = LList l -> ws = l) /\
     forall sol, fn sol = dynamic_compliance dim nfq det inv norm fes bnd sol
       (map (fun bw => repeat (fun _ => snd bw) (length (bd_inds (fst bw)))) (combine bnd ws))) /\
  (compliance dim nfq det inv norm one fes bnd p = None <-> bnd <> [] /\ exists l, p = LList l /\ length l <> length bnd).
Proof.
  intros K dim nfq det inv norm W one fes bnd p. split.
  - intros Hne fn. unfold compliance. destruct (Nat.eqb_spec (length bnd) 0) as [E|E]; [destruct bnd; [contradiction|discriminate]|].
    destruct (resolve_params one p (length bnd)) as [ws|] eqn:R; [|discriminate]. intros Hfn.
    assert (Hfn' : fn = fun sol => sumf (fun bw => surface_compliance dim nfq det inv norm (fe_at fes 0) (fst bw) (repeat (fun _ => snd bw) (length (bd_inds (fst bw)))) sol) (combine bnd ws)) by congruence.
    exists ws. assert (L : length ws = length bnd).
    { unfold resolve_params in R. destruct p as [|w|l].
      - assert (ws = repeat one (length bnd)) by congruence. subst ws. apply repeat_length.
      - assert (ws = repeat w (length bnd)) by congruence. subst ws. apply repeat_length.
      - destruct (Nat.eqb_spec (length l) (length bnd)); [|discriminate]. assert (ws = l) by congruence. subst ws. assumption. }
    split; [exact L|]. split; [intros ->; cbn in R; congruence|]. split; [intros w ->; cbn in R; congruence|].
    split; [intros l ->; cbn in R; destruct (Nat.eqb (length l) (length bnd)); [congruence|discriminate]|].
    intros sol. rewrite Hfn'. unfold dynamic_compliance. clear - L. revert ws L.
    induction bnd as [|b bnd IH]; intros [|w ws] L; cbn in L; try discriminate; [reflexivity|].
    cbn [combine map sumf fst snd]. rewrite IH by lia. reflexivity.
  - unfold compliance. destruct (Nat.eqb_spec (length bnd) 0) as [E|E].
    + split; [discriminate|]. intros [Hne _]. destruct bnd; [contradiction|discriminate].
    + assert (Hne : bnd <> []) by (intros ->; apply E; reflexivity).
      destruct p as [|w|l]; cbn [resolve_params].
      * split; [discriminate|]. intros (_ & l & Hl & _). discriminate.
      * split; [discriminate|]. intros (_ & l & Hl & _). discriminate.
      * destruct (Nat.eqb_spec (length l) (length bnd)) as [El|El].
        -- split; [discriminate|]. intros (_ & l' & Hl & N). assert (l = l') by congruence. subst l'. contradiction.
        -- split; [intros _; split; [exact Hne|exists l; split; [reflexivity|exact El]]|reflexivity].
Qed.
Print Assumptions C73_static.

(** At equilibrium the compliance is the internal virtual work of the solution: for a problem whose
    residual does no work on the solution (zero residual at the free DOFs, zero solution at the others). *)
Theorem C73_equilibrium :
  forall (K : CRing) dim nq nfq det inv norm (V W : Type) (fes : list (fe K)) vw (ph : physics K V)
         vars (bnd : list (bdata K W)) vj sj xv xs pb bs0 (u : list K) (free : nat -> bool),
  wf_fes fes -> length fes = 1 -> (forall b, In b bnd -> wf_bdata fes b) -> kernel_shapes fes ph bnd ->
  (forall u x, length (vj u x) = num_local fes * num_local fes) ->
  (forall u x, length (sj u x) = num_local fes * num_local fes) ->
  0 < bs0 -> (forall b, In b bnd -> maps_only b) ->
  build dim nq nfq det inv norm fes vw ph vars bnd vj sj xv xs = Some pb ->
  (forall i, i < pr_n pb -> if free i then get (get_res pb bs0 u) i = c0 else get u i = c0) ->
  dynamic_compliance dim nfq det inv norm fes bnd u (map (@bd_vars K W) bnd) =
  volume_terms dim nq det inv fes ph vars u u.
Proof.
  intros K dim nq nfq det inv norm V W fes vw ph vars bnd vj sj xv xs pb bs0 u free WF H1 WB KS TJ TS Hbs HM EB HE.
  rewrite C73_load_work by assumption.
  pose proof (C63_composition K dim nq nfq det inv norm V W fes vw ph vars bnd vj sj xv xs pb bs0 u u WF ltac:(lia) WB KS TJ TS Hbs EB) as C.
  assert (Z : virtual_work (pr_n pb) u (get_res pb bs0 u) = c0).
  { apply Sum_zero. intros i Hi. specialize (HE i Hi). destruct (free i); rewrite HE; [apply kmul0|]. rewrite kcomm. apply kmul0. }
  rewrite Z in C.
  assert (S : sumf (fun bv => surface_terms dim nfq det inv norm fes (with_vars bv) u u) (combine bnd (map (@bd_vars K W) bnd)) =
              sumf (fun b => surface_terms dim nfq det inv norm fes b u u) bnd).
  { clear. induction bnd as [|b bnd IH]; [reflexivity|]. cbn [map combine sumf]. rewrite IH. destruct b. reflexivity. }
  rewrite S. apply ksub_eq. symmetry. exact C.
Qed.
Print Assumptions C73_equilibrium.

(** FINDING: surfaces without surface variables are dropped silently ([zip]); so are surfaces without
    a surface map, in particular all loads given as surface weak forms of multi-variable problems. *)
Theorem C73_truncated : forall (K : CRing) dim nfq det inv norm (W : Type) (fes : list (fe K)) (b1 b2 : list (bdata K W)) vars sol,
  length vars <= length b1 ->
  dynamic_compliance dim nfq det inv norm fes (b1 ++ b2) sol vars = dynamic_compliance dim nfq det inv norm fes b1 sol vars.
Proof.
  intros K dim nfq det inv norm W fes b1 b2 vars sol H. unfold dynamic_compliance. f_equal.
  revert vars H. induction b1 as [|b b1 IH]; intros [|v vars] H; cbn in H; try lia; try reflexivity.
  - cbn. destruct b2; reflexivity.
  - cbn [app combine]. rewrite IH by lia. reflexivity.
Qed.
Print Assumptions C73_truncated.
Theorem C73_without_maps : forall (K : CRing) dim nfq det inv norm (W : Type) (one : W) (fes : list (fe K)) (bnd : list (bdata K W)),
  (forall b, In b bnd -> bp_map (bd_ph b) = None) ->
  (forall vars sol, dynamic_compliance dim nfq det inv norm fes bnd sol vars = c0) /\
  (forall p fn sol, compliance dim nfq det inv norm one fes bnd p = Some fn -> fn sol = c0).
Proof.
  intros K dim nfq det inv norm W one fes bnd H.
  assert (D : forall vars sol, dynamic_compliance dim nfq det inv norm fes bnd sol vars = c0).
  { intros vars sol. unfold dynamic_compliance. apply sumf_zero. intros [b v] Hb. cbn [fst snd]. apply surface_compliance_zero.
    apply H. eapply in_combine_l. exact Hb. }
  split; [exact D|]. intros p fn sol E. destruct bnd as [|b bnd].
  - unfold compliance in E. cbn in E. assert (E' : fn = fun _ => c0) by congruence. rewrite E'. reflexivity.
  - destruct (C73_static K dim nfq det inv norm W one fes (b :: bnd) p) as [S _].
    destruct (S ltac:(discriminate) fn E) as (ws & _ & _ & _ & _ & F). rewrite F. apply D.
Qed.
Print Assumptions C73_without_maps.

(** A bar of two linear elements pulled at its right end: the hypotheses of the equilibrium theorem hold. *)
Definition bar_ph : physics ZK Z := Build_physics ZK Z None None None (Some (fun g _ => g)) None None.
Definition bar_bnd : list (bdata ZK Z) :=
  [Build_bdata ZK Z [(1, 1)] (Build_bphysics ZK Z None None (Some (fun _ _ w => [(- w)%Z]))) [fun _ => 2%Z]].
Definition bar_build :=
  build (K := ZK) 1 2 1 ex_det ex_inv ex_norm [ex_fe 1] FULL bar_ph ex_vars bar_bnd (fun _ _ => repeat 0%Z 4) (fun _ _ => repeat 0%Z 4)
    (vinp_of 1 ex_det ex_inv [ex_fe 1] ex_vars 0) (finp_of 1 ex_det ex_inv ex_norm [ex_fe 1] (fun _ => 0%Z) (0, 0)).
Example C73_example :
  wf_fes [ex_fe 1] /\ (forall b, In b bar_bnd -> wf_bdata [ex_fe 1] b /\ maps_only b) /\
  exists pb, bar_build = Some pb /\
    (forall i, i < pr_n pb -> if Nat.ltb 0 i then get (get_res pb 1 [0; 1; 2]%Z) i = 0%Z else get (K := ZK) [0; 1; 2]%Z i = 0%Z) /\
    dynamic_compliance (K := ZK) 1 1 ex_det ex_inv ex_norm [ex_fe 1] bar_bnd [0; 1; 2]%Z [[fun _ => 2%Z]] = 4%Z /\
    exists fn, compliance (K := ZK) 1 1 ex_det ex_inv ex_norm 1%Z [ex_fe 1] bar_bnd (LList [2%Z]) = Some fn /\ fn [0; 1; 2]%Z = 4%Z.
Proof.
  split.
  { intros f Hf. split; [destruct Hf as [<-|[]]; reflexivity|].
    intros c Hc. destruct Hf as [<-|[]]; cbn in Hc; destruct Hc as [<-|[<-|[]]]; (split; [reflexivity|]); cbn; intros n Hn; lia. }
  split.
  { intros b [<-|[]]. split; [|reflexivity]. split; [reflexivity|]. intros cg [<-|[]]. cbn. lia. }
  eexists. split; [reflexivity|]. split.
  - intros i Hi. change (i < 3) in Hi. destruct i as [|[|[|i]]]; try lia; vm_compute; reflexivity.
  - split; [vm_compute; reflexivity|]. eexists. split; [reflexivity|]. vm_compute. reflexivity.
Qed.
