(** C63, C64: the assembled residual is the discrete weak form, and what follows from it. *)
From Verif Require Import Base Csr_Model Assembly_Model Assembly_Spec Assembly_Proofs AssemblyMain_Proofs Dof_Model Dof_Spec
     Dof_Proofs Dof_Props Kernel_Model Kernel_Spec Kernel_Proofs.
From Coq Require Import ZArith.

Section C63.
  Variable K : CRing.
  Add Ring Kring63 : (cth K).
  Local Open Scope ring_K.
  Variables (dim nq nfq : nat).
  Variable det : list (list K) -> K.
  Variable inv : list (list K) -> list (list K).
  Variable norm : list K -> K.
  Variables (V W : Type).
  Variable fes : list (fe K).
  Hypothesis WF : wf_fes fes.

  Lemma kmul0 (a : K) : a * 0 = 0.
  Proof. ring. Qed.
  Lemma kdistr (a b c : K) : a * (b + c) = a * b + a * c.
  Proof. ring. Qed.
  Lemma kadd0r (a : K) : a + 0 = a.
  Proof. ring. Qed.
  Lemma kcomm (a b : K) : a * b = b * a.
  Proof. ring. Qed.
  Lemma kexpand (a b c t : K) : a * (b + t * c) = a * b + t * (a * c).
  Proof. ring. Qed.
  Lemma kexpand2 (a b c t : K) : (a + t * b) * c = a * c + t * (c * b).
  Proof. ring. Qed.
  Lemma kadd0l (a : K) : 0 + a = a.
  Proof. ring. Qed.

  Lemma opt_cell_work (vars : nat -> nat -> V) wf u v :
    Sum (num_cells fes) (cell_work K dim det inv V fes vars (weak_form_kernel dim nq fes wf) u v) =
    weak_volume dim nq det inv fes wf vars u v.
  Proof using WF.
    unfold weak_volume, over_cells. apply Sum_ext. intros c Hc. unfold cell_work.
    exact (weak_form_kernel_test K dim nq det inv V fes WF wf vars u v c Hc).
  Qed.
  Lemma opt_face_work (b : bdata K W) sw u v : wf_bdata fes b ->
    sumf (face_work K dim det inv norm W fes (surface_weak_form_kernel nfq fes sw) u v) (combine (bd_inds b) (bd_vars b)) =
    weak_surface dim nfq det inv norm fes sw b u v.
  Proof using WF.
    intros [_ HB]. unfold weak_surface, over_faces. apply sumf_ext. intros [cg w] Hp. unfold face_work. cbn [fst snd].
    apply (surface_weak_form_kernel_test K dim nfq det inv norm W fes WF sw w u v cg).
    apply HB. eapply in_combine_l. exact Hp.
  Qed.
  Lemma work_ext (vars : nat -> nat -> V) (k k' : vkernel K V) u v c :
    (forall u x, k u x = k' u x) ->
    cell_work K dim det inv V fes vars k u v c = cell_work K dim det inv V fes vars k' u v c.
  Proof. intros E. unfold cell_work. apply Sum_ext. intros j Hj. rewrite E. reflexivity. Qed.
  Lemma fwork_ext (k k' : skernel K W) u v p :
    (forall u x, k u x = k' u x) ->
    face_work K dim det inv norm W fes k u v p = face_work K dim det inv norm W fes k' u v p.
  Proof. intros E. unfold face_work. apply Sum_ext. intros j Hj. rewrite E. reflexivity. Qed.

  (** Single variable: the weak forms of the wrappers are the single-variable terms. *)
  Hypothesis H1 : length fes = 1%nat.
  Lemma weak_tensor (vars : nat -> nat -> V) tm u v :
    weak_volume dim nq det inv fes (wf_tensor K V tm) vars u v = tensor_volume dim nq det inv fes tm vars u v.
  Proof using H1.
    unfold weak_volume, tensor_volume, over_cells. apply Sum_ext; intros c Hc. apply Sum_ext; intros q Hq.
    rewrite H1. unfold Sum at 1. cbn [seq sumf wf_tensor fst snd tab map nth].
    assert (Z : dot1 (fe_vec (fe_at fes 0)) [] (field_at fes 0 v c q) = 0).
    { apply Sum_zero. intros k Hk. rewrite get_nil. ring. }
    rewrite Z. ring.
  Qed.
  Lemma weak_mass (vars : nat -> nat -> V) mm u v :
    weak_volume dim nq det inv fes (wf_mass K V mm) vars u v = mass_volume dim nq det fes mm vars u v.
  Proof using H1.
    unfold weak_volume, mass_volume, over_cells. apply Sum_ext; intros c Hc. apply Sum_ext; intros q Hq.
    rewrite H1. unfold Sum at 1. cbn [seq sumf wf_mass fst snd tab map nth].
    assert (Z : dot2 (fe_vec (fe_at fes 0)) dim [] (grad_at dim inv fes 0 v c q) = 0).
    { apply Sum_zero. intros k Hk. apply Sum_zero. intros d Hd. rewrite get2_nil. ring. }
    rewrite Z. ring.
  Qed.
  Lemma weak_map (b : bdata K W) sm u v :
    weak_surface dim nfq det inv norm fes (sw_map K W sm) b u v = map_surface dim nfq det inv norm fes sm b u v.
  Proof using H1.
    unfold weak_surface, map_surface, over_faces. apply sumf_ext; intros [cg w] Hp. apply Sum_ext; intros q Hq.
    rewrite H1. unfold Sum at 1. cbn [seq sumf sw_map fst snd tab map nth]. ring.
  Qed.
End C63.

(** ** C63 *)

(** For every test vector [vt], [vt . R(u)] is the discrete weak form at [(u, vt)]: the volume
    terms plus the terms of every boundary, as documented, for any mixture of standard and
    user-written kernels. (Taking unit vectors for [vt] gives every entry of [R].) *)
Theorem C63_composition :
  forall (K : CRing) dim nq nfq det inv norm (V W : Type) (fes : list (fe K)) vw (ph : physics K V)
         vars (bnd : list (bdata K W)) vj sj xv xs pb bs0 (u vt : list K),
  wf_fes fes -> 0 < length fes -> (forall b, In b bnd -> wf_bdata fes b) -> kernel_shapes fes ph bnd ->
  (forall u x, length (vj u x) = num_local fes * num_local fes) ->
  (forall u x, length (sj u x) = num_local fes * num_local fes) ->
  0 < bs0 ->
  build dim nq nfq det inv norm fes vw ph vars bnd vj sj xv xs = Some pb ->
  virtual_work (pr_n pb) vt (get_res pb bs0 u) =
  cadd (volume_terms dim nq det inv fes ph vars u vt)
       (sumf (fun b => surface_terms dim nfq det inv norm fes b u vt) bnd).
Proof.
  intros K dim nq nfq det inv norm V W fes vw ph vars bnd vj sj xv xs pb bs0 u vt
         WF Hpos WB [KV KB] TJ TS Hbs EB.
  set (L := layout_of fes).
  assert (LM : forall (mm : mass_map K V) u x, length fes = 1 -> length (mass_kernel nq fes mm u x) = num_local fes).
  { intros mm u' x H1. rewrite (mass_as_weak K dim) by exact H1. apply weak_form_kernel_length. }
  assert (LT : forall (tm : tensor_map K V) u x, length fes = 1 -> length (laplace_kernel dim nq fes tm u x) = num_local fes).
  { intros tm u' x H1. rewrite laplace_as_weak by exact H1. apply weak_form_kernel_length. }
  assert (LS : forall (sm : surface_map K W) u x, length fes = 1 -> length (surface_kernel nfq fes sm u x) = num_local fes).
  { intros sm u' x H1. rewrite map_as_weak by exact H1. apply surface_weak_form_kernel_length. }
  assert (H1 : (1 <? length fes) = false -> length fes = 1) by (intros E; apply Nat.ltb_ge in E; lia).
  assert (SB : forall b k, In b bnd -> surface_kernel_of nfq fes (bd_ph b) = Some k -> skern_shape K W fes k).
  { intros b k Hb Ek u' x. unfold surface_kernel_of in Ek. destruct (1 <? length fes).
    - destruct (bp_universal (bd_ph b)) eqn:EU; [injection Ek as <-; eapply KB; eassumption|].
      destruct (bp_weak (bd_ph b)); [injection Ek as <-; apply surface_weak_form_kernel_length|].
      destruct (bp_map (bd_ph b)); [discriminate|]. injection Ek as <-. apply repeat_length.
    - destruct (bp_map (bd_ph b)), (bp_universal (bd_ph b)) eqn:EU; injection Ek as <-; auto.
      + rewrite vadd_length; rewrite LS; auto. symmetry. eapply KB; eassumption.
      + eapply KB; eassumption.
      + apply repeat_length. }
  destruct (volume_kernel dim nq fes ph) as [kv|] eqn:EK.
  2:{ unfold build in EB. rewrite EK in EB. discriminate. }
  set (tm := match ph_tensor ph with Some t => Some t | None => ph_energy_grad ph end).
  set (base := match ph_universal ph with
               | Some k => Some k
               | None => if 1 <? length fes then option_map (weak_form_kernel dim nq fes) (ph_weak ph)
                         else opt_add (option_map (mass_kernel nq fes) (ph_mass ph)) (option_map (laplace_kernel dim nq fes) tm)
               end).
  assert (EV : opt_add base (ph_extra ph) = Some kv).
  { rewrite <- EK. unfold volume_kernel, base. fold tm.
    destruct (ph_universal ph) eqn:EU; [reflexivity|].
    destruct (1 <? length fes) eqn:Hm; destruct (ph_weak ph) eqn:EW; try reflexivity.
    exfalso. unfold volume_kernel in EK. rewrite EU, EW, Hm in EK. discriminate. }
  assert (SBase : forall k, base = Some k -> kern_shape K V fes k).
  { intros k Ek u' x. unfold base in Ek. destruct (ph_universal ph) eqn:EU.
    - injection Ek as <-. apply KV. auto.
    - destruct (1 <? length fes) eqn:Hm.
      + destruct (ph_weak ph); [|discriminate]. injection Ek as <-. apply weak_form_kernel_length.
      + specialize (H1 eq_refl). destruct (ph_mass ph), tm; cbn [option_map opt_add] in Ek; try discriminate; injection Ek as <-; auto.
        unfold add_kernel. rewrite vadd_length; rewrite LM; auto. symmetry. auto. }
  assert (SE : forall k, ph_extra ph = Some k -> kern_shape K V fes k) by (intros k Ek u' x; apply KV; auto).
  assert (SV : kern_shape K V fes kv).
  { destruct base as [b0|], (ph_extra ph) as [e0|]; cbn [opt_add] in EV; try discriminate; injection EV as <-; auto.
    intros u' x. unfold add_kernel. rewrite vadd_length; [apply SBase; reflexivity|].
    rewrite (SBase _ eq_refl), (SE _ eq_refl). reflexivity. }
  rewrite (build_work K dim nq nfq det inv norm V W fes WF vw ph vars bnd vj sj xv xs WB TJ TS kv EK SV SB pb EB bs0 u vt Hbs).
  set (cw := fun k => Sum (num_cells fes) (cell_work K dim det inv V fes vars k u vt)).
  assert (CA : forall a b, kern_shape K V fes a -> kern_shape K V fes b -> cw (add_kernel a b) = cadd (cw a) (cw b)).
  { intros a b Sa Sb. unfold cw. rewrite <- Sum_add. apply Sum_ext. intros c Hc. unfold cell_work. rewrite <- Sum_add.
    apply Sum_ext. intros j Hj. unfold add_kernel. rewrite elem_res_vadd by auto. apply kdistr. }
  assert (CO : forall a b k, opt_add a b = Some k ->
                 (forall x, a = Some x -> kern_shape K V fes x) -> (forall x, b = Some x -> kern_shape K V fes x) ->
                 cw k = cadd (opt_term a cw) (opt_term b cw)).
  { intros [a|] [b|] k Ek Sa Sb; cbn [opt_add opt_term] in *; try discriminate; injection Ek as <-.
    - apply CA; auto.
    - symmetry. apply kadd0r.
    - symmetry. apply kadd0l. }
  assert (CU : forall k, kern_shape K V fes k -> cw k = kernel_work dim det inv fes k vars u vt).
  { intros k Sk. unfold cw, kernel_work. apply Sum_ext. intros c Hc. unfold cell_work. cbv zeta.
    rewrite (test_elem K _ (num_local fes)).
    - rewrite cell_dofs_length by assumption. reflexivity.
    - apply cell_dofs_length; assumption.
    - intros x Hx. eapply cell_dofs_lt; eassumption. }
  f_equal.
  - fold (cw kv). rewrite (CO _ _ _ EV SBase SE). unfold volume_terms. f_equal.
    + destruct (ph_universal ph) as [k|] eqn:EU.
      * cbn [opt_term]. unfold base. cbn [opt_term]. apply CU. apply SBase. reflexivity.
      * unfold base. destruct (1 <? length fes) eqn:Hm.
        -- destruct (ph_weak ph) as [wf|]; cbn [option_map opt_term]; [|reflexivity]. apply opt_cell_work. exact WF.
        -- specialize (H1 eq_refl). fold tm.
           assert (EM : forall mm, cw (mass_kernel nq fes mm) = mass_volume dim nq det fes mm vars u vt).
           { intros mm. rewrite <- weak_mass with (1 := H1) (inv := inv).
             rewrite <- opt_cell_work by exact WF. apply Sum_ext. intros c Hc. apply work_ext. intros u' x. apply mass_as_weak. exact H1. }
           assert (ET : forall t, cw (laplace_kernel dim nq fes t) = tensor_volume dim nq det inv fes t vars u vt).
           { intros t. rewrite <- weak_tensor with (1 := H1).
             rewrite <- opt_cell_work by exact WF. apply Sum_ext. intros c Hc. apply work_ext. intros u' x. apply laplace_as_weak. exact H1. }
           destruct (ph_mass ph) as [mm|], tm as [t|]; cbn [option_map opt_add opt_term].
           ++ rewrite CA; [rewrite EM, ET; reflexivity | intros ? ?; auto | intros ? ?; auto].
           ++ rewrite EM, kadd0r. reflexivity.
           ++ rewrite ET, kadd0l. reflexivity.
           ++ symmetry. apply kadd0l.
    + destruct (ph_extra ph) as [k|]; cbn [opt_term]; [|reflexivity]. apply CU. apply SE. reflexivity.
  - apply sumf_ext. intros b Hb.
    set (fw := fun k => sumf (face_work K dim det inv norm W fes k u vt) (combine (bd_inds b) (bd_vars b))).
    assert (FU : forall k, skern_shape K W fes k -> fw k = face_kernel_work dim det inv norm fes k b u vt).
    { intros k Sk. unfold fw, face_kernel_work. apply sumf_ext. intros [cg w] Hp. unfold face_work. cbv zeta. cbn [fst snd].
      assert (Hc : fst cg < num_cells fes) by (apply (proj2 (WB b Hb)); eapply in_combine_l; exact Hp).
      rewrite (test_elem K _ (num_local fes)).
      - rewrite cell_dofs_length by assumption. reflexivity.
      - apply cell_dofs_length; assumption.
      - intros x Hx. eapply cell_dofs_lt; eassumption. }
    assert (FZ : fw (fun _ _ => zeros (num_local fes)) = c0).
    { apply sumf_zero. intros p Hp. unfold face_work. apply Sum_zero. intros j Hj. rewrite elem_res_zeros. apply kmul0. }
    unfold surface_terms, surface_kernel_of. destruct (1 <? length fes) eqn:Hm.
    + destruct (bp_universal (bd_ph b)) as [k|] eqn:EU.
      * apply FU. intros u' x. eapply KB; eassumption.
      * destruct (bp_weak (bd_ph b)) as [sw|]; cbn [opt_term]; [apply opt_face_work; auto|].
        destruct (bp_map (bd_ph b)); [reflexivity|]. exact FZ.
    + specialize (H1 eq_refl).
      assert (EM : forall sm, fw (surface_kernel nfq fes sm) = map_surface dim nfq det inv norm fes sm b u vt).
      { intros sm. rewrite <- weak_map with (1 := H1). rewrite <- opt_face_work by auto. apply sumf_ext. intros p Hp.
        apply fwork_ext. intros u' x. apply map_as_weak. exact H1. }
      destruct (bp_map (bd_ph b)) as [sm|], (bp_universal (bd_ph b)) as [k|] eqn:EU; cbn [opt_term].
      * rewrite <- EM, <- FU by (intros u' x; eapply KB; eassumption). unfold fw. rewrite <- sumf_add.
        apply sumf_ext. intros p Hp. unfold face_work. rewrite <- Sum_add. apply Sum_ext. intros j Hj.
        rewrite elem_res_vadd; [apply kdistr | auto | eapply KB; eassumption].
      * rewrite kadd0r. apply EM.
      * rewrite kadd0l. apply FU. intros u' x. eapply KB; eassumption.
      * rewrite kadd0l. exact FZ.
Qed.
Print Assumptions C63_composition.

(** Problems that are rejected: several variables without a weak form or universal kernel,
    and [get_surface_maps] with several variables. *)
Theorem C63_rejected :
  forall (K : CRing) dim nq nfq det inv norm (V W : Type) (fes : list (fe K)) vw (ph : physics K V)
         vars (bnd : list (bdata K W)) vj sj xv xs,
  1 < length fes ->
  (ph_universal ph = None /\ ph_weak ph = None) \/
  (exists b sm, In b bnd /\ bp_universal (bd_ph b) = None /\ bp_weak (bd_ph b) = None /\ bp_map (bd_ph b) = Some sm) ->
  build dim nq nfq det inv norm fes vw ph vars bnd vj sj xv xs = None.
Proof.
  intros K dim nq nfq det inv norm V W fes vw ph vars bnd vj sj xv xs Hm H.
  assert (Hm' : (1 <? length fes) = true) by (apply Nat.ltb_lt; exact Hm).
  unfold build. destruct H as [[E1 E2] | (b & sm & Hb & E1 & E2 & E3)].
  - unfold volume_kernel. rewrite E1, E2, Hm'. reflexivity.
  - destruct (volume_kernel dim nq fes ph); [|reflexivity].
    assert (EN : all_opt (map (build_boundary dim nfq det inv norm fes sj xs) bnd) = None); [|rewrite EN; reflexivity].
    induction bnd as [|b0 t IH]; [destruct Hb|]. cbn. destruct Hb as [->|Hb].
    + unfold build_boundary at 1, surface_kernel_of. rewrite Hm', E1, E2, E3. reflexivity.
    + rewrite (IH Hb). destruct (build_boundary _ _ _ _ _ _ _ _ b0); reflexivity.
Qed.
Print Assumptions C63_rejected.

(** A concrete coupled problem over the integers: two linear elements on [0,2], a scalar
    variable and a 2-component variable, nodal quadrature, a load on the right end. *)
Definition ex_fe (vec : nat) : fe ZK :=
  @Build_fe ZK vec 2 [[0%Z]; [1%Z]; [2%Z]] [[0; 1]; [1; 2]]
    (fun q n => if q =? n then 1%Z else 0%Z) (fun _ n _ => if n =? 0 then (-1)%Z else 1%Z) (fun _ => 1%Z)
    (fun g _ n => if g =? n then 1%Z else 0%Z) (fun _ _ n _ => if n =? 0 then (-1)%Z else 1%Z)
    (fun g _ => if g =? 0 then (-1)%Z else 1%Z) (fun _ _ => 1%Z).
Definition ex_fes : list (fe ZK) := [ex_fe 1; ex_fe 2].
Definition ex_det (m : list (list Z)) : Z := get2 (K := ZK) m 0 0.
Definition ex_inv (m : list (list Z)) : list (list Z) := m.
Definition ex_norm (m : list Z) : Z := Z.abs (nth 0 m 0%Z).
Definition ex_wf : weak_form ZK Z := fun l g x y =>
  ([[(get (K := ZK) (nth 0 l []) 0 * get (K := ZK) (nth 1 l []) 1 - y)%Z]; [get (K := ZK) x 0; 0%Z]],
   [[[(y * get2 (K := ZK) (nth 0 g []) 0 0)%Z]]; [[get2 (K := ZK) (nth 1 g []) 1 0]; [(get2 (K := ZK) (nth 1 g []) 0 0 * get2 (K := ZK) (nth 0 g []) 0 0)%Z]]]).
Definition ex_sw : surface_weak_form ZK Z := fun l x y => [[(y + get (K := ZK) (nth 0 l []) 0)%Z]; [(2 * y)%Z; get (K := ZK) x 0]].
Definition ex_ph : physics ZK Z :=
  Build_physics ZK Z None (Some ex_wf) None None None (Some (fun u _ => map (fun a => (a * a)%Z) u)).
Definition ex_bnd : list (bdata ZK Z) := [Build_bdata ZK Z [(1, 1)] (Build_bphysics ZK Z None (Some ex_sw) None) [fun _ => 7%Z]].
Definition ex_vars (c q : nat) : Z := Z.of_nat (c + 2 * q + 1).
Definition ex_build :=
  build (K := ZK) 1 2 1 ex_det ex_inv ex_norm ex_fes FULL ex_ph ex_vars ex_bnd (fun _ _ => repeat 0%Z 36) (fun _ _ => repeat 0%Z 36)
    (vinp_of 1 ex_det ex_inv ex_fes ex_vars 0) (finp_of 1 ex_det ex_inv ex_norm ex_fes (fun _ => 0%Z) (0, 0)).
Example C63_example :
  wf_fes ex_fes /\ (forall b, In b ex_bnd -> wf_bdata ex_fes b) /\
  exists pb, ex_build = Some pb /\
    get_res pb 1 [1; 2; 3; 1; 2; 3; 4; 5; 6]%Z = [-2; 17; 39; -3; 0; 20; 32; 45; 42]%Z /\
    virtual_work (pr_n pb) [3; 1; 4; 1; 5; 9; 2; 6; 5]%Z (get_res pb 1 [1; 2; 3; 1; 2; 3; 4; 5; 6]%Z) =
    cadd (volume_terms 1 2 ex_det ex_inv ex_fes ex_ph ex_vars [1; 2; 3; 1; 2; 3; 4; 5; 6]%Z [3; 1; 4; 1; 5; 9; 2; 6; 5]%Z)
         (sumf (fun b => surface_terms 1 1 ex_det ex_inv ex_norm ex_fes b [1; 2; 3; 1; 2; 3; 4; 5; 6]%Z [3; 1; 4; 1; 5; 9; 2; 6; 5]%Z) ex_bnd).
Proof.
  split.
  { intros f Hf. split; [destruct Hf as [<-|[<-|[]]]; reflexivity|].
    intros c Hc. destruct Hf as [<-|[<-|[]]]; cbn in Hc; destruct Hc as [<-|[<-|[]]]; (split; [reflexivity|]);
      cbn; intros n Hn; lia. }
  split.
  { intros b [<-|[]]. split; [reflexivity|]. intros cg [<-|[]]. cbn. lia. }
  eexists. split; [reflexivity|]. split; vm_compute; reflexivity.
Qed.

(** ** C64 *)

Section C64.
  Variable K : CRing.
  Add Ring Kring64 : (cth K).
  Local Open Scope ring_K.

  (** [inv] inverts the geometric Jacobian of cell [c] at quadrature point [q]; the shape
      functions of [f] sum to a constant. *)
  Definition inverse_ok (dim : nat) (inv : list (list K) -> list (list K)) (f : fe K) (c q : nat) : Prop :=
    forall i d, i < dim -> d < dim ->
      Sum dim (fun e => get2 (jac dim f c q) i e * get2 (inv (jac dim f c q)) e d) = if (i =? d)%nat then 1 else 0.
  Definition unity (dim : nat) (f : fe K) : Prop :=
    forall q e, e < dim -> Sum (fe_nn f) (fun n => fe_sgref f q n e) = 0.

  (** Gradients of shape functions sum to zero over the element. *)
  Lemma shape_grad_unity dim inv f c q d : unity dim f -> Sum (fe_nn f) (fun n => shape_grad dim inv f c q n d) = 0.
  Proof.
    intros U. unfold shape_grad. rewrite Sum_swap. apply Sum_zero. intros e He.
    transitivity (Sum (fe_nn f) (fun n => fe_sgref f q n e) * get2 (inv (jac dim f c q)) e d).
    - rewrite <- Sum_mul_r. reflexivity.
    - rewrite U by exact He. ring.
  Qed.

  Lemma nodal_work_eq n (R R' : list K) : length R = n -> length R' = n ->
    (forall v, virtual_work n v R = virtual_work n v R') -> R = R'.
  Proof.
    intros L L' E. apply (nth_ext _ _ 0 0); [congruence|]. intros i Hi.
    specialize (E (map (fun j => if j =? i then 1 else 0) (seq 0 n))).
    unfold virtual_work in E.
    assert (X : forall R : list K, Sum n (fun j => get (map (fun j => if (j =? i)%nat then 1 else 0) (seq 0 n)) j * get R j) = get R i).
    { intros R0. rewrite (Sum_ext K _ _ (fun j => if (j =? i)%nat then get R0 j else 0)).
      - apply Sum_single. lia.
      - intros j Hj. change (map (fun j0 => if (j0 =? i)%nat then 1 else 0) (seq 0 n)) with (tab n (fun j0 => if (j0 =? i)%nat then @c1 K else 0)).
        rewrite get_tab by exact Hj. destruct (j =? i)%nat; ring. }
    rewrite !X in E. exact E.
  Qed.

  Lemma affine_gradient dim inv (fes : list (fe K)) i u c q (A : nat -> nat -> K) (b : nat -> K) :
    inverse_ok dim inv (fe_at fes i) c q -> unity dim (fe_at fes i) ->
    (forall n k, n < fe_nn (fe_at fes i) -> k < fe_vec (fe_at fes i) ->
       nodal fes i u c n k = b k + Sum dim (fun j => A k j * coo (fe_at fes i) c n j)) ->
    forall k d, k < fe_vec (fe_at fes i) -> d < dim -> get2 (grad_at dim inv fes i u c q) k d = A k d.
  Proof.
    intros HI HU HA k d Hk Hd. unfold grad_at. rewrite (get2_tab K _ dim) by assumption.
    set (f := fe_at fes i) in *.
    transitivity (Sum (fe_nn f) (fun n => shape_grad dim inv f c q n d * b k) +
                  Sum (fe_nn f) (fun n => Sum dim (fun j => A k j * (coo f c n j * shape_grad dim inv f c q n d)))).
    { rewrite <- Sum_add. apply Sum_ext. intros n Hn. rewrite HA by assumption.
      transitivity (shape_grad dim inv f c q n d * b k + Sum dim (fun j => A k j * coo f c n j) * shape_grad dim inv f c q n d); [ring|].
      f_equal. rewrite <- Sum_mul_r. apply Sum_ext. intros j Hj. ring. }
    rewrite Sum_mul_r, shape_grad_unity by exact HU. rewrite Sum_swap.
    transitivity (Sum dim (fun j => if (j =? d)%nat then A k j else 0)); [|apply Sum_single; exact Hd].
    transitivity (Sum dim (fun j => A k j * (if (j =? d)%nat then 1 else 0))).
    2:{ apply Sum_ext. intros j Hj. destruct (j =? d)%nat; ring. }
    match goal with |- 0 * _ + ?x = _ => transitivity x; [ring|] end.
    apply Sum_ext. intros j Hj. rewrite Sum_mul_l. f_equal.
    rewrite <- (HI j d Hj Hd).
    unfold shape_grad. 
    transitivity (Sum (fe_nn f) (fun n => Sum dim (fun e => coo f c n j * fe_sgref f q n e * get2 (inv (jac dim f c q)) e d))).
    { apply Sum_ext. intros n Hn. rewrite <- Sum_mul_l. apply Sum_ext. intros e He. ring. }
    rewrite Sum_swap. apply Sum_ext. intros e He. rewrite Sum_mul_r. f_equal.
    unfold jac. rewrite (get2_tab K _ dim) by assumption. reflexivity.
  Qed.

  (** Vectors of a single-variable problem: entry [a * vec + k] is component [k] of node [a]. *)
  Lemma dof_single (f : fe K) a k : dof (layout_of [f]) 0 a k = (a * fe_vec f + k)%nat.
  Proof. unfold dof, layout_of. cbn. lia. Qed.

  Lemma grad_shift dim inv (f : fe K) c q u u' (b : nat -> K) :
    wf_fes [f] -> unity dim f -> c < length (fe_cells f) ->
    (forall a k, a < length (fe_points f) -> k < fe_vec f -> get u' (a * fe_vec f + k) = get u (a * fe_vec f + k) + b k) ->
    grad_at dim inv [f] 0 u' c q = grad_at dim inv [f] 0 u c q.
  Proof.
    intros WF U Hc E. unfold grad_at. cbn [fe_at nth]. apply tab_ext. intros k Hk. apply tab_ext. intros d Hd.
    transitivity (Sum (fe_nn f) (fun n => shape_grad dim inv f c q n d * nodal [f] 0 u c n k) +
                  Sum (fe_nn f) (fun n => shape_grad dim inv f c q n d * b k)).
    - rewrite <- Sum_add. apply Sum_ext. intros n Hn. unfold nodal. rewrite !dof_single. cbn [fe_at nth].
      rewrite E; [ring| |exact Hk].
      destruct (WF f (or_introl eq_refl)) as [_ W]. apply (W (nth c (fe_cells f) [])); [apply nth_In; exact Hc|].
      unfold node_of. apply nth_In. rewrite (proj1 (W _ (nth_In _ _ Hc))). exact Hn.
    - rewrite Sum_mul_r, shape_grad_unity by exact U. ring.
  Qed.

  Lemma grad_const dim inv (f : fe K) c q v (b : nat -> K) :
    wf_fes [f] -> unity dim f -> c < length (fe_cells f) ->
    (forall a k, a < length (fe_points f) -> k < fe_vec f -> get v (a * fe_vec f + k) = b k) ->
    forall k d, k < fe_vec f -> d < dim -> get2 (grad_at dim inv [f] 0 v c q) k d = 0.
  Proof.
    intros WF U Hc E k d Hk Hd.
    rewrite (grad_shift dim inv f c q (zeros 0) v b WF U Hc).
    - unfold grad_at. cbn [fe_at nth]. rewrite (get2_tab K _ dim) by assumption. apply Sum_zero. intros n Hn.
      unfold nodal. rewrite get_zeros. ring.
    - intros a k' Ha Hk'. rewrite E by assumption. rewrite get_zeros. ring.
  Qed.
End C64.

(** An affine nodal field of any variable has exactly its linear part as the discrete
    gradient, at every quadrature point where [inv] inverts the element map. *)
Theorem C64_affine_gradient :
  forall (K : CRing) dim inv (fes : list (fe K)) i u c q (A : nat -> nat -> K) (b : nat -> K),
  inverse_ok K dim inv (fe_at fes i) c q -> unity K dim (fe_at fes i) ->
  (forall n k, n < fe_nn (fe_at fes i) -> k < fe_vec (fe_at fes i) ->
     nodal fes i u c n k = cadd (b k) (Sum dim (fun j => cmul (A k j) (coo (fe_at fes i) c n j)))) ->
  forall k d, k < fe_vec (fe_at fes i) -> d < dim -> get2 (grad_at dim inv fes i u c q) k d = A k d.
Proof. exact affine_gradient. Qed.
Print Assumptions C64_affine_gradient.

(** A problem whose only term is a stress (tensor map or energy density), no boundary loads:
    translating the body changes no internal force, and the internal forces balance (their
    work on any translation [b] is zero). *)
Theorem C64_translation :
  forall (K : CRing) dim nq nfq det inv norm (V W : Type) (f : fe K) vw (ph : physics K V)
         vars vj sj xv xs pb bs0 (u u' v : list K) (b : nat -> K),
  wf_fes [f] -> unity K dim f ->
  (forall u x, length (vj u x) = num_local [f] * num_local [f]) ->
  (forall u x, length (sj u x) = num_local [f] * num_local [f]) ->
  0 < bs0 ->
  ph_universal ph = None -> ph_extra ph = None -> ph_mass ph = None ->
  build dim nq nfq det inv norm [f] vw ph vars (@nil (bdata K W)) vj sj xv xs = Some pb ->
  ((forall a k, a < length (fe_points f) -> k < fe_vec f ->
      get u' (a * fe_vec f + k) = cadd (get u (a * fe_vec f + k)) (b k)) ->
   get_res pb bs0 u' = get_res pb bs0 u) /\
  ((forall a k, a < length (fe_points f) -> k < fe_vec f -> get v (a * fe_vec f + k) = b k) ->
   virtual_work (pr_n pb) v (get_res pb bs0 u) = c0).
Proof.
  intros K dim nq nfq det inv norm V W f vw ph vars vj sj xv xs pb bs0 u u' v b WF U TJ TS Hbs PU PE PM EB.
  assert (KS : kernel_shapes [f] ph (@nil (bdata K W))).
  { split; [|intros b0 k []]. intros k [E|E]; congruence. }
  assert (VT : forall u v, virtual_work (pr_n pb) v (get_res pb bs0 u) =
     opt_term (match ph_tensor ph with Some t => Some t | None => ph_energy_grad ph end)
              (fun tm => tensor_volume dim nq det inv [f] tm vars u v)).
  { intros u0 v0.
    rewrite (C63_composition K dim nq nfq det inv norm V W [f] vw ph vars nil vj sj xv xs pb bs0 u0 v0 WF
               (Nat.lt_0_succ 0) (fun b H => match H with end) KS TJ TS Hbs EB).
    unfold volume_terms. rewrite PU, PE, PM. cbn [length Nat.ltb Nat.leb opt_term sumf].
    rewrite !kadd0r, kadd0l. reflexivity. }
  assert (LR : forall u, length (get_res pb bs0 u) = pr_n pb) by (intros; apply get_res_length).
  split.
  - intros E. apply (nodal_work_eq K (pr_n pb)); auto. intros v0. rewrite !VT.
    destruct (match ph_tensor ph with Some t => Some t | None => ph_energy_grad ph end) as [tm|]; cbn [opt_term]; [|reflexivity].
    unfold tensor_volume, over_cells. apply Sum_ext. intros c Hc. apply Sum_ext. intros q Hq.
    rewrite (grad_shift K dim inv f c q u u' b WF U Hc E). reflexivity.
  - intros E. rewrite VT.
    destruct (match ph_tensor ph with Some t => Some t | None => ph_energy_grad ph end) as [tm|]; cbn [opt_term]; [|reflexivity].
    unfold tensor_volume, over_cells. apply Sum_zero. intros c Hc. apply Sum_zero. intros q Hq.
    match goal with |- cmul _ ?x = _ => assert (Z : x = c0); [|rewrite Z; apply kmul0] end.
    apply Sum_zero. intros k Hk. apply Sum_zero. intros d Hd.
    rewrite (grad_const K dim inv f c q v b WF U Hc E k d Hk Hd). apply kmul0.
Qed.
Print Assumptions C64_translation.

(** The residual is the derivative of the energy: if [sigma] is the derivative of the energy
    density [psi] (first-order expansion with step [t], e.g. a dual number with [t * t = 0]), then the total
    energy computed by [create_energy_fn] expands with the residual vector as its gradient. *)
Theorem C64_energy_gradient :
  forall (K : CRing) dim nq nfq det inv norm (V W : Type) (f : fe K) vw (ph : physics K V) (psi : list (list K) -> V -> K)
         sigma vars vj sj xv xs pb bs0 (u v w : list K) (t : K),
  wf_fes [f] ->
  (forall u x, length (vj u x) = num_local [f] * num_local [f]) ->
  (forall u x, length (sj u x) = num_local [f] * num_local [f]) ->
  0 < bs0 ->
  ph_universal ph = None -> ph_extra ph = None -> ph_mass ph = None ->
  ph_tensor ph = None -> ph_energy_grad ph = Some sigma ->
  build dim nq nfq det inv norm [f] vw ph vars (@nil (bdata K W)) vj sj xv xs = Some pb ->
  (forall g h y, psi (tab (fe_vec f) (fun k => tab dim (fun d => cadd (get2 g k d) (cmul t (get2 h k d))))) y =
                 cadd (psi g y) (cmul t (dot2 (fe_vec f) dim (sigma g y) h))) ->
  (forall i, i < pr_n pb -> get w i = cadd (get u i) (cmul t (get v i))) ->
  energy dim nq det inv [f] psi vars w =
  cadd (energy dim nq det inv [f] psi vars u) (cmul t (virtual_work (pr_n pb) v (get_res pb bs0 u))).
Proof.
  intros K dim nq nfq det inv norm V W f vw ph psi sigma vars vj sj xv xs pb bs0 u v w t
         WF TJ TS Hbs PU PE PM PT PG EB Hpsi Hw.
  assert (KS : kernel_shapes [f] ph (@nil (bdata K W))).
  { split; [|intros b0 k []]. intros k [E|E]; congruence. }
  rewrite (C63_composition K dim nq nfq det inv norm V W [f] vw ph vars nil vj sj xv xs pb bs0 u v WF
             (Nat.lt_0_succ 0) (fun b H => match H with end) KS TJ TS Hbs EB).
  unfold volume_terms. rewrite PU, PE, PM, PT, PG. change (1 <? length [f]) with false. cbn [opt_term sumf].
  rewrite !kadd0r, kadd0l.
  assert (PN : pr_n pb = length (fe_points f) * fe_vec f).
  { unfold build in EB. destruct (volume_kernel dim nq [f] ph); [|discriminate]. cbn [map all_opt] in EB. injection EB as <-.
    cbn [pr_n]. unfold total_dofs, layout_of, sizes. cbn. lia. }
  assert (G : forall x c q, op_grad dim f (fun n k => get x (node_of f c n * fe_vec f + k)) (shape_grad dim inv f c q) =
              grad_at dim inv [f] 0 x c q).
  { intros x c q. unfold op_grad, grad_at. cbn [fe_at nth]. apply tab_ext. intros k Hk. apply tab_ext. intros d Hd.
    apply Sum_ext. intros n Hn. unfold nodal. rewrite dof_single. cbn [fe_at nth]. apply kcomm. }
  unfold energy, tensor_volume, over_cells. change (fe_at [f] 0) with f.
  rewrite <- Sum_mul_l, <- Sum_add. apply Sum_ext. intros c Hc. cbv beta.
  rewrite <- Sum_mul_l, <- Sum_add. apply Sum_ext. intros q Hq.
  rewrite !G.
  assert (EG : grad_at dim inv [f] 0 w c q =
     tab (fe_vec f) (fun k => tab dim (fun d => cadd (get2 (grad_at dim inv [f] 0 u c q) k d)
                                                    (cmul t (get2 (grad_at dim inv [f] 0 v c q) k d))))).
  { unfold grad_at. cbn [fe_at nth]. apply tab_ext. intros k Hk. apply tab_ext. intros d Hd.
    rewrite !(get2_tab K _ dim) by assumption. rewrite <- Sum_mul_l, <- Sum_add. apply Sum_ext. intros n Hn.
    unfold nodal. rewrite dof_single. cbn [fe_at nth]. rewrite Hw; [apply kexpand|]. rewrite PN.
    destruct (WF f (or_introl eq_refl)) as [_ W0].
    assert (B : node_of f c n < length (fe_points f)).
    { apply (W0 (nth c (fe_cells f) [])); [apply nth_In; exact Hc|].
      unfold node_of. apply nth_In. rewrite (proj1 (W0 _ (nth_In _ _ Hc))). exact Hn. }
    nia. }
  rewrite EG, Hpsi. apply kexpand2.
Qed.
Print Assumptions C64_energy_gradient.

(** Concrete cases. Affine field [3 x + 5] on the mesh above: the gradient is 3. *)
Example C64_example_affine :
  inverse_ok ZK 1 ex_inv (ex_fe 1) 1 0 /\ unity ZK 1 (ex_fe 1) /\
  grad_at 1 ex_inv [ex_fe 1] 0 [5; 8; 11]%Z 1 0 = [[3%Z]].
Proof.
  split; [|split; [|reflexivity]].
  - intros i d Hi Hd. assert (i = 0) by lia. assert (d = 0) by lia. subst. reflexivity.
  - intros q e He. reflexivity.
Qed.

(** Dual numbers over the integers: [a + b t] with [t * t = 0]. *)
Lemma dual_ring : ring_theory (0, 0)%Z (1, 0)%Z
  (fun x y => (fst x + fst y, snd x + snd y)%Z) (fun x y => (fst x * fst y, fst x * snd y + snd x * fst y)%Z)
  (fun x y => (fst x - fst y, snd x - snd y)%Z) (fun x => (- fst x, - snd x)%Z) (@eq (Z * Z)).
Proof.
  constructor; intros; repeat match goal with x : (Z * Z)%type |- _ => destruct x end; cbn [fst snd]; f_equal; ring.
Qed.
Definition dual : CRing := {| cth := dual_ring |}.
Definition dz (x : Z) : dual := (x, 0%Z).
Definition dual_fe : fe dual :=
  @Build_fe dual 1 2 [[dz 0]; [dz 1]; [dz 2]] [[0; 1]; [1; 2]]
    (fun q n => if q =? n then dz 1 else dz 0) (fun _ n _ => if n =? 0 then dz (-1) else dz 1) (fun _ => dz 1)
    (fun g _ n => if g =? n then dz 1 else dz 0) (fun _ _ n _ => if n =? 0 then dz (-1) else dz 1)
    (fun g _ => if g =? 0 then dz (-1) else dz 1) (fun _ _ => dz 1).
Definition dual_psi (g : list (list dual)) (y : dual) : dual :=
  let a := get2 g 0 0 in cmul y (cmul a (cmul a a)).
Definition dual_sigma (g : list (list dual)) (y : dual) : list (list dual) :=
  let a := get2 g 0 0 in [[cmul (dz 3) (cmul y (cmul a a))]].
Definition dual_eps : dual := (0, 1)%Z.
Definition dual_ph : physics dual dual := Build_physics dual dual None None None None (Some dual_sigma) None.
Definition dual_det (m : list (list dual)) : dual := get2 m 0 0.
Definition dual_inv (m : list (list dual)) : list (list dual) := m.
Definition dual_build :=
  build (K := dual) 1 2 1 dual_det dual_inv (fun _ => dz 0) [dual_fe] FULL dual_ph (fun c q => dz (Z.of_nat (c + q + 1)))
    (@nil (bdata dual dual)) (fun _ _ => repeat (dz 0) 4) (fun _ _ => repeat (dz 0) 4)
    (vinp_of 1 dual_det dual_inv [dual_fe] (fun c q => dz 0) 0)
    (finp_of 1 dual_det dual_inv (fun _ => dz 0) [dual_fe] (fun _ => dz 0) (0, 0)).
(** The energy density [y a^3] has derivative [3 y a^2]; the energy at [u + t v] is
    [344 - 852 t]: 344 is the energy at [u], and -852 the work of the residual on [v]. *)
Example C64_example_energy :
  wf_fes [dual_fe] /\
  (forall g h y, dual_psi (tab 1 (fun k => tab 1 (fun d => cadd (get2 g k d) (cmul dual_eps (get2 h k d))))) y =
                 cadd (dual_psi g y) (cmul dual_eps (dot2 1 1 (dual_sigma g y) h))) /\
  exists pb, dual_build = Some pb /\
    energy 1 2 dual_det dual_inv [dual_fe] dual_psi (fun c q => dz (Z.of_nat (c + q + 1)))
      [(1, 2); (3, 5); (7, 1)]%Z = (344, -852)%Z /\
    virtual_work (pr_n pb) [dz 2; dz 5; dz 1] (get_res pb 1 [dz 1; dz 3; dz 7]) = dz (-852) /\
    energy 1 2 dual_det dual_inv [dual_fe] dual_psi (fun c q => dz (Z.of_nat (c + q + 1))) [dz 1; dz 3; dz 7] = dz 344.
Proof.
  split; [|split].
  - intros f [<-|[]]. split; [reflexivity|]. intros c [<-|[<-|[]]]; (split; [reflexivity|]); cbn; intros n Hn; lia.
  - intros g h y. unfold dual_psi, dual_sigma, dot2. rewrite (get2_tab dual 1 1) by lia.
    unfold Sum. cbn [seq sumf]. cbv zeta.
    change (get2 [[cmul (dz 3) (cmul y (cmul (get2 g 0 0) (get2 g 0 0)))]] 0 0)
      with (cmul (dz 3) (cmul y (cmul (get2 g 0 0) (get2 g 0 0)))).
    destruct (get2 g 0 0) as [a a'], (get2 h 0 0) as [b b'], y as [y y']. cbn -[Z.add Z.mul]. f_equal; ring.
  - eexists. split; [reflexivity|]. split; [|split]; vm_compute; reflexivity.
Qed.
