(** Results do not depend on how nodes, cells and boundary faces are numbered. *)
From Coq Require Import FunctionalExtensionality.
From Verif Require Import Base Csr_Model Csr_Props Assembly_Model Assembly_Spec Ops_Proofs Assembly_Proofs AssemblyMain_Proofs Assembly_Props Dof_Model Dof_Spec Dof_Proofs
                          Bc_Model Bc_Proofs Bc_Props Kernel_Model Kernel_Spec Kernel_Proofs Kernel_Props.
From Coq Require Import List Arith Lia Permutation ZArith.
Import ListNotations.

(** ** Specification *)
Section Spec.
  Variable K : CRing.

  (** The same element (tables, components) on another mesh. *)
  Definition same_element (f f' : fe K) : Prop :=
    f' = {| fe_vec := fe_vec f; fe_nn := fe_nn f; fe_points := fe_points f'; fe_cells := fe_cells f';
            fe_sv := fe_sv f; fe_sgref := fe_sgref f; fe_w := fe_w f; fe_fsv := fe_fsv f; fe_fsgref := fe_fsgref f;
            fe_fnormal := fe_fnormal f; fe_fw := fe_fw f |}.

  (** [fes'] is [fes] with cell [c] renumbered [sigma c] and node [a] of variable [i] renumbered [pi i a]. *)
  Record renumbered (fes fes' : list (fe K)) (sigma : nat -> nat) (pi : nat -> nat -> nat) : Prop := {
    rn_len : length fes' = length fes;
    rn_same : forall i, i < length fes -> same_element (fe_at fes i) (fe_at fes' i);
    rn_points : forall i, i < length fes -> length (fe_points (fe_at fes' i)) = length (fe_points (fe_at fes i)) /\
       forall a, a < length (fe_points (fe_at fes i)) ->
         pi i a < length (fe_points (fe_at fes i)) /\
         nth (pi i a) (fe_points (fe_at fes' i)) [] = nth a (fe_points (fe_at fes i)) [];
    rn_inj : forall i a b, i < length fes -> a < length (fe_points (fe_at fes i)) -> b < length (fe_points (fe_at fes i)) ->
       pi i a = pi i b -> a = b;
    rn_cells : forall i, i < length fes -> length (fe_cells (fe_at fes' i)) = length (fe_cells (fe_at fes i)) /\
       forall c, c < num_cells fes -> nth (sigma c) (fe_cells (fe_at fes' i)) [] = map (pi i) (nth c (fe_cells (fe_at fes i)) []);
    rn_sigma : forall c, c < num_cells fes -> sigma c < num_cells fes;
    rn_sinj : forall c c', c < num_cells fes -> c' < num_cells fes -> sigma c = sigma c' -> c = c'
  }.

  (** The same boundary: the same faces with their variables, in any order. *)
  Definition renumbered_boundary {W} (sigma : nat -> nat) (b b' : bdata K W) : Prop :=
    bd_ph b' = bd_ph b /\ length (bd_inds b') = length (bd_vars b') /\
    Permutation (combine (bd_inds b') (bd_vars b'))
                (map (fun p => ((sigma (fst (fst p)), snd (fst p)), snd p)) (combine (bd_inds b) (bd_vars b))).
End Spec.
Arguments same_element {K}. Arguments renumbered {K}. Arguments renumbered_boundary {K W}.

(** ** Assembly of a relabelled problem *)
Section Relabel.
  Variable K : CRing.
  Local Open Scope ring_K.
  Variables (Inp FInp : Type) (pb pb' : problem K Inp FInp) (rho : nat -> nat) (u u' : list K).
  Hypothesis W : wf_problem pb.
  Hypothesis Hnd : pr_nd pb' = pr_nd pb.
  Hypothesis Hk : pr_kern pb' = pr_kern pb.
  Hypothesis HP : Permutation (combine (pr_cells pb') (pr_inp pb'))
                    (map (fun p => (map rho (fst p), snd p)) (combine (pr_cells pb) (pr_inp pb))).
  Hypothesis HB : Forall2 (fun b b' => b_kern b' = b_kern b /\
     Permutation (map (fun q => (nth (fst q) (pr_cells pb') [], snd q)) (combine (b_cells b') (b_inp b')))
                 (map (fun q => (map rho (nth (fst q) (pr_cells pb) []), snd q)) (combine (b_cells b) (b_inp b))))
     (pr_bnd pb) (pr_bnd pb').
  Hypothesis Hinj : forall x y, x < pr_n pb -> y < pr_n pb -> rho x = rho y -> x = y.
  Hypothesis Hu : forall x, x < pr_n pb -> get u' (rho x) = get u x.

  Lemma rl_local d : In d (pr_cells pb) -> local_sol u' (map rho d) = local_sol u d.
  Proof. intros Hd. unfold local_sol. rewrite map_map. apply map_ext_in. intros x Hx. apply Hu. eapply w_dofs; eassumption. Qed.

  Lemma rl_eqb d a i : In d (pr_cells pb) -> a < pr_nd pb -> i < pr_n pb ->
    (nth a (map rho d) 0%nat =? rho i)%nat = (nth a d 0%nat =? i)%nat.
  Proof.
    intros Hd Ha Hi. pose proof (w_cells W _ Hd) as L.
    rewrite (nth_indep _ 0%nat (rho 0%nat)) by (rewrite map_length, L; exact Ha). rewrite map_nth.
    destruct (Nat.eqb_spec (nth a d 0%nat) i) as [->|N]; [apply Nat.eqb_refl|].
    apply Nat.eqb_neq. intros E. apply N. apply Hinj; [|exact Hi|exact E].
    eapply w_dofs; [exact W|exact Hd|]. apply nth_In. lia.
  Qed.

  Lemma rl_elem d (r : list K) i : In d (pr_cells pb) -> i < pr_n pb ->
    elem_res (pr_nd pb) (map rho d) r (rho i) = elem_res (pr_nd pb) d r i.
  Proof. intros Hd Hi. unfold elem_res. apply sumf_ext. intros a Ha. apply in_seq in Ha. rewrite rl_eqb by (assumption || lia). reflexivity. Qed.
  Lemma rl_jac d (m : list K) i j : In d (pr_cells pb) -> i < pr_n pb -> j < pr_n pb ->
    elem_jac (pr_nd pb) (map rho d) m (rho i) (rho j) = elem_jac (pr_nd pb) d m i j.
  Proof.
    intros Hd Hi Hj. unfold elem_jac. apply sumf_ext. intros a Ha. apply sumf_ext. intros b Hb. apply in_seq in Ha. apply in_seq in Hb.
    rewrite !rl_eqb by (assumption || lia). reflexivity.
  Qed.

  Lemma rl_sums (F : (list K -> Inp -> list K * list K) -> list nat -> Inp -> K) (G : list nat -> Inp -> K) :
    (forall d x, In d (pr_cells pb) -> F (pr_kern pb) (map rho d) x = G d x) ->
    sumf (fun p => F (pr_kern pb') (fst p) (snd p)) (combine (pr_cells pb') (pr_inp pb')) =
    sumf (fun p => G (fst p) (snd p)) (combine (pr_cells pb) (pr_inp pb)).
  Proof.
    intros E. rewrite (@sumf_perm K _ _ _ _ HP), sumf_map, Hk. apply sumf_ext. intros [d x] Hp. apply E.
    apply in_combine_l in Hp. exact Hp.
  Qed.

  Lemma rl_bsums (F : (list K -> FInp -> list K * list K) -> list nat -> FInp -> K) (G : (list K -> FInp -> list K * list K) -> list nat -> FInp -> K) :
    (forall k d x, In d (pr_cells pb) -> F k (map rho d) x = G k d x) ->
    sumf (fun b => sumf (fun q => F (b_kern b) (nth (fst q) (pr_cells pb') []) (snd q)) (combine (b_cells b) (b_inp b))) (pr_bnd pb') =
    sumf (fun b => sumf (fun q => G (b_kern b) (nth (fst q) (pr_cells pb) []) (snd q)) (combine (b_cells b) (b_inp b))) (pr_bnd pb).
  Proof.
    intros E. symmetry. apply (sumf_Forall2 _ _ _ _ _ _ _ _ HB). intros b b' Hb [Ek HPb].
    transitivity (sumf (fun p => F (b_kern b') (fst p) (snd p)) (map (fun q => (map rho (nth (fst q) (pr_cells pb) []), snd q)) (combine (b_cells b) (b_inp b)))).
    - rewrite sumf_map. apply sumf_ext. intros [c x] Hq. cbn [fst snd]. rewrite Ek. symmetry. apply E. apply nth_In.
      apply (w_bcells W b c Hb). apply in_combine_l in Hq. exact Hq.
    - rewrite <- (@sumf_perm K _ _ _ _ HPb), sumf_map. reflexivity.
  Qed.

  Lemma rl_spec_res i : i < pr_n pb -> spec_res pb' u' (rho i) = spec_res pb u i.
  Proof.
    intros Hi. unfold spec_res. rewrite Hnd. f_equal.
    - apply (rl_sums (fun k d x => elem_res (pr_nd pb) d (fst (k (local_sol u' d) x)) (rho i))
                     (fun d x => elem_res (pr_nd pb) d (fst (pr_kern pb (local_sol u d) x)) i)).
      intros d x Hd. rewrite rl_local, rl_elem by assumption. reflexivity.
    - apply (rl_bsums (fun k d x => elem_res (pr_nd pb) d (fst (k (local_sol u' d) x)) (rho i))
                     (fun k d x => elem_res (pr_nd pb) d (fst (k (local_sol u d) x)) i)).
      intros k d x Hd. rewrite rl_local, rl_elem by assumption. reflexivity.
  Qed.
  Lemma rl_spec_jac i j : i < pr_n pb -> j < pr_n pb -> spec_jac pb' u' (rho i) (rho j) = spec_jac pb u i j.
  Proof.
    intros Hi Hj. unfold spec_jac, spec_vol_jac, spec_face_jac. rewrite Hnd. f_equal.
    - apply (rl_sums (fun k d x => elem_jac (pr_nd pb) d (snd (k (local_sol u' d) x)) (rho i) (rho j))
                     (fun d x => elem_jac (pr_nd pb) d (snd (pr_kern pb (local_sol u d) x)) i j)).
      intros d x Hd. rewrite rl_local, rl_jac by assumption. reflexivity.
    - apply (rl_bsums (fun k d x => elem_jac (pr_nd pb) d (snd (k (local_sol u' d) x)) (rho i) (rho j))
                     (fun k d x => elem_jac (pr_nd pb) d (snd (k (local_sol u d) x)) i j)).
      intros k d x Hd. rewrite rl_local, rl_jac by assumption. reflexivity.
  Qed.
End Relabel.

(** The compiled problem is well formed. *)
Lemma build_is_wf :
  forall (K : CRing) dim nq nfq det inv norm (V W : Type) (fes : list (fe K)) vw (ph : physics K V)
         vars (bnd : list (bdata K W)) vj sj xv xs pb,
  wf_fes fes -> 0 < length fes -> (forall b, In b bnd -> wf_bdata fes b) -> kernel_shapes fes ph bnd ->
  (forall u x, length (vj u x) = num_local fes * num_local fes) ->
  (forall u x, length (sj u x) = num_local fes * num_local fes) ->
  build dim nq nfq det inv norm fes vw ph vars bnd vj sj xv xs = Some pb -> wf_problem pb.
Proof.
  intros K dim nq nfq det inv norm V W fes vw ph vars bnd vj sj xv xs pb WF Hpos WB [KV KB] TJ TS EB.
  assert (LM : forall (mm : mass_map K V) u x, length fes = 1 -> length (mass_kernel nq fes mm u x) = num_local fes).
  { intros mm u' x H1. rewrite (mass_as_weak K dim) by exact H1. apply weak_form_kernel_length. }
  assert (LT : forall (tm : tensor_map K V) u x, length fes = 1 -> length (laplace_kernel dim nq fes tm u x) = num_local fes).
  { intros tm u' x H1. rewrite laplace_as_weak by exact H1. apply weak_form_kernel_length. }
  assert (LS : forall (sm : surface_map K W) u x, length fes = 1 -> length (surface_kernel nfq fes sm u x) = num_local fes).
  { intros sm u' x H1. rewrite map_as_weak by exact H1. apply surface_weak_form_kernel_length. }
  assert (H1 : (1 <? length fes) = false -> length fes = 1) by (intros E; apply Nat.ltb_ge in E; lia).
  assert (SB : forall b k, In b bnd -> surface_kernel_of nfq fes (bd_ph b) = Some k -> skern_shape K W fes k).
  { intros b k Hb Ek u' x. unfold surface_kernel_of in Ek. destruct (1 <? length fes).
    - destruct (bp_universal (bd_ph b)) eqn:EU; [injection Ek as <-; eapply KB; eassumption|].
      destruct (bp_weak (bd_ph b)); [injection Ek as <-; apply surface_weak_form_kernel_length|].
      destruct (bp_map (bd_ph b)); [discriminate|]. injection Ek as <-. apply repeat_length.
    - destruct (bp_map (bd_ph b)), (bp_universal (bd_ph b)) eqn:EU; injection Ek as <-; auto.
      + rewrite vadd_length; rewrite LS; auto. symmetry. eapply KB; eassumption.
      + eapply KB; eassumption.
      + apply repeat_length. }
  destruct (volume_kernel dim nq fes ph) as [kv|] eqn:EK.
  2:{ unfold build in EB. rewrite EK in EB. discriminate. }
  set (tm := match ph_tensor ph with Some t => Some t | None => ph_energy_grad ph end).
  set (base := match ph_universal ph with
               | Some k => Some k
               | None => if 1 <? length fes then option_map (weak_form_kernel dim nq fes) (ph_weak ph)
                         else opt_add (option_map (mass_kernel nq fes) (ph_mass ph)) (option_map (laplace_kernel dim nq fes) tm)
               end).
  assert (EV : opt_add base (ph_extra ph) = Some kv).
  { rewrite <- EK. unfold volume_kernel, base. fold tm.
    destruct (ph_universal ph) eqn:EU; [reflexivity|].
    destruct (1 <? length fes) eqn:Hm; destruct (ph_weak ph) eqn:EW; try reflexivity.
    exfalso. unfold volume_kernel in EK. rewrite EU, EW, Hm in EK. discriminate. }
  assert (SBase : forall k, base = Some k -> kern_shape K V fes k).
  { intros k Ek u' x. unfold base in Ek. destruct (ph_universal ph) eqn:EU.
    - injection Ek as <-. apply KV. auto.
    - destruct (1 <? length fes) eqn:Hm.
      + destruct (ph_weak ph); [|discriminate]. injection Ek as <-. apply weak_form_kernel_length.
      + specialize (H1 eq_refl). destruct (ph_mass ph), tm; cbn [option_map opt_add] in Ek; try discriminate; injection Ek as <-; auto.
        unfold add_kernel. rewrite vadd_length; rewrite LM; auto. symmetry. auto. }
  assert (SE : forall k, ph_extra ph = Some k -> kern_shape K V fes k) by (intros k Ek u' x; apply KV; auto).
  assert (SV : kern_shape K V fes kv).
  { destruct base as [b0|], (ph_extra ph) as [e0|]; cbn [opt_add] in EV; try discriminate; injection EV as <-; auto.
    intros u' x. unfold add_kernel. rewrite vadd_length; [apply SBase; reflexivity|].
    rewrite (SBase _ eq_refl), (SE _ eq_refl). reflexivity. }
  exact (build_wf K dim nq nfq det inv norm V W fes WF vw ph vars bnd vj sj xv xs WB TJ TS kv EK SV SB pb EB).
Qed.

(** ** A renumbered mesh *)
Section Build.
  Variable K : CRing.
  Local Open Scope ring_K.
  Variables (dim nq nfq : nat) (det : list (list K) -> K) (inv : list (list K) -> list (list K)) (norm : list K -> K).
  Variables (V W : Type) (fes fes' : list (fe K)) (sigma : nat -> nat) (pi : nat -> nat -> nat).
  Hypothesis R : renumbered fes fes' sigma pi.
  Hypothesis WF : wf_fes fes.

  Definition remesh (f : fe K) p c : fe K :=
    {| fe_vec := fe_vec f; fe_nn := fe_nn f; fe_points := p; fe_cells := c;
       fe_sv := fe_sv f; fe_sgref := fe_sgref f; fe_w := fe_w f; fe_fsv := fe_fsv f; fe_fsgref := fe_fsgref f;
       fe_fnormal := fe_fnormal f; fe_fw := fe_fw f |}.
  Definition P' i := fe_points (fe_at fes' i).
  Definition C' i := fe_cells (fe_at fes' i).

  Lemma fe_at_eq : fe_at fes' = fun i => remesh (fe_at fes i) (P' i) (C' i).
  Proof.
    apply functional_extensionality. intros i. destruct (Nat.lt_ge_cases i (length fes)) as [Hi|Hi].
    - exact (rn_same _ _ _ _ _ R i Hi).
    - unfold P', C', fe_at. rewrite !nth_overflow by (try rewrite (rn_len _ _ _ _ _ R); exact Hi). reflexivity.
  Qed.

  Lemma as_map (l : list (fe K)) : l = map (fe_at l) (seq 0 (length l)).
  Proof. apply (list_as_map (fe0 K)). reflexivity. Qed.
  Lemma map_fes {B} (h : fe K -> B) : (forall i, i < length fes -> h (fe_at fes' i) = h (fe_at fes i)) -> map h fes' = map h fes.
  Proof.
    intros E. rewrite (as_map fes), (as_map fes'), !map_map, (rn_len _ _ _ _ _ R). apply map_ext_in. intros i Hi. apply in_seq in Hi. apply E. lia.
  Qed.
  Lemma fe_proj {B} (h : fe K -> B) : (forall f p c, h (remesh f p c) = h f) -> forall i, h (fe_at fes' i) = h (fe_at fes i).
  Proof. intros E i. rewrite fe_at_eq. apply E. Qed.

  Lemma layout_eq : layout_of fes' = layout_of fes.
  Proof. unfold layout_of. apply map_fes. intros i Hi. rewrite (proj1 (rn_points _ _ _ _ _ R i Hi)), (fe_proj (@fe_vec K)) by reflexivity. reflexivity. Qed.
  Lemma nn_eq : map (@fe_nn K) fes' = map (@fe_nn K) fes.
  Proof. apply map_fes. intros i _. apply (fe_proj (@fe_nn K)). reflexivity. Qed.
  Lemma loc_eq : map (fun f : fe K => (fe_nn f * fe_vec f)%nat) fes' = map (fun f => (fe_nn f * fe_vec f)%nat) fes.
  Proof. apply map_fes. intros i _. apply (fe_proj (fun f => (fe_nn f * fe_vec f)%nat)). reflexivity. Qed.
  Lemma num_local_eq : num_local fes' = num_local fes.
  Proof. unfold num_local. rewrite loc_eq. reflexivity. Qed.
  Lemma local_off_eq : local_off fes' = local_off fes.
  Proof. apply functional_extensionality. intros i. unfold local_off. rewrite loc_eq. reflexivity. Qed.
  Lemma node_off_eq : node_off fes' = node_off fes.
  Proof. apply functional_extensionality. intros i. unfold node_off. rewrite nn_eq. reflexivity. Qed.
  Lemma cells_num : 0 < length fes -> num_cells fes' = num_cells fes.
  Proof. intros H. unfold num_cells. exact (proj1 (rn_cells _ _ _ _ _ R 0%nat H)). Qed.

  Lemma cell_sol_eq : cell_sol fes' = cell_sol fes.
  Proof.
    do 4 (apply functional_extensionality; intro). unfold cell_sol. rewrite local_off_eq, (fe_proj (@fe_vec K)) by reflexivity. reflexivity.
  Qed.
  Lemma weak_kernel_eq : weak_form_kernel (V := V) dim nq fes' = weak_form_kernel dim nq fes.
  Proof.
    do 3 (apply functional_extensionality; intro). unfold weak_form_kernel.
    rewrite (rn_len _ _ _ _ _ R), node_off_eq, cell_sol_eq, fe_at_eq. reflexivity.
  Qed.
  Lemma laplace_eq : laplace_kernel (V := V) dim nq fes' = laplace_kernel dim nq fes.
  Proof. do 3 (apply functional_extensionality; intro). unfold laplace_kernel. rewrite cell_sol_eq, fe_at_eq. reflexivity. Qed.
  Lemma mass_eq : mass_kernel (V := V) nq fes' = mass_kernel nq fes.
  Proof. do 3 (apply functional_extensionality; intro). unfold mass_kernel. rewrite cell_sol_eq, fe_at_eq. reflexivity. Qed.
  Lemma surf_weak_eq : surface_weak_form_kernel (W := W) nfq fes' = surface_weak_form_kernel nfq fes.
  Proof.
    do 3 (apply functional_extensionality; intro). unfold surface_weak_form_kernel.
    rewrite (rn_len _ _ _ _ _ R), node_off_eq, cell_sol_eq, fe_at_eq. reflexivity.
  Qed.
  Lemma surf_eq : surface_kernel (W := W) nfq fes' = surface_kernel nfq fes.
  Proof. do 3 (apply functional_extensionality; intro). unfold surface_kernel. rewrite cell_sol_eq, fe_at_eq. reflexivity. Qed.
  Lemma volume_kernel_eq (ph : physics K V) : volume_kernel dim nq fes' ph = volume_kernel dim nq fes ph.
  Proof. unfold volume_kernel. rewrite (rn_len _ _ _ _ _ R), weak_kernel_eq, laplace_eq, mass_eq. reflexivity. Qed.
  Lemma surface_kernel_eq (bp : bphysics K W) : surface_kernel_of nfq fes' bp = surface_kernel_of nfq fes bp.
  Proof. unfold surface_kernel_of. rewrite (rn_len _ _ _ _ _ R), surf_weak_eq, surf_eq, num_local_eq. reflexivity. Qed.

  (** Geometry. *)
  Lemma fe_in i : i < length fes -> In (fe_at fes i) fes.
  Proof. intros Hi. apply nth_In. exact Hi. Qed.
  Lemma cell_ok i c : i < length fes -> c < num_cells fes ->
    In (nth c (fe_cells (fe_at fes i)) []) (fe_cells (fe_at fes i)) /\ length (nth c (fe_cells (fe_at fes i)) []) = fe_nn (fe_at fes i).
  Proof.
    intros Hi Hc. destruct (WF _ (fe_in i Hi)) as [L H]. rewrite <- L in Hc.
    split; [apply nth_In; exact Hc|]. apply H. apply nth_In. exact Hc.
  Qed.
  Lemma node_eq i c n : i < length fes -> c < num_cells fes -> n < fe_nn (fe_at fes i) ->
    node_of (fe_at fes' i) (sigma c) n = pi i (node_of (fe_at fes i) c n) /\
    node_of (fe_at fes i) c n < length (fe_points (fe_at fes i)).
  Proof.
    intros Hi Hc Hn. unfold node_of. rewrite (proj2 (rn_cells _ _ _ _ _ R i Hi) c Hc).
    destruct (cell_ok i c Hi Hc) as [I L].
    rewrite (nth_indep _ 0%nat (pi i 0%nat)) by (rewrite map_length, L; exact Hn). rewrite map_nth. split; [reflexivity|].
    apply (proj2 (proj2 (WF _ (fe_in i Hi)) _ I)). apply nth_In. rewrite L. exact Hn.
  Qed.
  Lemma coo_eq i c n j : i < length fes -> c < num_cells fes -> n < fe_nn (fe_at fes i) ->
    coo (fe_at fes' i) (sigma c) n j = coo (fe_at fes i) c n j.
  Proof.
    intros Hi Hc Hn. destruct (node_eq i c n Hi Hc Hn) as [E B]. unfold coo, get2. rewrite E.
    rewrite (proj2 (proj2 (rn_points _ _ _ _ _ R i Hi) _ B)). reflexivity.
  Qed.

  Ltac projs := repeat first [rewrite (fe_proj (@fe_nn K)) by reflexivity | rewrite (fe_proj (@fe_sgref K)) by reflexivity
    | rewrite (fe_proj (@fe_w K)) by reflexivity | rewrite (fe_proj (@fe_sv K)) by reflexivity | rewrite (fe_proj (@fe_fsv K)) by reflexivity
    | rewrite (fe_proj (@fe_fsgref K)) by reflexivity | rewrite (fe_proj (@fe_fnormal K)) by reflexivity | rewrite (fe_proj (@fe_fw K)) by reflexivity].

  Lemma jac_eq i c q : i < length fes -> c < num_cells fes -> jac dim (fe_at fes' i) (sigma c) q = jac dim (fe_at fes i) c q.
  Proof.
    intros Hi Hc. unfold jac. projs. apply tab_ext. intros a _. apply tab_ext. intros e _. apply Sum_ext. intros n Hn.
    rewrite coo_eq by assumption. reflexivity.
  Qed.
  Lemma fjac_eq i c g q : i < length fes -> c < num_cells fes -> face_jac dim (fe_at fes' i) (sigma c) g q = face_jac dim (fe_at fes i) c g q.
  Proof.
    intros Hi Hc. unfold face_jac. projs. apply tab_ext. intros a _. apply tab_ext. intros e _. apply Sum_ext. intros n Hn.
    rewrite coo_eq by assumption. reflexivity.
  Qed.
  Lemma cat_eq (g g' : fe K -> nat -> K) m :
    (forall i n, i < length fes -> n < fe_nn (fe_at fes i) -> g' (fe_at fes' i) n = g (fe_at fes i) n) -> cat fes' g' m = cat fes g m.
  Proof.
    intros E.
    assert (G : forall l l' : list (fe K), length l' = length l ->
       (forall i, i < length l -> fe_nn (nth i l' (fe0 K)) = fe_nn (nth i l (fe0 K)) /\
          forall n, n < fe_nn (nth i l (fe0 K)) -> g' (nth i l' (fe0 K)) n = g (nth i l (fe0 K)) n) ->
       forall m, cat l' g' m = cat l g m).
    { induction l as [|f l IH]; intros [|f' l'] L H m0; try discriminate; [reflexivity|]. cbn [cat].
      destruct (H 0%nat ltac:(cbn; lia)) as [H1 H2]. cbn in H1, H2. rewrite H1. destruct (m0 <? fe_nn f) eqn:B.
      - apply H2. apply Nat.ltb_lt. exact B.
      - apply IH; [cbn in L; lia|]. intros i Hi. apply (H (S i)). cbn. lia. }
    apply G; [apply (rn_len _ _ _ _ _ R)|]. intros i Hi. split; [apply (fe_proj (@fe_nn K)); reflexivity|]. intros n Hn. apply E; assumption.
  Qed.

  Lemma vinp_eq (vars vars' : nat -> nat -> V) c : 0 < length fes -> c < num_cells fes -> (forall q, vars' (sigma c) q = vars c q) ->
    vinp_of dim det inv fes' vars' (sigma c) = vinp_of dim det inv fes vars c.
  Proof.
    intros H0 Hc Hv. unfold vinp_of.
    assert (J : forall i q, JxW dim det (fe_at fes' i) (sigma c) q = JxW dim det (fe_at fes i) c q).
    { intros i q. destruct (Nat.lt_ge_cases i (length fes)) as [Hi|Hi].
      - unfold JxW. rewrite jac_eq by assumption. projs. reflexivity.
      - unfold fe_at. rewrite !nth_overflow by (try rewrite (rn_len _ _ _ _ _ R); exact Hi). reflexivity. }
    f_equal; repeat (apply functional_extensionality; intro).
    - unfold quad_point. projs. apply tab_ext. intros a _. apply Sum_ext. intros n Hn. rewrite coo_eq by assumption. reflexivity.
    - apply cat_eq. intros i n Hi Hn. unfold shape_grad. rewrite jac_eq by assumption. projs. reflexivity.
    - apply J.
    - apply cat_eq. intros i n Hi Hn. unfold v_grad_JxW. rewrite J. unfold shape_grad. rewrite jac_eq by assumption. projs. reflexivity.
    - apply Hv.
  Qed.
  Lemma finp_eq (w : nat -> W) c g : 0 < length fes -> c < num_cells fes ->
    finp_of dim det inv norm fes' w (sigma c, g) = finp_of dim det inv norm fes w (c, g).
  Proof.
    intros H0 Hc. unfold finp_of. cbn [fst snd]. f_equal; repeat (apply functional_extensionality; intro).
    - unfold face_point. projs. apply tab_ext. intros a _. apply Sum_ext. intros n Hn. rewrite coo_eq by assumption. reflexivity.
    - apply cat_eq. intros i n Hi Hn. projs. reflexivity.
    - apply cat_eq. intros i n Hi Hn. unfold face_shape_grad. rewrite fjac_eq by assumption. projs. reflexivity.
    - match goal with |- nanson _ _ _ _ (fe_at fes' ?i) _ _ _ = _ => destruct (Nat.lt_ge_cases i (length fes)) as [Hi|Hi] end.
      + unfold nanson. rewrite fjac_eq by assumption. projs. reflexivity.
      + unfold fe_at. rewrite !nth_overflow by (try rewrite (rn_len _ _ _ _ _ R); exact Hi). reflexivity.
  Qed.
End Build.

(** ** Numbering of the unknowns *)
Lemma perm_seq n (s : nat -> nat) : (forall c, c < n -> s c < n) -> (forall c c', c < n -> c' < n -> s c = s c' -> c = c') ->
  Permutation (seq 0 n) (map s (seq 0 n)).
Proof.
  intros B I. apply Permutation_sym. apply NoDup_Permutation_bis.
  - assert (G : forall l, NoDup l -> (forall x, In x l -> x < n) -> NoDup (map s l)).
    { induction l as [|a l IH]; intros N H; [constructor|]. cbn. inversion N; subst. constructor.
      - intros Hin. apply in_map_iff in Hin. destruct Hin as (b & E & Hb). apply I in E; [subst; contradiction| |]; apply H; [right; exact Hb|left; reflexivity].
      - apply IH; [assumption|]. intros x Hx. apply H. right. exact Hx. }
    apply G; [apply seq_NoDup|]. intros x Hx. apply in_seq in Hx. lia.
  - rewrite map_length. lia.
  - intros x Hx. apply in_map_iff in Hx. destruct Hx as (c & <- & Hc). apply in_seq in Hc. apply in_seq. pose proof (B c ltac:(lia)). lia.
Qed.
Lemma perm_onto n (s : nat -> nat) : (forall c, c < n -> s c < n) -> (forall c c', c < n -> c' < n -> s c = s c' -> c = c') ->
  forall x, x < n -> exists c, c < n /\ s c = x.
Proof.
  intros B I x Hx. assert (H : In x (map s (seq 0 n))). { eapply Permutation_in; [apply perm_seq; assumption|]. apply in_seq. lia. }
  apply in_map_iff in H. destruct H as (c & E & Hc). apply in_seq in Hc. exists c. split; [lia|exact E].
Qed.

(** The new number of an unknown. *)
Definition triples (L : layout) : list (nat * nat * nat) :=
  flat_map (fun i => flat_map (fun a => map (fun k => (i, a, k)) (seq 0 (snd (nth i L (0, 0))))) (seq 0 (fst (nth i L (0, 0))))) (seq 0 (length L)).
Lemma in_triples L i a k : In (i, a, k) (triples L) <-> valid_dof L i a k.
Proof.
  unfold triples, valid_dof. rewrite in_flat_map. split.
  - intros (i0 & Hi & H). apply in_flat_map in H. destruct H as (a0 & Ha & H). apply in_map_iff in H. destruct H as (k0 & [= <- <- <-] & Hk).
    apply in_seq in Hi. apply in_seq in Ha. apply in_seq in Hk. repeat split; lia.
  - intros (Hi & Ha & Hk). exists i. split; [apply in_seq; lia|]. apply in_flat_map. exists a. split; [apply in_seq; lia|].
    apply in_map_iff. exists k. split; [reflexivity|apply in_seq; lia].
Qed.
Definition rho_of (L : layout) (pi : nat -> nat -> nat) (x : nat) : nat :=
  match find (fun t => dof L (fst (fst t)) (snd (fst t)) (snd t) =? x) (triples L) with
  | Some t => dof L (fst (fst t)) (pi (fst (fst t)) (snd (fst t))) (snd t)
  | None => x
  end.
Lemma rho_dof L pi i a k : valid_dof L i a k -> rho_of L pi (dof L i a k) = dof L i (pi i a) k.
Proof.
  intros V. unfold rho_of. destruct (find _ _) as [[[i' a'] k']|] eqn:F.
  - apply find_some in F. destruct F as [I E]. cbn [fst snd] in *. apply Nat.eqb_eq in E. apply in_triples in I.
    destruct (dof_inj I V E) as (-> & -> & ->). reflexivity.
  - exfalso. apply in_triples in V. pose proof (find_none _ _ F _ V) as N. cbn [fst snd] in N. rewrite Nat.eqb_refl in N. discriminate.
Qed.

Lemma F2_impl {A B} (P Q : A -> B -> Prop) l r : (forall a b, P a b -> Q a b) -> Forall2 P l r -> Forall2 Q l r.
Proof. intros H F. induction F; constructor; auto. Qed.

Section Compiled.
  Variable K : CRing.
  Local Open Scope ring_K.
  Variables (dim nq nfq : nat) (det : list (list K) -> K) (inv : list (list K) -> list (list K)) (norm : list K -> K).
  Variables (V W : Type) (fes fes' : list (fe K)) (sigma : nat -> nat) (pi : nat -> nat -> nat).
  Hypothesis R : renumbered fes fes' sigma pi.
  Hypothesis WF : wf_fes fes.
  Hypothesis Hpos : 0 < length fes.
  Notation L := (layout_of fes).

  Lemma valid_iff i a k : valid_dof L i a k <-> i < length fes /\ a < length (fe_points (fe_at fes i)) /\ k < fe_vec (fe_at fes i).
  Proof.
    unfold valid_dof, layout_of. rewrite map_length. destruct (Nat.lt_ge_cases i (length fes)) as [Hi|Hi]; [|split; intros (? & _); lia].
    rewrite (nth_indep _ (0, 0)%nat ((fun f : fe K => (length (fe_points f), fe_vec f)) (fe0 K))) by (rewrite map_length; exact Hi).
    rewrite (map_nth (fun f : fe K => (length (fe_points f), fe_vec f)) fes). unfold fe_at. cbn [fst snd]. tauto.
  Qed.
  Lemma valid_pi i a k : valid_dof L i a k -> valid_dof L i (pi i a) k.
  Proof. rewrite !valid_iff. intros (Hi & Ha & Hk). repeat split; try assumption. apply (proj2 (rn_points _ _ _ _ _ R i Hi) a Ha). Qed.
  Lemma rho_inj x y : x < total_dofs L -> y < total_dofs L -> rho_of L pi x = rho_of L pi y -> x = y.
  Proof.
    intros Hx Hy E. destruct (dof_surj L Hx) as (i & a & k & V1 & <-). destruct (dof_surj L Hy) as (i2 & a2 & k2 & V2 & <-).
    rewrite !rho_dof in E by assumption. destruct (dof_inj (valid_pi _ _ _ V1) (valid_pi _ _ _ V2) E) as (<- & Ea & <-).
    apply valid_iff in V1, V2. rewrite (rn_inj _ _ _ _ _ R i a a2 ltac:(tauto) ltac:(tauto) ltac:(tauto) Ea). reflexivity.
  Qed.
  Lemma dof_onto x : x < total_dofs L -> exists i a k, valid_dof L i a k /\ dof L i (pi i a) k = x.
  Proof.
    intros Hx. destruct (dof_surj L Hx) as (i & a & k & V1 & <-). pose proof V1 as V2. apply valid_iff in V2. destruct V2 as (Hi & Ha & Hk).
    destruct (perm_onto (length (fe_points (fe_at fes i))) (pi i)) with (x := a) as (b & Hb & E); try assumption.
    - intros c Hc. apply (proj2 (rn_points _ _ _ _ _ R i Hi) c Hc).
    - intros c c' Hc Hc'. apply (rn_inj _ _ _ _ _ R); assumption.
    - exists i, b, k. split; [apply valid_iff; auto|]. rewrite E. reflexivity.
  Qed.

  Lemma wf_fes' : wf_fes fes'.
  Proof.
    intros f Hf. apply (In_nth _ _ (fe0 K)) in Hf. destruct Hf as (i & Hi & <-). rewrite (rn_len _ _ _ _ _ R) in Hi. fold (fe_at fes' i).
    destruct (rn_cells _ _ _ _ _ R i Hi) as [LC C]. destruct (WF _ (fe_in _ fes i Hi)) as [L0 H0].
    rewrite LC, L0, (cells_num _ _ _ _ _ R Hpos). split; [reflexivity|].
    intros c Hc. apply (In_nth _ _ []) in Hc. destruct Hc as (x & Hx & <-). rewrite LC, L0 in Hx.
    destruct (perm_onto _ _ (rn_sigma _ _ _ _ _ R) (rn_sinj _ _ _ _ _ R) x Hx) as (c & Hc & <-). rewrite (C c Hc), map_length.
    destruct (H0 (nth c (fe_cells (fe_at fes i)) [])) as [H1 H2]; [apply nth_In; rewrite L0; exact Hc|].
    rewrite (fe_proj _ _ _ _ _ R (@fe_nn K)) by reflexivity. split; [exact H1|]. intros n Hn. apply in_map_iff in Hn. destruct Hn as (m & <- & Hm).
    rewrite (proj1 (rn_points _ _ _ _ _ R i Hi)). apply (proj2 (rn_points _ _ _ _ _ R i Hi)). apply H2. exact Hm.
  Qed.

  Lemma cell_dofs_rho c : c < num_cells fes ->
    cell_dofs L (cells_of fes' (sigma c)) = map (rho_of L pi) (cell_dofs L (cells_of fes c)).
  Proof.
    intros Hc. rewrite (cell_dofs_eq K fes WF c Hc). rewrite <- (layout_eq _ _ _ _ _ R).
    rewrite (cell_dofs_eq K fes' wf_fes'); [|rewrite (cells_num _ _ _ _ _ R Hpos); apply (rn_sigma _ _ _ _ _ R); exact Hc].
    rewrite (layout_eq _ _ _ _ _ R), (rn_len _ _ _ _ _ R).
    rewrite !flat_map_concat_map, concat_map, map_map. f_equal. apply map_ext_in. intros i Hi. apply in_seq in Hi.
    rewrite (fe_proj _ _ _ _ _ R (@fe_nn K)), (fe_proj _ _ _ _ _ R (@fe_vec K)) by reflexivity.
    rewrite !flat_map_concat_map, concat_map, map_map. f_equal. apply map_ext_in. intros n Hn. apply in_seq in Hn.
    unfold tab. rewrite map_map. apply map_ext_in. intros k Hk. apply in_seq in Hk.
    destruct (node_eq _ _ _ _ _ R WF i c n ltac:(lia) Hc ltac:(lia)) as [-> B].
    rewrite rho_dof; [reflexivity|]. apply valid_iff. repeat split; [lia|exact B|lia].
  Qed.

  Variables (vw vw' : view) (ph : physics K V) (vars vars' : nat -> nat -> V) (bnd bnd' : list (bdata K W)).
  Variables (vj : list K -> vinp K V -> list K) (sj : list K -> finp K W -> list K) (xv xv' : vinp K V) (xs xs' : finp K W).
  Variable pb : problem K (vinp K V) (finp K W).
  Hypothesis WB : forall b, In b bnd -> wf_bdata fes b.
  Hypothesis KS : kernel_shapes fes ph bnd.
  Hypothesis TJ : forall u x, length (vj u x) = (num_local fes * num_local fes)%nat.
  Hypothesis TS : forall u x, length (sj u x) = (num_local fes * num_local fes)%nat.
  Hypothesis HV : forall c q, c < num_cells fes -> vars' (sigma c) q = vars c q.
  Hypothesis HBd : Forall2 (renumbered_boundary sigma) bnd bnd'.
  Hypothesis EB : build dim nq nfq det inv norm fes vw ph vars bnd vj sj xv xs = Some pb.

  Lemma combine_map2 {A B C} (f : A -> B) (g : A -> C) l : combine (map f l) (map g l) = map (fun x => (f x, g x)) l.
  Proof. induction l as [|a l IH]; [reflexivity|]. cbn. rewrite IH. reflexivity. Qed.
  Lemma combine_fst {A B C D} (f : A -> C) (g : A * B -> D) : forall (l : list A) (r : list B), length r = length l ->
    combine (map f l) (map g (combine l r)) = map (fun p => (f (fst p), g p)) (combine l r).
  Proof. induction l as [|a l IH]; intros [|b r] H; try discriminate; [reflexivity|]. cbn. rewrite IH by (cbn in H; lia). reflexivity. Qed.

  Lemma wf_bnd' b : In b bnd' -> wf_bdata fes' b.
  Proof.
    intros Hb. assert (X : exists b0, In b0 bnd /\ renumbered_boundary sigma b0 b) by (exact (Forall2_In_r _ _ _ _ _ _ HBd Hb)).
    destruct X as (b0 & Hb0 & _ & LL & P). split; [symmetry; exact LL|]. intros cg Hcg.
    rewrite (cells_num _ _ _ _ _ R Hpos).
    assert (Y : exists w, In (cg, w) (combine (bd_inds b) (bd_vars b))).
    { clear - LL Hcg. revert LL Hcg. generalize (bd_inds b) (bd_vars b). induction l as [|x l IH]; intros [|y r] LL H; cbn in *; try (exfalso; exact H); try discriminate.
      destruct H as [->|H]; [exists y; left; reflexivity|]. destruct (IH r ltac:(lia) H) as (w & Hw). exists w. right. exact Hw. }
    destruct Y as (w & Hw). apply (Permutation_in _ P) in Hw. apply in_map_iff in Hw. destruct Hw as ([[c g] w0] & [= <- <-] & H). cbn [fst].
    apply (rn_sigma _ _ _ _ _ R). apply in_combine_l in H. exact (proj2 (WB _ Hb0) _ H).
  Qed.
  Lemma shapes' : kernel_shapes fes' ph bnd'.
  Proof.
    destruct KS as [K1 K2]. split; [intros k Hk u x; rewrite (num_local_eq _ _ _ _ _ R); apply K1; exact Hk|].
    intros b k Hb Hk u x. rewrite (num_local_eq _ _ _ _ _ R).
    assert (X : exists b0, In b0 bnd /\ renumbered_boundary sigma b0 b) by (exact (Forall2_In_r _ _ _ _ _ _ HBd Hb)).
    destruct X as (b0 & Hb0 & E & _). rewrite E in Hk. exact (K2 b0 k Hb0 Hk u x).
  Qed.

  Lemma compiled : exists pb', build dim nq nfq det inv norm fes' vw' ph vars' bnd' vj sj xv' xs' = Some pb' /\
    wf_problem pb /\ wf_problem pb' /\ pr_n pb = total_dofs L /\ pr_n pb' = total_dofs L /\ pr_view pb = vw /\ pr_view pb' = vw' /\
    pr_surface_jac_zero pb = false /\ pr_surface_jac_zero pb' = false /\
    forall u u' : list K, (forall i a k, valid_dof L i a k -> get u' (dof L i (pi i a) k) = get u (dof L i a k)) ->
      (forall i a k, valid_dof L i a k -> spec_res pb' u' (dof L i (pi i a) k) = spec_res pb u (dof L i a k)) /\
      (forall i a k j b l, valid_dof L i a k -> valid_dof L j b l ->
         spec_jac pb' u' (dof L i (pi i a) k) (dof L j (pi j b) l) = spec_jac pb u (dof L i a k) (dof L j b l)).
  Proof.
    pose proof (build_is_wf _ _ _ _ _ _ _ _ _ _ _ _ _ _ _ _ _ _ _ WF Hpos WB KS TJ TS EB) as Wpb.
    destruct (volume_kernel dim nq fes ph) as [kv|] eqn:EV.
    2:{ unfold build in EB. rewrite EV in EB. discriminate. }
    destruct (build_parts K dim nq nfq det inv norm V W fes vw ph vars bnd vj sj xv xs kv EV pb EB) as (bs & FB & Epb).
    assert (EBs : exists bs', all_opt (map (build_boundary dim nfq det inv norm fes' sj xs') bnd') = Some bs' /\
       Forall2 (fun b b' => b_kern b' = b_kern b /\ exists d d', In d bnd /\ renumbered_boundary sigma d d' /\
         b_cells b = map fst (bd_inds d) /\ b_inp b = map (fun p => finp_of dim det inv norm fes (snd p) (fst p)) (combine (bd_inds d) (bd_vars d)) /\
         b_cells b' = map fst (bd_inds d') /\ b_inp b' = map (fun p => finp_of dim det inv norm fes' (snd p) (fst p)) (combine (bd_inds d') (bd_vars d'))) bs bs').
    { clear EB Epb Wpb KS WB. revert bs FB. revert HBd. clear - R WF Hpos. revert bnd bnd'. intros l l' F. induction F as [|d d' l l' Hd F IH]; intros bs FB.
      - inversion FB; subst. exists []. split; [reflexivity|constructor].
      - inversion FB as [|x b y bs0 Eb FB' E1 E2]; subst. destruct (IH bs0 FB') as (bs' & Ea & F2). cbn [map all_opt]. rewrite Ea.
        unfold build_boundary at 1. rewrite (proj1 Hd), (surface_kernel_eq _ _ _ _ _ _ _ R).
        unfold build_boundary in Eb. destruct (surface_kernel_of nfq fes (bd_ph d)) as [k|]; [|discriminate]. injection Eb as <-.
        eexists. split; [reflexivity|]. constructor.
        + cbn. split; [reflexivity|]. exists d, d'. split; [left; reflexivity|]. split; [exact Hd|]. repeat split; reflexivity.
        + eapply F2_impl; [|exact F2]. intros b b' (E & e & e' & He & H). split; [exact E|]. exists e, e'. split; [right; exact He|exact H]. }
    destruct EBs as (bs' & Ebs' & FBs).
    eexists. split.
    { unfold build. rewrite (volume_kernel_eq _ _ _ _ _ _ _ _ R), EV, Ebs'. reflexivity. }
    set (pb' := {| pr_n := _ |}).
    assert (Wpb' : wf_problem pb').
    { apply (build_is_wf K dim nq nfq det inv norm V W fes' vw' ph vars' bnd' vj sj xv' xs').
      - exact wf_fes'.
      - rewrite (rn_len _ _ _ _ _ R). exact Hpos.
      - exact wf_bnd'.
      - exact shapes'.
      - intros u x. rewrite (num_local_eq _ _ _ _ _ R). apply TJ.
      - intros u x. rewrite (num_local_eq _ _ _ _ _ R). apply TS.
      - unfold build. rewrite (volume_kernel_eq _ _ _ _ _ _ _ _ R), EV, Ebs'. reflexivity. }
    assert (PN : pr_n pb = total_dofs L) by (rewrite Epb; reflexivity).
    assert (PN' : pr_n pb' = total_dofs L) by (unfold pb'; cbn [pr_n]; rewrite (layout_eq _ _ _ _ _ R); reflexivity).
    repeat match goal with |- _ /\ _ => split end; try assumption; try (rewrite Epb; reflexivity); try reflexivity.
    intros u u' Hu.
    assert (Hr : forall x, x < pr_n pb -> get u' (rho_of L pi x) = get u x).
    { rewrite PN. intros x Hx. destruct (dof_surj L Hx) as (i & a & k & V1 & <-). rewrite rho_dof by exact V1. apply Hu. exact V1. }
    assert (HP : Permutation (combine (pr_cells pb') (pr_inp pb'))
                   (map (fun p => (map (rho_of L pi) (fst p), snd p)) (combine (pr_cells pb) (pr_inp pb)))).
    { rewrite Epb. unfold pb'. cbn [pr_cells pr_inp]. unfold tab. rewrite !combine_map2, map_map. cbn [fst snd].
      rewrite (cells_num _ _ _ _ _ R Hpos), (layout_eq _ _ _ _ _ R).
      eapply Permutation_trans; [apply Permutation_map; apply (perm_seq _ sigma (rn_sigma _ _ _ _ _ R) (rn_sinj _ _ _ _ _ R))|].
      rewrite map_map. erewrite map_ext_in; [apply Permutation_refl|]. intros c Hc. apply in_seq in Hc. cbn beta.
      rewrite cell_dofs_rho by lia. rewrite (vinp_eq _ _ _ _ _ _ _ _ _ R WF vars vars' c Hpos) by (try lia; intros q; apply HV; lia). reflexivity. }
    assert (HB : Forall2 (fun b b' => b_kern b' = b_kern b /\
       Permutation (map (fun q => (nth (fst q) (pr_cells pb') [], snd q)) (combine (b_cells b') (b_inp b')))
                   (map (fun q => (map (rho_of L pi) (nth (fst q) (pr_cells pb) []), snd q)) (combine (b_cells b) (b_inp b))))
       (pr_bnd pb) (pr_bnd pb')).
    { rewrite Epb. unfold pb'. cbn [pr_bnd pr_cells]. eapply F2_impl; [|exact FBs].
      intros b b' (Ek & d & d' & Hd & (Ep & LL & P) & E1 & E2 & E3 & E4). split; [exact Ek|]. rewrite E1, E2, E3, E4.
      rewrite !combine_fst by (try (symmetry; exact LL); exact (proj1 (WB d Hd))). rewrite !map_map. cbn [fst snd].
      eapply Permutation_trans; [apply Permutation_map; exact P|]. rewrite map_map.
      erewrite map_ext_in; [apply Permutation_refl|]. intros [[c g] w] Hc. cbn [fst snd].
      apply in_combine_l in Hc. pose proof (proj2 (WB d Hd) _ Hc) as Hcn. cbn [fst] in Hcn.
      rewrite (nth_tab _ _ (fun c => cell_dofs (layout_of fes') (cells_of fes' c))) by (rewrite (cells_num _ _ _ _ _ R Hpos); apply (rn_sigma _ _ _ _ _ R); exact Hcn).
      rewrite (nth_tab _ _ (fun c => cell_dofs L (cells_of fes c))) by exact Hcn.
      rewrite (layout_eq _ _ _ _ _ R), cell_dofs_rho by exact Hcn.
      rewrite (finp_eq _ _ _ _ _ _ _ _ _ _ R WF w c g Hpos Hcn). reflexivity. }
    assert (Hnd : pr_nd pb' = pr_nd pb) by (rewrite Epb; unfold pb'; cbn [pr_nd]; apply (num_local_eq _ _ _ _ _ R)).
    assert (Hk : pr_kern pb' = pr_kern pb) by (rewrite Epb; reflexivity).
    assert (Hi : forall x y, x < pr_n pb -> y < pr_n pb -> rho_of L pi x = rho_of L pi y -> x = y) by (rewrite PN; exact rho_inj).
    split.
    - intros i a k V1. rewrite <- (rho_dof L pi i a k V1).
      apply (rl_spec_res K _ _ pb pb' (rho_of L pi) u u' Wpb Hnd Hk HP HB Hi Hr). rewrite PN. apply dof_lt. exact V1.
    - intros i a k j b l V1 V2. rewrite <- (rho_dof L pi i a k V1), <- (rho_dof L pi j b l V2).
      apply (rl_spec_jac K _ _ pb pb' (rho_of L pi) u u' Wpb Hnd Hk HP HB Hi Hr); rewrite PN; apply dof_lt; assumption.
  Qed.
End Compiled.

(** ** Theorems *)
(** [u'] holds at the renumbered unknowns what [u] holds at the old ones. *)
Definition carried {K : CRing} (L : layout) (pi : nat -> nat -> nat) (u u' : list K) : Prop :=
  forall i a k, valid_dof L i a k -> get u' (dof L i (pi i a) k) = get u (dof L i a k).

(** Renumber the nodes of every variable, the cells and the faces of every boundary (carrying coordinates, connectivity and the
    per-quadrature-point variables along): the renumbered problem compiles whenever the first one does, and its residual at the renumbered
    unknowns is the first one's residual, for every batch size. *)
Theorem C111_residual :
  forall (K : CRing) dim nq nfq det inv norm (V W : Type) (fes fes' : list (fe K)) sigma pi vw vw' (ph : physics K V) vars vars'
         (bnd bnd' : list (bdata K W)) vj sj xv xv' xs xs' pb bs bs',
  renumbered fes fes' sigma pi -> wf_fes fes -> 0 < length fes -> (forall b, In b bnd -> wf_bdata fes b) -> kernel_shapes fes ph bnd ->
  (forall u x, length (vj u x) = num_local fes * num_local fes) ->
  (forall u x, length (sj u x) = num_local fes * num_local fes) ->
  0 < bs -> 0 < bs' ->
  (forall c q, c < num_cells fes -> vars' (sigma c) q = vars c q) ->
  Forall2 (renumbered_boundary sigma) bnd bnd' ->
  build dim nq nfq det inv norm fes vw ph vars bnd vj sj xv xs = Some pb ->
  exists pb', build dim nq nfq det inv norm fes' vw' ph vars' bnd' vj sj xv' xs' = Some pb' /\
    forall u u', carried (layout_of fes) pi u u' -> carried (layout_of fes) pi (get_res pb bs u) (get_res pb' bs' u').
Proof.
  intros K dim nq nfq det inv norm V W fes fes' sigma pi vw vw' ph vars vars' bnd bnd' vj sj xv xv' xs xs' pb bs bs'
         HR WF Hpos WB KS TJ TS Hb Hb' HV HB EB.
  destruct (compiled K dim nq nfq det inv norm V W fes fes' sigma pi HR WF Hpos vw vw' ph vars vars' bnd bnd' vj sj xv xv' xs xs' pb WB KS TJ TS HV HB EB)
    as (pb' & E' & W1 & W2 & N1 & N2 & _ & _ & _ & _ & H).
  exists pb'. split; [exact E'|]. intros u u' Hu i a k V1. destruct (H u u' Hu) as [H1 _].
  rewrite !get_res_spec; try assumption; [apply H1; exact V1| |].
  - rewrite N1. apply dof_lt. exact V1.
  - rewrite N2. apply dof_lt. apply (valid_pi _ _ _ _ _ HR Hpos). exact V1.
Qed.
Print Assumptions C111_residual.

(** The matrix is the old one with rows and columns renumbered, wherever both storage views keep the entry (everywhere for the full view). *)
Theorem C111_jacobian :
  forall (K : CRing) dim nq nfq det inv norm (V W : Type) (fes fes' : list (fe K)) sigma pi vw vw' (ph : physics K V) vars vars'
         (bnd bnd' : list (bdata K W)) vj sj xv xv' xs xs' pb bs bs',
  renumbered fes fes' sigma pi -> wf_fes fes -> 0 < length fes -> (forall b, In b bnd -> wf_bdata fes b) -> kernel_shapes fes ph bnd ->
  (forall u x, length (vj u x) = num_local fes * num_local fes) ->
  (forall u x, length (sj u x) = num_local fes * num_local fes) ->
  0 < bs -> 0 < bs' ->
  (forall c q, c < num_cells fes -> vars' (sigma c) q = vars c q) ->
  Forall2 (renumbered_boundary sigma) bnd bnd' ->
  build dim nq nfq det inv norm fes vw ph vars bnd vj sj xv xs = Some pb ->
  exists pb', build dim nq nfq det inv norm fes' vw' ph vars' bnd' vj sj xv' xs' = Some pb' /\
    forall u u', carried (layout_of fes) pi u u' ->
    forall i a k j b l, valid_dof (layout_of fes) i a k -> valid_dof (layout_of fes) j b l ->
      let r := dof (layout_of fes) i a k in let c := dof (layout_of fes) j b l in
      let r' := dof (layout_of fes) i (pi i a) k in let c' := dof (layout_of fes) j (pi j b) l in
      kept vw r c -> kept vw' r' c' -> todense (get_jacobian pb' bs' u') r' c' = todense (get_jacobian pb bs u) r c.
Proof.
  intros K dim nq nfq det inv norm V W fes fes' sigma pi vw vw' ph vars vars' bnd bnd' vj sj xv xv' xs xs' pb bs bs'
         HR WF Hpos WB KS TJ TS Hb Hb' HV HB EB.
  destruct (compiled K dim nq nfq det inv norm V W fes fes' sigma pi HR WF Hpos vw vw' ph vars vars' bnd bnd' vj sj xv xv' xs xs' pb WB KS TJ TS HV HB EB)
    as (pb' & E' & W1 & W2 & N1 & N2 & P1 & P2 & Z1 & Z2 & H).
  exists pb'. split; [exact E'|]. intros u u' Hu i a k j b l V1 V2 r c r' c' K1 K2. destruct (H u u' Hu) as [_ H2].
  destruct (@C02_assembled_sum K _ _ pb bs u Hb W1 Z1) as [_ A1]. destruct (@C02_assembled_sum K _ _ pb' bs' u' Hb' W2 Z2) as [_ A2].
  rewrite (proj1 (A1 r c)) by (rewrite P1; exact K1). rewrite (proj1 (A2 r' c')) by (rewrite P2; exact K2). apply H2; assumption.
Qed.
Print Assumptions C111_jacobian.

(** The same values prescribed at the same unknowns. *)
Definition same_conditions {K : CRing} (L : layout) (pi : nat -> nat -> nat) (bc bc' : dirichlet K) : Prop :=
  forall i a k v, valid_dof L i a k ->
    ((exists s, s < length (bc_rows bc) /\ nth s (bc_rows bc) 0 = dof L i a k /\ get (bc_vals bc) s = v) <->
     (exists s, s < length (bc_rows bc') /\ nth s (bc_rows bc') 0 = dof L i (pi i a) k /\ get (bc_vals bc') s = v)).

(** [u] solves the constrained problem exactly when the renumbered vector solves the renumbered one. *)
Theorem C111_solution :
  forall (K : CRing) dim nq nfq det inv norm (V W : Type) (fes fes' : list (fe K)) sigma pi vw vw' (ph : physics K V) vars vars'
         (bnd bnd' : list (bdata K W)) vj sj xv xv' xs xs' pb bs bs' (bc bc' : dirichlet K),
  renumbered fes fes' sigma pi -> wf_fes fes -> 0 < length fes -> (forall b, In b bnd -> wf_bdata fes b) -> kernel_shapes fes ph bnd ->
  (forall u x, length (vj u x) = num_local fes * num_local fes) ->
  (forall u x, length (sj u x) = num_local fes * num_local fes) ->
  0 < bs -> 0 < bs' ->
  (forall c q, c < num_cells fes -> vars' (sigma c) q = vars c q) ->
  Forall2 (renumbered_boundary sigma) bnd bnd' ->
  wf_bc bc (total_dofs (layout_of fes)) -> wf_bc bc' (total_dofs (layout_of fes)) -> same_conditions (layout_of fes) pi bc bc' ->
  build dim nq nfq det inv norm fes vw ph vars bnd vj sj xv xs = Some pb ->
  exists pb', build dim nq nfq det inv norm fes' vw' ph vars' bnd' vj sj xv' xs' = Some pb' /\
    forall u u', carried (layout_of fes) pi u u' ->
      ((forall x, x < total_dofs (layout_of fes) -> get (apply_res bc (get_res pb bs u) u c1) x = c0) <->
       (forall x, x < total_dofs (layout_of fes) -> get (apply_res bc' (get_res pb' bs' u') u' c1) x = c0)).
Proof.
  intros K dim nq nfq det inv norm V W fes fes' sigma pi vw vw' ph vars vars' bnd bnd' vj sj xv xv' xs xs' pb bs bs' bc bc'
         HR WF Hpos WB KS TJ TS Hb Hb' HV HB WC WC' SC EB.
  destruct (compiled K dim nq nfq det inv norm V W fes fes' sigma pi HR WF Hpos vw vw' ph vars vars' bnd bnd' vj sj xv xv' xs xs' pb WB KS TJ TS HV HB EB)
    as (pb' & E' & W1 & W2 & N1 & N2 & _ & _ & _ & _ & H).
  exists pb'. split; [exact E'|]. intros u u' Hu. destruct (H u u' Hu) as [H1 _]. set (L := layout_of fes) in *.
  rewrite (C11_zero_iff (get_res pb bs u) u WC (eq_trans (get_res_length pb bs u) N1)).
  rewrite (C11_zero_iff (get_res pb' bs' u') u' WC' (eq_trans (get_res_length pb' bs' u') N2)).
  assert (HRes : forall i a k, valid_dof L i a k -> get (get_res pb' bs' u') (dof L i (pi i a) k) = get (get_res pb bs u) (dof L i a k)).
  { intros i a k V1. rewrite !get_res_spec; try assumption; [apply H1; exact V1| |].
    - rewrite N1. apply dof_lt. exact V1.
    - rewrite N2. apply dof_lt. apply (valid_pi _ _ _ _ _ HR Hpos). exact V1. }
  assert (RIn : forall i a k, valid_dof L i a k -> (In (dof L i a k) (bc_rows bc) <-> In (dof L i (pi i a) k) (bc_rows bc'))).
  { intros i a k V1. split; intros HI; apply (In_nth _ _ 0) in HI; destruct HI as (s & Hs & E).
    - destruct (proj1 (SC i a k (get (bc_vals bc) s) V1)) as (s' & Hs' & E2 & _); [exists s; auto|]. rewrite <- E2. apply nth_In. exact Hs'.
    - destruct (proj2 (SC i a k (get (bc_vals bc') s) V1)) as (s' & Hs' & E2 & _); [exists s; auto|]. rewrite <- E2. apply nth_In. exact Hs'. }
  split; intros [A B]; split.
  - intros s Hs. assert (Hx : nth s (bc_rows bc') 0 < total_dofs L) by (apply (wb_range WC'); apply nth_In; exact Hs).
    destruct (dof_onto _ _ _ _ _ HR Hpos _ Hx) as (i & a & k & V1 & E).
    destruct (proj2 (SC i a k (get (bc_vals bc') s) V1)) as (s' & Hs' & E2 & E3); [exists s; auto|].
    rewrite <- E. rewrite Hu by exact V1. rewrite <- E2, A by exact Hs'. exact E3.
  - intros x Hx Hn. destruct (dof_onto _ _ _ _ _ HR Hpos _ Hx) as (i & a & k & V1 & E). rewrite <- E in *. rewrite HRes by exact V1.
    apply B; [apply dof_lt; exact V1|]. intros Hin. apply Hn. apply RIn; assumption.
  - intros s Hs. assert (Hx : nth s (bc_rows bc) 0 < total_dofs L) by (apply (wb_range WC); apply nth_In; exact Hs).
    destruct (dof_surj L Hx) as (i & a & k & V1 & E).
    destruct (proj1 (SC i a k (get (bc_vals bc) s) V1)) as (s' & Hs' & E2 & E3); [exists s; auto|].
    rewrite <- E, <- Hu by exact V1. rewrite <- E2, A by exact Hs'. exact E3.
  - intros x Hx Hn. destruct (dof_surj L Hx) as (i & a & k & V1 & E). rewrite <- E in *. rewrite <- HRes by exact V1.
    apply B; [apply dof_lt; apply (valid_pi _ _ _ _ _ HR Hpos); exact V1|]. intros Hin. apply Hn. apply RIn; assumption.
Qed.
Print Assumptions C111_solution.

(** The two-variable problem of [C63_example] with its two cells swapped, the three nodes of the first variable turned round by one, those of
    the second reversed, and a face of each end. *)
Definition rx_sigma (c : nat) : nat := 1 - c.
Definition rx_pi (i a : nat) : nat := if i =? 0 then (a + 1) mod 3 else 2 - a.
Definition rx_fes : list (fe ZK) :=
  [ {| fe_vec := 1; fe_nn := 2; fe_points := [[2%Z]; [0%Z]; [1%Z]]; fe_cells := [[2; 0]; [1; 2]];
       fe_sv := fe_sv (ex_fe 1); fe_sgref := fe_sgref (ex_fe 1); fe_w := fe_w (ex_fe 1); fe_fsv := fe_fsv (ex_fe 1); fe_fsgref := fe_fsgref (ex_fe 1);
       fe_fnormal := fe_fnormal (ex_fe 1); fe_fw := fe_fw (ex_fe 1) |};
    {| fe_vec := 2; fe_nn := 2; fe_points := [[2%Z]; [1%Z]; [0%Z]]; fe_cells := [[1; 0]; [2; 1]];
       fe_sv := fe_sv (ex_fe 2); fe_sgref := fe_sgref (ex_fe 2); fe_w := fe_w (ex_fe 2); fe_fsv := fe_fsv (ex_fe 2); fe_fsgref := fe_fsgref (ex_fe 2);
       fe_fnormal := fe_fnormal (ex_fe 2); fe_fw := fe_fw (ex_fe 2) |} ].
Definition rx_bnd : list (bdata ZK Z) := [Build_bdata ZK Z [(1, 1); (0, 0)] (Build_bphysics ZK Z None (Some ex_sw) None) [fun _ => 7%Z; fun _ => 4%Z]].
Definition rx_bnd' : list (bdata ZK Z) := [Build_bdata ZK Z [(1, 0); (0, 1)] (Build_bphysics ZK Z None (Some ex_sw) None) [fun _ => 4%Z; fun _ => 7%Z]].
Definition rx_build :=
  build (K := ZK) 1 2 1 ex_det ex_inv ex_norm ex_fes FULL ex_ph ex_vars rx_bnd (fun _ _ => repeat 0%Z 36) (fun _ _ => repeat 0%Z 36)
    (vinp_of 1 ex_det ex_inv ex_fes ex_vars 0) (finp_of 1 ex_det ex_inv ex_norm ex_fes (fun _ => 0%Z) (0, 0)).
Definition rx_build' :=
  build (K := ZK) 1 2 1 ex_det ex_inv ex_norm rx_fes FULL ex_ph (fun c => ex_vars (1 - c)) rx_bnd' (fun _ _ => repeat 0%Z 36) (fun _ _ => repeat 0%Z 36)
    (vinp_of 1 ex_det ex_inv ex_fes ex_vars 0) (finp_of 1 ex_det ex_inv ex_norm ex_fes (fun _ => 0%Z) (0, 0)).
Example C111_example :
  renumbered ex_fes rx_fes rx_sigma rx_pi /\ Forall2 (renumbered_boundary rx_sigma) rx_bnd rx_bnd' /\
  (forall c q, c < num_cells ex_fes -> ex_vars (1 - rx_sigma c) q = ex_vars c q) /\
  carried (K := ZK) (layout_of ex_fes) rx_pi [1; 2; 3; 1; 2; 3; 4; 5; 6]%Z [3; 1; 2; 5; 6; 3; 4; 1; 2]%Z /\
  exists pb pb', rx_build = Some pb /\ rx_build' = Some pb' /\
    let r := get_res pb 1 [1; 2; 3; 1; 2; 3; 4; 5; 6]%Z in
    get_res pb' 2 [3; 1; 2; 5; 6; 3; 4; 1; 2]%Z = map (get (K := ZK) r) [2; 0; 1; 7; 8; 5; 6; 3; 4] /\ r <> get_res pb' 2 [3; 1; 2; 5; 6; 3; 4; 1; 2]%Z.
Proof.
  split.
  { constructor.
    - reflexivity.
    - intros [|[|i]] Hi; cbn in Hi; try lia; reflexivity.
    - intros [|[|i]] Hi; cbn in Hi; try lia; (split; [reflexivity|]); intros [|[|[|a]]] Ha; cbn in Ha; try lia; vm_compute; split; try reflexivity; lia.
    - intros [|[|i]] [|[|[|a]]] [|[|[|b]]] Hi Ha Hb; cbn in Hi, Ha, Hb; try lia; vm_compute; intros; congruence.
    - intros [|[|i]] Hi; cbn in Hi; try lia; (split; [reflexivity|]); intros [|[|c]] Hc; cbn in Hc; try lia; reflexivity.
    - intros [|[|c]] Hc; cbn in Hc; try lia; vm_compute; lia.
    - intros [|[|c]] [|[|c']] Hc Hc'; cbn in Hc, Hc'; try lia; vm_compute; intros; congruence. }
  split.
  { constructor; [|constructor]. split; [reflexivity|]. split; [reflexivity|]. cbn. apply perm_swap. }
  split; [intros [|[|c]] q Hc; cbn in Hc; try lia; reflexivity|].
  split; [intros i a k V1; apply in_triples in V1; cbn in V1; repeat (destruct V1 as [[= <- <- <-]|V1]; [vm_compute; reflexivity|]); destruct V1|].
  eexists. eexists. split; [reflexivity|]. split; [reflexivity|]. vm_compute. split; [reflexivity|discriminate].
Qed.
