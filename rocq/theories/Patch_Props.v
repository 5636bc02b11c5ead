(** The patch test: an affine displacement of a homogeneous body is in equilibrium at every
    interior node, whatever the mesh. *)
From Coq Require Import String.
From Verif Require Import Base Csr_Model Assembly_Model AssemblyMain_Proofs Dof_Model Dof_Spec Bc_Model Bc_Proofs Bc_Props Basis_Model Basis_Spec
                          Kernel_Model Kernel_Spec Kernel_Proofs Kernel_Props Patch_Model.
From Coq Require Import List Arith Lia Permutation ZArith QArith Qcanon.
Local Close Scope Q_scope.
Local Close Scope Qc_scope.
Local Open Scope nat_scope.
Import ListNotations.

(** ** Specification *)
Section Spec.
  Variable K : CRing.
  Local Open Scope ring_K.

  (** The (cell, local node) pairs at which node [a] occurs. *)
  Definition occurrences (f : fe K) (a : nat) : list (nat * nat) :=
    filter (fun p => (node_of f (fst p) (snd p) =? a)%nat)
      (flat_map (fun c => map (pair c) (seq 0 (fe_nn f))) (seq 0 (length (fe_cells f)))).

  (** [det] of 2 x 2 and 3 x 3 matrices. *)
  Definition det2 (M : list (list K)) : K := get2 M 0 0 * get2 M 1 1 - get2 M 0 1 * get2 M 1 0.
  Definition det3 (M : list (list K)) : K :=
    get2 M 0 0 * (get2 M 1 1 * get2 M 2 2 - get2 M 1 2 * get2 M 2 1)
    - get2 M 0 1 * (get2 M 1 0 * get2 M 2 2 - get2 M 1 2 * get2 M 2 0)
    + get2 M 0 2 * (get2 M 1 0 * get2 M 2 1 - get2 M 1 1 * get2 M 2 0).
End Spec.
Arguments occurrences {K}. Arguments det2 {K}. Arguments det3 {K}.

Section Core.
  Variable K : CRing.
  Add Ring Kring110 : (cth K).
  Local Open Scope ring_K.

  (** What node [a] receives from a unit stress in direction [d]. *)
  Definition pull dim nq det inv (f : fe K) (a d : nat) : K :=
    Sum (length (fe_cells f)) (fun c => Sum (fe_nn f) (fun n =>
      if (node_of f c n =? a)%nat then Sum nq (fun q => shape_grad dim inv f c q n d * JxW dim det f c q) else 0)).

  Lemma pull_occ dim nq det inv f a d :
    pull dim nq det inv f a d =
    sumf (fun p => Sum nq (fun q => shape_grad dim inv f (fst p) q (snd p) d * JxW dim det f (fst p) q)) (occurrences f a).
  Proof.
    unfold pull, occurrences. rewrite <- sumf_if_sum, sumf_flat_map. unfold Sum at 1. apply sumf_ext. intros c _.
    rewrite sumf_map. reflexivity.
  Qed.

  Lemma unit_work n i (R : list K) : i < n ->
    virtual_work n (tab n (fun j => if (j =? i)%nat then 1 else 0)) R = get R i.
  Proof.
    intros Hi. unfold virtual_work. rewrite (Sum_ext K _ _ (fun j => if (j =? i)%nat then get R j else 0)).
    - apply Sum_single. exact Hi.
    - intros j Hj. rewrite get_tab by exact Hj. destruct (j =? i)%nat; ring.
  Qed.

  Lemma node_bound (f : fe K) c n : wf_fes [f] -> c < length (fe_cells f) -> n < fe_nn f -> node_of f c n < length (fe_points f).
  Proof.
    intros WF Hc Hn. destruct (WF f (or_introl eq_refl)) as [_ W]. apply (W (nth c (fe_cells f) [])); [apply nth_In; exact Hc|].
    unfold node_of. apply nth_In. rewrite (proj1 (W _ (nth_In _ _ Hc))). exact Hn.
  Qed.

  (** The gradient of an affine field. *)
  Lemma grad_affine dim inv (f : fe K) u c q A b :
    wf_fes [f] -> c < length (fe_cells f) -> inverse_ok K dim inv f c q -> unity K dim f ->
    (forall a k, a < length (fe_points f) -> k < fe_vec f ->
       get u (a * fe_vec f + k) = b k + Sum dim (fun j => A k j * get2 (fe_points f) a j)) ->
    grad_at dim inv [f] 0 u c q = tab (fe_vec f) (fun k => tab dim (A k)).
  Proof.
    intros WF Hc HI HU HA. 
    assert (G : forall k d, k < fe_vec f -> d < dim -> get2 (grad_at dim inv [f] 0 u c q) k d = A k d).
    { apply (affine_gradient K dim inv [f] 0 u c q A b); cbn [fe_at nth]; auto.
      intros n k Hn Hk. unfold nodal. rewrite dof_single. cbn [fe_at nth]. rewrite HA; [reflexivity| |exact Hk].
      apply node_bound; assumption. }
    unfold grad_at in *. cbn [fe_at nth] in *. apply tab_ext. intros k Hk. apply tab_ext. intros d Hd.
    rewrite <- (G k d Hk Hd), (get2_tab K _ dim) by assumption. reflexivity.
  Qed.

  Lemma patch_core dim nq det inv (V : Type) (f : fe K) (tm : tensor_map K V) vars u A b P a k :
    wf_fes [f] -> unity K dim f ->
    (forall c q, c < length (fe_cells f) -> q < nq -> inverse_ok K dim inv f c q) ->
    (forall a k, a < length (fe_points f) -> k < fe_vec f ->
       get u (a * fe_vec f + k) = b k + Sum dim (fun j => A k j * get2 (fe_points f) a j)) ->
    (forall c q, c < length (fe_cells f) -> q < nq -> tm (tab (fe_vec f) (fun k => tab dim (A k))) (vars c q) = P) ->
    a < length (fe_points f) -> k < fe_vec f ->
    (forall d, d < dim -> pull dim nq det inv f a d = 0) ->
    let n := (length (fe_points f) * fe_vec f)%nat in
    tensor_volume dim nq det inv [f] tm vars u (tab n (fun j => if (j =? a * fe_vec f + k)%nat then 1 else 0)) = 0.
  Proof.
    intros WF HU HI HA HP Ha Hk HZ n. unfold tensor_volume, over_cells.
    transitivity (Sum dim (fun d => get2 P k d * pull dim nq det inv f a d)).
    2:{ apply Sum_zero. intros d Hd. rewrite HZ by exact Hd. ring. }
    change (num_cells [f]) with (length (fe_cells f)).
    unfold pull.
    transitivity (Sum (length (fe_cells f)) (fun c => Sum dim (fun d => get2 P k d * Sum (fe_nn f) (fun m =>
      if (node_of f c m =? a)%nat then Sum nq (fun q => shape_grad dim inv f c q m d * JxW dim det f c q) else 0)))).
    2:{ rewrite Sum_swap. apply Sum_ext. intros d Hd. rewrite Sum_mul_l. reflexivity. }
    apply Sum_ext. intros c Hc.
    transitivity (Sum nq (fun q => Sum dim (fun d => get2 P k d * Sum (fe_nn f) (fun m =>
      if (node_of f c m =? a)%nat then shape_grad dim inv f c q m d * JxW dim det f c q else 0)))).
    2:{ rewrite Sum_swap. apply Sum_ext. intros d Hd. rewrite Sum_mul_l. f_equal. rewrite Sum_swap. apply Sum_ext. intros m Hm.
        destruct (node_of f c m =? a)%nat; [reflexivity|]. apply Sum_zero. reflexivity. }
    apply Sum_ext. intros q Hq. cbn [fe_at nth].
    rewrite (grad_affine dim inv f u c q A b WF Hc (HI c q Hc Hq) HU HA), (HP c q Hc Hq).
    unfold dot2, grad_at. cbn [fe_at nth].
    rewrite <- Sum_mul_l.
    transitivity (Sum (fe_vec f) (fun k' => if (k' =? k)%nat then
       Sum dim (fun d => get2 P k' d * Sum (fe_nn f) (fun m =>
         if (node_of f c m =? a)%nat then shape_grad dim inv f c q m d * JxW dim det f c q else 0)) else 0)).
    2:{ apply Sum_single. exact Hk. }
    apply Sum_ext. intros k' Hk'.
    assert (N : forall m, m < fe_nn f ->
      nodal [f] 0 (tab n (fun j => if (j =? a * fe_vec f + k)%nat then 1 else 0)) c m k' =
      if (k' =? k)%nat then (if (node_of f c m =? a)%nat then 1 else 0) else 0).
    { intros m Hm. unfold nodal. rewrite dof_single. cbn [fe_at nth].
      pose proof (node_bound f c m WF Hc Hm) as B.
      rewrite get_tab by (unfold n; nia).
      destruct (k' =? k)%nat eqn:E1.
      - apply Nat.eqb_eq in E1. subst k'. destruct (node_of f c m =? a)%nat eqn:E2.
        + apply Nat.eqb_eq in E2. rewrite E2, Nat.eqb_refl. reflexivity.
        + apply Nat.eqb_neq in E2. replace (_ =? _)%nat with false; [reflexivity|]. symmetry. apply Nat.eqb_neq. nia.
      - apply Nat.eqb_neq in E1. replace (_ =? _)%nat with false; [reflexivity|]. symmetry. apply Nat.eqb_neq.
        intros E. apply E1. destruct (Nat.lt_trichotomy (node_of f c m) a) as [L|[L|L]]; nia. }
    rewrite <- Sum_mul_l.
    destruct (k' =? k)%nat eqn:E1.
    - apply Nat.eqb_eq in E1. subst k'. apply Sum_ext. intros d Hd. rewrite (get2_tab K _ dim) by assumption.
      rewrite <- !Sum_mul_l. apply Sum_ext. intros m Hm. rewrite N by exact Hm. destruct (node_of f c m =? a)%nat; ring.
    - apply Sum_zero. intros d Hd. rewrite (get2_tab K _ dim) by assumption.
      rewrite Sum_zero; [ring|]. intros m Hm. rewrite N by exact Hm. ring.
  Qed.

  (** Through the assembled residual. *)
  Lemma patch_res dim nq nfq det inv norm (V W : Type) (f : fe K) vw (ph : physics K V) tm
         vars vj sj xv xs pb bs0 u A b P a k :
    wf_fes [f] -> unity K dim f ->
    (forall c q, c < length (fe_cells f) -> q < nq -> inverse_ok K dim inv f c q) ->
    (forall u x, length (vj u x) = num_local [f] * num_local [f])%nat ->
    (forall u x, length (sj u x) = num_local [f] * num_local [f])%nat ->
    0 < bs0 ->
    ph_universal ph = None -> ph_extra ph = None -> ph_mass ph = None ->
    match ph_tensor ph with Some t => Some t | None => ph_energy_grad ph end = Some tm ->
    build dim nq nfq det inv norm [f] vw ph vars (@nil (bdata K W)) vj sj xv xs = Some pb ->
    (forall a k, a < length (fe_points f) -> k < fe_vec f ->
       get u (a * fe_vec f + k) = b k + Sum dim (fun j => A k j * get2 (fe_points f) a j)) ->
    (forall c q, c < length (fe_cells f) -> q < nq -> tm (tab (fe_vec f) (fun k => tab dim (A k))) (vars c q) = P) ->
    a < length (fe_points f) -> k < fe_vec f ->
    (forall d, d < dim -> pull dim nq det inv f a d = 0) ->
    get (get_res pb bs0 u) (a * fe_vec f + k) = 0.
  Proof.
    intros WF U HI TJ TS Hbs PU PE PM PT EB HA HP Ha Hk HZ.
    assert (KS : kernel_shapes [f] ph (@nil (bdata K W))).
    { split; [|intros b0 k0 []]. intros k0 [E|E]; congruence. }
    assert (PN : pr_n pb = (length (fe_points f) * fe_vec f)%nat).
    { unfold build in EB. destruct (volume_kernel dim nq [f] ph); [|discriminate]. cbn [map all_opt] in EB. injection EB as <-.
      cbn [pr_n]. unfold total_dofs, layout_of, sizes. cbn. lia. }
    rewrite <- (unit_work (pr_n pb)) by nia.
    rewrite (C63_composition K dim nq nfq det inv norm V W [f] vw ph vars nil vj sj xv xs pb bs0 u _ WF
               (Nat.lt_0_succ 0) (fun b H => match H with end) KS TJ TS Hbs EB).
    unfold volume_terms. rewrite PU, PE, PM, PT. cbn [length Nat.ltb Nat.leb opt_term sumf].
    rewrite !kadd0r, kadd0l, PN. cbn [opt_term].
    apply (patch_core dim nq det inv V f tm vars u A b P a k); assumption.
  Qed.
End Core.

(** ** Elements *)
Section Elements.
  Variable K : CRing.
  Add Ring Kring110b : (cth K).
  Local Open Scope ring_K.

  (** [f] carries the first-order tables of element [e] at the reference points
      [(px q, py q, pz q)]. *)
  Definition tabulated (e : string) (dim : nat) (f : fe K) (px py pz : nat -> K) : Prop :=
    fe_nn f = node_count e /\
    forall q, mesh_grads K e (px q) (py q) (pz q) = Some (tab (fe_nn f) (fun n => tab dim (fe_sgref f q n))).

  Definition lin (b : bool) (t : K) : K := if b then t else 1 - t.
  Definition mom (a b : bool) : K := if Bool.eqb a b then 1 + 1 else 1.
  (** What is used of the quadrature rule [(w, px, py, pz)] with [nq] points.  Quadrilaterals: the four
      products of linear functions have the same integral [g] (1/4).  Hexahedra: products of two
      linear functions per axis have the integral [g * m * m * m], [m = 2] for a square and [1]
      for a mixed product ([g = 1/216]: 1/3 = 2/6 and 1/6 per axis).  Triangles and
      tetrahedra: nothing. *)
  Definition rule_ok (e : string) (nq : nat) (w px py pz : nat -> K) (g : K) : Prop :=
    (e = "QUAD4"%string -> forall a b, Sum nq (fun q => w q * (lin a (px q) * lin b (py q))) = g) /\
    (e = "HEX8"%string -> forall a a' b b' c c',
       Sum nq (fun q => w q * (lin a (px q) * lin a' (px q) * (lin b (py q) * lin b' (py q)) * (lin c (pz q) * lin c' (pz q))))
       = g * (mom a a' * mom b b' * mom c c')).

  Lemma tab_nth {A} n (h h' : nat -> A) : tab n h = tab n h' -> forall i, i < n -> h i = h' i.
  Proof.
    intros E i Hi. unfold tab in E.
    assert (X : nth i (map h (seq 0 n)) (h 0%nat) = nth i (map h' (seq 0 n)) (h 0%nat)) by (rewrite E; reflexivity).
    rewrite (map_nth h) in X.
    rewrite (nth_indep (map h' (seq 0 n)) (h 0%nat) (h' 0%nat)) in X by (rewrite map_length, seq_length; exact Hi).
    rewrite (map_nth h'), !seq_nth in X by exact Hi. exact X.
  Qed.

  (** Entries of the tables. *)
  Lemma tab_entry e dim (f : fe K) px py pz l q n d : tabulated e dim f px py pz ->
    mesh_grads K e (px q) (py q) (pz q) = Some l -> n < fe_nn f -> d < dim -> fe_sgref f q n d = get2 l n d.
  Proof.
    intros [_ H] E Hn Hd. rewrite H in E. injection E as <-. rewrite get2_tab by assumption. reflexivity.
  Qed.

  (** Inverse through the adjugate. *)
  Lemma inv2 inv (f : fe K) c q n : inverse_ok K 2 inv f c q ->
    let J := jac 2 f c q in
    shape_grad 2 inv f c q n 0 * det2 J = fe_sgref f q n 0 * get2 J 1 1 - fe_sgref f q n 1 * get2 J 1 0 /\
    shape_grad 2 inv f c q n 1 * det2 J = fe_sgref f q n 1 * get2 J 0 0 - fe_sgref f q n 0 * get2 J 0 1.
  Proof.
    intros HI J. pose proof (HI 0%nat 0%nat ltac:(lia) ltac:(lia)) as E00. pose proof (HI 0%nat 1%nat ltac:(lia) ltac:(lia)) as E01.
    pose proof (HI 1%nat 0%nat ltac:(lia) ltac:(lia)) as E10. pose proof (HI 1%nat 1%nat ltac:(lia) ltac:(lia)) as E11.
    fold J in E00, E01, E10, E11. unfold shape_grad. fold J.
    set (I := inv J) in *. unfold Sum in *. cbn [seq sumf Nat.eqb] in *. unfold det2.
    split.
    - transitivity (fe_sgref f q n 0 * (get2 J 1 1 * (get2 J 0 0 * get2 I 0 0 + (get2 J 0 1 * get2 I 1 0 + 0))
                     - get2 J 0 1 * (get2 J 1 0 * get2 I 0 0 + (get2 J 1 1 * get2 I 1 0 + 0)))
                  + fe_sgref f q n 1 * (get2 J 0 0 * (get2 J 1 0 * get2 I 0 0 + (get2 J 1 1 * get2 I 1 0 + 0))
                     - get2 J 1 0 * (get2 J 0 0 * get2 I 0 0 + (get2 J 0 1 * get2 I 1 0 + 0)))); [ring|].
      rewrite E00, E10. ring.
    - transitivity (fe_sgref f q n 0 * (get2 J 1 1 * (get2 J 0 0 * get2 I 0 1 + (get2 J 0 1 * get2 I 1 1 + 0))
                     - get2 J 0 1 * (get2 J 1 0 * get2 I 0 1 + (get2 J 1 1 * get2 I 1 1 + 0)))
                  + fe_sgref f q n 1 * (get2 J 0 0 * (get2 J 1 0 * get2 I 0 1 + (get2 J 1 1 * get2 I 1 1 + 0))
                     - get2 J 1 0 * (get2 J 0 0 * get2 I 0 1 + (get2 J 0 1 * get2 I 1 1 + 0)))); [ring|].
      rewrite E01, E11. ring.
  Qed.

  Lemma jac_get dim (f : fe K) c q i e : i < dim -> e < dim ->
    get2 (jac dim f c q) i e = Sum (fe_nn f) (fun n => coo f c n i * fe_sgref f q n e).
  Proof. intros. unfold jac. rewrite get2_tab by assumption. reflexivity. Qed.

  (** Corner coordinates of quadrilaterals and hexahedra (mesh order). *)
  Definition sgn (b : bool) : K := if b then 1 else - (1).
  Definition bitx (n : nat) : bool := match n with 1 | 2 | 5 | 6 => true | _ => false end%nat.
  Definition bity (n : nat) : bool := match n with 2 | 3 | 6 | 7 => true | _ => false end%nat.
  Definition bitz (n : nat) : bool := match n with 4 | 5 | 6 | 7 => true | _ => false end%nat.

  (** Next and previous node around a plane element. *)
  Definition next (m n : nat) : nat := if (S n =? m)%nat then 0%nat else S n.
  Definition prev (m n : nat) : nat := if (n =? 0)%nat then (m - 1)%nat else (n - 1)%nat.

  Definition gain2 (e : string) nq (w : nat -> K) (g : K) : K :=
    if (e =? "TRI3")%string then Sum nq w else g + g.

  Lemma pull2 e nq det inv (f : fe K) px py pz g c n :
    e = "TRI3"%string \/ e = "QUAD4"%string -> tabulated e 2 f px py pz -> rule_ok e nq (fe_w f) px py pz g ->
    (forall q, q < nq -> inverse_ok K 2 inv f c q) ->
    (forall q, q < nq -> det (jac 2 f c q) = det2 (jac 2 f c q)) -> n < fe_nn f ->
    let p := next (fe_nn f) n in let s := prev (fe_nn f) n in
    Sum nq (fun q => shape_grad 2 inv f c q n 0 * JxW 2 det f c q) = gain2 e nq (fe_w f) g * (coo f c p 1 - coo f c s 1) /\
    Sum nq (fun q => shape_grad 2 inv f c q n 1 * JxW 2 det f c q) = - (gain2 e nq (fe_w f) g * (coo f c p 0 - coo f c s 0)).
  Proof.
    intros He T HR HI HD Hn p s.
    assert (A0 : Sum nq (fun q => shape_grad 2 inv f c q n 0 * JxW 2 det f c q) =
                 Sum nq (fun q => fe_w f q * (fe_sgref f q n 0 * get2 (jac 2 f c q) 1 1 - fe_sgref f q n 1 * get2 (jac 2 f c q) 1 0))).
    { apply Sum_ext. intros q Hq. unfold JxW. rewrite HD by exact Hq. rewrite <- (proj1 (inv2 inv f c q n (HI q Hq))). ring. }
    assert (A1 : Sum nq (fun q => shape_grad 2 inv f c q n 1 * JxW 2 det f c q) =
                 Sum nq (fun q => fe_w f q * (fe_sgref f q n 1 * get2 (jac 2 f c q) 0 0 - fe_sgref f q n 0 * get2 (jac 2 f c q) 0 1))).
    { apply Sum_ext. intros q Hq. unfold JxW. rewrite HD by exact Hq. rewrite <- (proj2 (inv2 inv f c q n (HI q Hq))). ring. }
    assert (B0 : forall m d, Sum nq (fun q => fe_w f q * (fe_sgref f q n 0 * get2 (jac 2 f c q) m 1 - fe_sgref f q n 1 * get2 (jac 2 f c q) m 0)) = d ->
       Sum nq (fun q => fe_w f q * (fe_sgref f q n 1 * get2 (jac 2 f c q) m 0 - fe_sgref f q n 0 * get2 (jac 2 f c q) m 1)) = - d).
    { intros m d <-. transitivity (Sum nq (fun q => - (1) * (fe_w f q * (fe_sgref f q n 0 * get2 (jac 2 f c q) m 1 - fe_sgref f q n 1 * get2 (jac 2 f c q) m 0)))).
      - apply Sum_ext. intros q Hq. ring.
      - rewrite Sum_mul_l. ring. }
    rewrite A0, A1.
    assert (C : forall m, m < 2 -> Sum nq (fun q => fe_w f q * (fe_sgref f q n 0 * get2 (jac 2 f c q) m 1 - fe_sgref f q n 1 * get2 (jac 2 f c q) m 0))
                 = gain2 e nq (fe_w f) g * (coo f c p m - coo f c s m)).
    2:{ split; [apply C; lia|]. apply B0, C. lia. }
    intros m Hm.
    transitivity (Sum (fe_nn f) (fun j => coo f c j m * Sum nq (fun q => fe_w f q * (fe_sgref f q n 0 * fe_sgref f q j 1 - fe_sgref f q n 1 * fe_sgref f q j 0)))).
    { transitivity (Sum nq (fun q => Sum (fe_nn f) (fun j => coo f c j m * (fe_w f q * (fe_sgref f q n 0 * fe_sgref f q j 1 - fe_sgref f q n 1 * fe_sgref f q j 0))))).
      - apply Sum_ext. intros q Hq. rewrite !jac_get by lia. rewrite <- !Sum_mul_l, <- Sum_sub, <- Sum_mul_l. apply Sum_ext. intros j Hj. ring.
      - rewrite Sum_swap. apply Sum_ext. intros j Hj. rewrite Sum_mul_l. reflexivity. }
    destruct He as [-> | ->].
    - assert (N3 : fe_nn f = 3%nat) by exact (proj1 T). unfold gain2. cbn [String.eqb Ascii.eqb Bool.eqb].
      set (W := Sum nq (fe_w f)).
      assert (G : forall q i d, i < 3 -> d < 2 -> fe_sgref f q i d = get2 [[- (1); - (1)]; [1; 0]; [0; 1]] i d).
      { intros q i d Hi Hd. apply (tab_entry "TRI3" 2 f px py pz); [exact T|reflexivity|lia|exact Hd]. }
      assert (X : forall j, j < 3 -> Sum nq (fun q => fe_w f q * (fe_sgref f q n 0 * fe_sgref f q j 1 - fe_sgref f q n 1 * fe_sgref f q j 0)) =
        W * (get2 [[- (1); - (1)]; [1; 0]; [0; 1]] n 0 * get2 [[- (1); - (1)]; [1; 0]; [0; 1]] j 1 -
             get2 [[- (1); - (1)]; [1; 0]; [0; 1]] n 1 * get2 [[- (1); - (1)]; [1; 0]; [0; 1]] j 0)).
      { intros j Hj. unfold W. rewrite <- Sum_mul_r. apply Sum_ext. intros q Hq. rewrite !G by lia. reflexivity. }
      subst p s. rewrite N3 in *.
      rewrite (Sum_ext K 3 _ (fun j => coo f c j m * (W * (get2 [[- (1); - (1)]; [1; 0]; [0; 1]] n 0 * get2 [[- (1); - (1)]; [1; 0]; [0; 1]] j 1 -
             get2 [[- (1); - (1)]; [1; 0]; [0; 1]] n 1 * get2 [[- (1); - (1)]; [1; 0]; [0; 1]] j 0)))) by (intros j Hj; rewrite X by exact Hj; reflexivity).
      unfold Sum. destruct n as [|[|[|n]]]; [ | | |lia]; cbn; ring.
    - assert (N4 : fe_nn f = 4%nat) by exact (proj1 T). unfold gain2. cbn [String.eqb Ascii.eqb Bool.eqb].
      assert (G : forall q i d, i < 4 -> d < 2 -> fe_sgref f q i d =
         get2 [[- (1 - py q); - (1 - px q)]; [1 - py q; - px q]; [py q; px q]; [- py q; 1 - px q]] i d).
      { intros q i d Hi Hd. apply (tab_entry "QUAD4" 2 f px py pz); [exact T|reflexivity|lia|exact Hd]. }
      pose proof (proj1 HR eq_refl) as M.
      assert (G2 : forall q i, i < 4 -> fe_sgref f q i 0 = sgn (bitx i) * lin (bity i) (py q) /\
                                        fe_sgref f q i 1 = sgn (bity i) * lin (bitx i) (px q)).
      { intros q i Hi. rewrite !G by lia. destruct i as [|[|[|[|i]]]]; [ | | | |lia]; cbn; split; ring. }
      assert (X : forall j, j < 4 -> Sum nq (fun q => fe_w f q * (fe_sgref f q n 0 * fe_sgref f q j 1 - fe_sgref f q n 1 * fe_sgref f q j 0)) =
        g * (sgn (bitx n) * sgn (bity j) - sgn (bity n) * sgn (bitx j))).
      { intros j Hj. transitivity (sgn (bitx n) * sgn (bity j) * g - sgn (bity n) * sgn (bitx j) * g); [|ring].
        rewrite <- (M (bitx j) (bity n)) at 1. rewrite <- (M (bitx n) (bity j)).
        rewrite <- !Sum_mul_l, <- Sum_sub. apply Sum_ext. intros q Hq.
        rewrite (proj1 (G2 q n ltac:(lia))), (proj1 (G2 q j Hj)), (proj2 (G2 q n ltac:(lia))), (proj2 (G2 q j Hj)). ring. }
      subst p s. rewrite N4 in *.
      rewrite (Sum_ext K 4 _ (fun j => coo f c j m * (g * (sgn (bitx n) * sgn (bity j) - sgn (bity n) * sgn (bitx j))))) by (intros j Hj; rewrite X by exact Hj; reflexivity).
      unfold Sum. destruct n as [|[|[|[|n]]]]; [ | | | |lia]; cbn; ring.
  Qed.
End Elements.

(** ** Solid elements *)
Section Solid.
  Variable K : CRing.
  Add Ring Kring110c : (cth K).
  Local Open Scope ring_K.

  Definition s1 (d : nat) : nat := match d with 0 => 1 | 1 => 2 | _ => 0 end%nat.
  Definition s2 (d : nat) : nat := match d with 0 => 2 | 1 => 0 | _ => 1 end%nat.

  Lemma inv3 inv (f : fe K) c q n d : inverse_ok K 3 inv f c q -> d < 3 ->
    let J := jac 3 f c q in let a := s1 d in let b := s2 d in
    shape_grad 3 inv f c q n d * det3 J =
      fe_sgref f q n 0 * (get2 J a 1 * get2 J b 2 - get2 J a 2 * get2 J b 1)
    + fe_sgref f q n 1 * (get2 J a 2 * get2 J b 0 - get2 J a 0 * get2 J b 2)
    + fe_sgref f q n 2 * (get2 J a 0 * get2 J b 1 - get2 J a 1 * get2 J b 0).
  Proof.
    intros HI Hd J a b.
    pose proof (HI 0%nat d ltac:(lia) Hd) as E0. pose proof (HI 1%nat d ltac:(lia) Hd) as E1. pose proof (HI 2%nat d ltac:(lia) Hd) as E2.
    fold J in E0, E1, E2. unfold shape_grad. fold J.
    set (I := inv J) in *. unfold Sum in *. cbn [seq sumf] in *. unfold det3.
    assert (Q : forall g0 g1 g2 i0 i1 i2 r0 r1 r2 : K,
      r0 = get2 J 0 0 * i0 + (get2 J 0 1 * i1 + (get2 J 0 2 * i2 + 0)) ->
      r1 = get2 J 1 0 * i0 + (get2 J 1 1 * i1 + (get2 J 1 2 * i2 + 0)) ->
      r2 = get2 J 2 0 * i0 + (get2 J 2 1 * i1 + (get2 J 2 2 * i2 + 0)) ->
      (g0 * i0 + (g1 * i1 + (g2 * i2 + 0))) *
      (get2 J 0 0 * (get2 J 1 1 * get2 J 2 2 - get2 J 1 2 * get2 J 2 1)
       - get2 J 0 1 * (get2 J 1 0 * get2 J 2 2 - get2 J 1 2 * get2 J 2 0)
       + get2 J 0 2 * (get2 J 1 0 * get2 J 2 1 - get2 J 1 1 * get2 J 2 0)) =
      r0 * (g0 * (get2 J 1 1 * get2 J 2 2 - get2 J 1 2 * get2 J 2 1) + g1 * (get2 J 1 2 * get2 J 2 0 - get2 J 1 0 * get2 J 2 2)
            + g2 * (get2 J 1 0 * get2 J 2 1 - get2 J 1 1 * get2 J 2 0)) +
      r1 * (g0 * (get2 J 2 1 * get2 J 0 2 - get2 J 2 2 * get2 J 0 1) + g1 * (get2 J 2 2 * get2 J 0 0 - get2 J 2 0 * get2 J 0 2)
            + g2 * (get2 J 2 0 * get2 J 0 1 - get2 J 2 1 * get2 J 0 0)) +
      r2 * (g0 * (get2 J 0 1 * get2 J 1 2 - get2 J 0 2 * get2 J 1 1) + g1 * (get2 J 0 2 * get2 J 1 0 - get2 J 0 0 * get2 J 1 2)
            + g2 * (get2 J 0 0 * get2 J 1 1 - get2 J 0 1 * get2 J 1 0))).
    { intros. subst. ring. }
    rewrite (Q _ _ _ _ _ _ _ _ _ (eq_sym E0) (eq_sym E1) (eq_sym E2)).
    subst a b. destruct d as [|[|[|d]]]; [ | | |lia]; cbn [Nat.eqb s1 s2]; ring.
  Qed.

  Definition tri3 (f : fe K) q n i j : K :=
    fe_sgref f q n 0 * (fe_sgref f q i 1 * fe_sgref f q j 2 - fe_sgref f q i 2 * fe_sgref f q j 1)
  + fe_sgref f q n 1 * (fe_sgref f q i 2 * fe_sgref f q j 0 - fe_sgref f q i 0 * fe_sgref f q j 2)
  + fe_sgref f q n 2 * (fe_sgref f q i 0 * fe_sgref f q j 1 - fe_sgref f q i 1 * fe_sgref f q j 0).

  Lemma Sum_prod n m (a b : nat -> K) : Sum n a * Sum m b = Sum n (fun i => Sum m (fun j => a i * b j)).
  Proof. rewrite <- Sum_mul_r. apply Sum_ext. intros i _. rewrite Sum_mul_l. reflexivity. Qed.

  Lemma pull3 nq det inv (f : fe K) c n d :
    (forall q, q < nq -> inverse_ok K 3 inv f c q) ->
    (forall q, q < nq -> det (jac 3 f c q) = det3 (jac 3 f c q)) -> d < 3 ->
    Sum nq (fun q => shape_grad 3 inv f c q n d * JxW 3 det f c q) =
    Sum (fe_nn f) (fun i => Sum (fe_nn f) (fun j => coo f c i (s1 d) * coo f c j (s2 d) * Sum nq (fun q => fe_w f q * tri3 f q n i j))).
  Proof.
    intros HI HD Hd.
    transitivity (Sum nq (fun q => Sum (fe_nn f) (fun i => Sum (fe_nn f) (fun j =>
       coo f c i (s1 d) * coo f c j (s2 d) * (fe_w f q * tri3 f q n i j))))).
    2:{ rewrite Sum_swap. apply Sum_ext. intros i _. rewrite Sum_swap. apply Sum_ext. intros j _. rewrite Sum_mul_l. reflexivity. }
    apply Sum_ext. intros q Hq. unfold JxW. rewrite HD by exact Hq.
    match goal with |- ?s * (?x * ?w) = _ => transitivity (w * (s * x)); [ring|] end.
    rewrite inv3 by auto.
    assert (B1 : s1 d < 3) by (destruct d as [|[|[|]]]; cbn; lia).
    assert (B2 : s2 d < 3) by (destruct d as [|[|[|]]]; cbn; lia).
    rewrite !jac_get by (assumption || lia). rewrite !Sum_prod, <- !Sum_sub, <- !Sum_mul_l, <- !Sum_add, <- Sum_mul_l.
    apply Sum_ext. intros i _. rewrite <- !Sum_sub, <- !Sum_mul_l, <- !Sum_add, <- Sum_mul_l.
    apply Sum_ext. intros j _. unfold tri3. ring.
  Qed.

  (** Outward face loops of the solid elements, and the faces at local node [n], each walked
      from [n] on (without [n]). *)
  Definition face_loops (e : string) : list (list nat) :=
    if (e =? "TET4")%string then [[0;2;1]; [0;1;3]; [1;2;3]; [0;3;2]]%nat
    else if (e =? "HEX8")%string then [[0;3;2;1]; [4;5;6;7]; [0;1;5;4]; [1;2;6;5]; [2;3;7;6]; [3;0;4;7]]%nat
    else [].
  (** What follows [n] in a loop, cyclically; empty if [n] is not on it. *)
  Fixpoint after (n : nat) (pre l : list nat) : list nat :=
    match l with
    | [] => []
    | x :: t => if (x =? n)%nat then t ++ rev pre else after n (x :: pre) t
    end.
  Definition corner_faces (e : string) (n : nat) : list (list nat) :=
    filter (fun l => match l with [] => false | _ => true end) (map (after n []) (face_loops e)).

  (** Moment of one face at node [a]: [l] are the other nodes of the loop, [X] the coordinates. *)
  Definition cross (X : nat -> nat -> K) (d p q : nat) : K := X p (s1 d) * X q (s2 d) - X p (s2 d) * X q (s1 d).
  Definition face_moment (X : nat -> nat -> K) (G : K) (d a : nat) (l : list nat) : K :=
    match l with
    | [p; q] => G * cross X d p q
    | [p; r; s] =>
        let P i := X p i - X a i in let Q i := X s i - X a i in let A i := X r i - X p i in let B i := X r i - X s i in
        let cr (u v : nat -> K) := u (s1 d) * v (s2 d) - u (s2 d) * v (s1 d) in
        G * (cr P Q + cr P Q + cr P Q + cr P Q + cr P A + cr P A + cr B Q + cr B Q + cr B A)
    | _ => 0
    end.
  Definition gain3 (e : string) nq (w : nat -> K) (g : K) : K :=
    if (e =? "TET4")%string then Sum nq w else g + g + g + g + g + g.

  Lemma moment_rev X G d a l : face_moment X G d a (rev l) = - face_moment X G d a l.
  Proof.
    destruct l as [|p [|q [|r [|s t]]]]; cbn [rev app face_moment]; unfold cross; cbv zeta; try ring.
    - destruct (rev t) as [|x1 [|x2 [|x3 [|x4 y]]]]; cbn [app face_moment]; cbv zeta; ring.
  Qed.

  Lemma tet3 e nq (f : fe K) px py pz g c n d :
    e = "TET4"%string -> tabulated K e 3 f px py pz -> n < fe_nn f ->
    Sum (fe_nn f) (fun i => Sum (fe_nn f) (fun j => coo f c i (s1 d) * coo f c j (s2 d) * Sum nq (fun q => fe_w f q * tri3 f q n i j))) =
    sumf (face_moment (fun m i => coo f c m i) (gain3 e nq (fe_w f) g) d n) (corner_faces e n).
  Proof.
    intros -> T Hn. assert (N4 : fe_nn f = 4%nat) by exact (proj1 T).
    set (L := [[- (1); - (1); - (1)]; [1; 0; 0]; [0; 1; 0]; [0; 0; 1]] : list (list K)).
    assert (G : forall q i d, i < 4 -> d < 3 -> fe_sgref f q i d = get2 L i d).
    { intros q i d' Hi Hd. apply (tab_entry K "TET4" 3 f px py pz); [exact T|reflexivity|lia|exact Hd]. }
    change (gain3 "TET4" nq (fe_w f) g) with (Sum nq (fe_w f)). set (W := Sum nq (fe_w f)).
    assert (X : forall i j, i < 4 -> j < 4 -> Sum nq (fun q => fe_w f q * tri3 f q n i j) =
       W * (get2 L n 0 * (get2 L i 1 * get2 L j 2 - get2 L i 2 * get2 L j 1)
            + get2 L n 1 * (get2 L i 2 * get2 L j 0 - get2 L i 0 * get2 L j 2)
            + get2 L n 2 * (get2 L i 0 * get2 L j 1 - get2 L i 1 * get2 L j 0))).
    { intros i j Hi Hj. unfold W. rewrite <- Sum_mul_r. apply Sum_ext. intros q Hq. unfold tri3. rewrite !G by lia. reflexivity. }
    rewrite N4 in *.
    rewrite (Sum_ext K 4 _ (fun i => Sum 4 (fun j => coo f c i (s1 d) * coo f c j (s2 d) * (W * (get2 L n 0 * (get2 L i 1 * get2 L j 2 - get2 L i 2 * get2 L j 1)
            + get2 L n 1 * (get2 L i 2 * get2 L j 0 - get2 L i 0 * get2 L j 2)
            + get2 L n 2 * (get2 L i 0 * get2 L j 1 - get2 L i 1 * get2 L j 0)))))).
    2:{ intros i Hi. apply Sum_ext. intros j Hj. rewrite X by assumption. reflexivity. }
    unfold Sum. destruct n as [|[|[|[|n]]]]; [ | | | |lia]; cbn -[s1 s2]; unfold cross; ring.
  Qed.

  Lemma hex3 e nq (f : fe K) px py pz g c n d :
    e = "HEX8"%string -> tabulated K e 3 f px py pz -> rule_ok K e nq (fe_w f) px py pz g -> n < fe_nn f ->
    Sum (fe_nn f) (fun i => Sum (fe_nn f) (fun j => coo f c i (s1 d) * coo f c j (s2 d) * Sum nq (fun q => fe_w f q * tri3 f q n i j))) =
    sumf (face_moment (fun m i => coo f c m i) (gain3 e nq (fe_w f) g) d n) (corner_faces e n).
  Proof.
    intros -> T HR Hn. assert (N8 : fe_nn f = 8%nat) by exact (proj1 T).
    pose proof (proj2 HR eq_refl) as M.
    assert (G : forall q i, i < 8 -> 
       fe_sgref f q i 0 = sgn K (bitx i) * (lin K (bity i) (py q) * lin K (bitz i) (pz q)) /\
       fe_sgref f q i 1 = sgn K (bity i) * (lin K (bitx i) (px q) * lin K (bitz i) (pz q)) /\
       fe_sgref f q i 2 = sgn K (bitz i) * (lin K (bitx i) (px q) * lin K (bity i) (py q))).
    { intros q i Hi. 
      repeat match goal with |- _ /\ _ => split end;
      (etransitivity; [apply (tab_entry K "HEX8" 3 f px py pz); [exact T|reflexivity|lia|lia]|]);
      (destruct i as [|[|[|[|[|[|[|[|i]]]]]]]]; [ | | | | | | | |lia]; cbn; ring). }
    change (gain3 "HEX8" nq (fe_w f) g) with (g + g + g + g + g + g).
    set (TT := fun i j => 
       sgn K (bitx n) * sgn K (bity i) * sgn K (bitz j) * (mom K (bitx i) (bitx j) * mom K (bity n) (bity j) * mom K (bitz n) (bitz i))
     - sgn K (bitx n) * sgn K (bitz i) * sgn K (bity j) * (mom K (bitx i) (bitx j) * mom K (bity n) (bity i) * mom K (bitz n) (bitz j))
     + (sgn K (bity n) * sgn K (bitz i) * sgn K (bitx j) * (mom K (bitx n) (bitx i) * mom K (bity i) (bity j) * mom K (bitz n) (bitz j))
     - sgn K (bity n) * sgn K (bitx i) * sgn K (bitz j) * (mom K (bitx n) (bitx j) * mom K (bity i) (bity j) * mom K (bitz n) (bitz i)))
     + (sgn K (bitz n) * sgn K (bitx i) * sgn K (bity j) * (mom K (bitx n) (bitx j) * mom K (bity n) (bity i) * mom K (bitz i) (bitz j))
     - sgn K (bitz n) * sgn K (bity i) * sgn K (bitx j) * (mom K (bitx n) (bitx i) * mom K (bity n) (bity j) * mom K (bitz i) (bitz j)))).
    assert (X : forall i j, i < 8 -> j < 8 -> Sum nq (fun q => fe_w f q * tri3 f q n i j) = g * TT i j).
    { intros i j Hi Hj.
      assert (E : forall s a a' b b' c0 c0', s * (g * (mom K a a' * mom K b b' * mom K c0 c0')) =
         Sum nq (fun q => s * (fe_w f q * (lin K a (px q) * lin K a' (px q) * (lin K b (py q) * lin K b' (py q)) * (lin K c0 (pz q) * lin K c0' (pz q)))))).
      { intros. rewrite <- M, Sum_mul_l. reflexivity. }
      transitivity (
         sgn K (bitx n) * sgn K (bity i) * sgn K (bitz j) * (g * (mom K (bitx i) (bitx j) * mom K (bity n) (bity j) * mom K (bitz n) (bitz i)))
       - sgn K (bitx n) * sgn K (bitz i) * sgn K (bity j) * (g * (mom K (bitx i) (bitx j) * mom K (bity n) (bity i) * mom K (bitz n) (bitz j)))
       + (sgn K (bity n) * sgn K (bitz i) * sgn K (bitx j) * (g * (mom K (bitx n) (bitx i) * mom K (bity i) (bity j) * mom K (bitz n) (bitz j)))
       - sgn K (bity n) * sgn K (bitx i) * sgn K (bitz j) * (g * (mom K (bitx n) (bitx j) * mom K (bity i) (bity j) * mom K (bitz n) (bitz i))))
       + (sgn K (bitz n) * sgn K (bitx i) * sgn K (bity j) * (g * (mom K (bitx n) (bitx j) * mom K (bity n) (bity i) * mom K (bitz i) (bitz j)))
       - sgn K (bitz n) * sgn K (bity i) * sgn K (bitx j) * (g * (mom K (bitx n) (bitx i) * mom K (bity n) (bity j) * mom K (bitz i) (bitz j))))).
      2:{ unfold TT. ring. }
      rewrite !E, <- !Sum_sub, <- !Sum_add. apply Sum_ext. intros q Hq. unfold tri3.
      destruct (G q n ltac:(lia)) as (-> & -> & ->). destruct (G q i Hi) as (-> & -> & ->). destruct (G q j Hj) as (-> & -> & ->). ring. }
    rewrite N8 in *.
    rewrite (Sum_ext K 8 _ (fun i => Sum 8 (fun j => coo f c i (s1 d) * coo f c j (s2 d) * (g * TT i j)))).
    2:{ intros i Hi. apply Sum_ext. intros j Hj. rewrite X by assumption. reflexivity. }
    subst TT. clear X G M. unfold Sum. 
    destruct n as [|[|[|[|[|[|[|[|n]]]]]]]]; [ | | | | | | | |lia]; cbn -[s1 s2 coo].
    all: ring.
  Qed.
End Solid.

(** ** The patch test *)
Definition ele_dim (e : string) : nat := if one_of e ["TRI3"; "QUAD4"]%string then 2 else 3.

(** The cells around node [a] close up.  In the plane: the nodes that follow [a] around its cells
    are, with multiplicity, the nodes that precede it (each mesh edge at [a] is walked
    once in each direction).  In space: the faces at [a], walked outward from their cells, pair up
    with opposite orientations (each face at [a] is shared by two cells). *)
Definition interior {K : CRing} (e : string) (f : fe K) (a : nat) : Prop :=
  if one_of e ["TRI3"; "QUAD4"]%string then
    Permutation (map (fun p => node_of f (fst p) (next (fe_nn f) (snd p))) (occurrences f a))
                (map (fun p => node_of f (fst p) (prev (fe_nn f) (snd p))) (occurrences f a))
  else exists H, Permutation
         (flat_map (fun p => map (map (node_of f (fst p))) (corner_faces e (snd p))) (occurrences f a))
         (H ++ map (@rev nat) H).

Definition det_of {K : CRing} (dim : nat) (M : list (list K)) : K := if (dim =? 2)%nat then det2 M else det3 M.

Section Final.
  Variable K : CRing.
  Add Ring Kring110d : (cth K).
  Local Open Scope ring_K.

  Lemma first_order e : In e ["TRI3"; "QUAD4"; "TET4"; "HEX8"]%string ->
    (e = "TRI3" \/ e = "QUAD4")%string \/ (e = "TET4" \/ e = "HEX8")%string.
  Proof. intros [<-|[<-|[<-|[<-|[]]]]]; auto. Qed.

  Lemma tab_unity e (f : fe K) px py pz : In e ["TRI3"; "QUAD4"; "TET4"; "HEX8"]%string ->
    tabulated K e (ele_dim e) f px py pz -> unity K (ele_dim e) f.
  Proof.
    intros He T q d Hd.
    assert (E : exists l, mesh_grads K e (px q) (py q) (pz q) = Some l /\ Sum (node_count e) (fun n => get2 l n d) = 0).
    { destruct He as [<-|[<-|[<-|[<-|[]]]]]; eexists; (split; [reflexivity|]); cbn in Hd; unfold Sum;
        destruct d as [|[|[|d]]]; try lia; cbn; ring. }
    destruct E as (l & E & S0). rewrite <- (proj1 T) in S0. etransitivity; [|exact S0]. apply Sum_ext. intros n Hn.
    apply (tab_entry K e (ele_dim e) f px py pz); assumption.
  Qed.

  Lemma occ_in (f : fe K) a p : In p (occurrences f a) ->
    fst p < length (fe_cells f) /\ snd p < fe_nn f /\ node_of f (fst p) (snd p) = a.
  Proof.
    intros H. apply filter_In in H. destruct H as [H E]. apply Nat.eqb_eq in E. apply in_flat_map in H.
    destruct H as (c & Hc & H). apply in_map_iff in H. destruct H as (n & <- & Hn). apply in_seq in Hc. apply in_seq in Hn.
    cbn [fst snd] in *. repeat split; [lia|lia|exact E].
  Qed.

  Lemma corner_moment X G d a0 a l (nd : nat -> nat) :
    nd a0 = a -> face_moment K (fun m i => X (nd m) i) G d a0 l = face_moment K X G d a (map nd l).
  Proof.
    intros <-. destruct l as [|p [|q [|r [|s t]]]]; reflexivity.
  Qed.

  Lemma pull_interior e nq det inv (f : fe K) px py pz g a d :
    In e ["TRI3"; "QUAD4"; "TET4"; "HEX8"]%string ->
    tabulated K e (ele_dim e) f px py pz -> rule_ok K e nq (fe_w f) px py pz g ->
    (forall c q, c < length (fe_cells f) -> q < nq -> inverse_ok K (ele_dim e) inv f c q) ->
    (forall c q, c < length (fe_cells f) -> q < nq -> det (jac (ele_dim e) f c q) = det_of (ele_dim e) (jac (ele_dim e) f c q)) ->
    interior e f a -> d < ele_dim e -> pull K (ele_dim e) nq det inv f a d = 0.
  Proof.
    intros He T HR HI HD IN Hd. rewrite pull_occ. destruct (first_order e He) as [E|E].
    - assert (D2 : ele_dim e = 2%nat) by (destruct E as [-> | ->]; reflexivity).
      assert (IN' : Permutation (map (fun p => node_of f (fst p) (next (fe_nn f) (snd p))) (occurrences f a))
                (map (fun p => node_of f (fst p) (prev (fe_nn f) (snd p))) (occurrences f a))).
      { destruct E as [-> | ->]; exact IN. }
      rewrite D2 in *.
      assert (P : forall i, sumf (fun p => gain2 K e nq (fe_w f) g * (coo f (fst p) (next (fe_nn f) (snd p)) i - coo f (fst p) (prev (fe_nn f) (snd p)) i)) (occurrences f a) = 0).
      { intros i. rewrite sumf_mul_l, sumf_sub.
        assert (Q : sumf (fun p => coo f (fst p) (next (fe_nn f) (snd p)) i) (occurrences f a) =
                    sumf (fun p => coo f (fst p) (prev (fe_nn f) (snd p)) i) (occurrences f a)).
        { pose proof (@sumf_perm K _ (fun m => get2 (fe_points f) m i) _ _ IN') as Q. rewrite !sumf_map in Q. exact Q. }
        rewrite Q. ring. }
      assert (C : forall p, In p (occurrences f a) ->
        Sum nq (fun q => shape_grad 2 inv f (fst p) q (snd p) 0 * JxW 2 det f (fst p) q) =
           gain2 K e nq (fe_w f) g * (coo f (fst p) (next (fe_nn f) (snd p)) 1 - coo f (fst p) (prev (fe_nn f) (snd p)) 1) /\
        Sum nq (fun q => shape_grad 2 inv f (fst p) q (snd p) 1 * JxW 2 det f (fst p) q) =
           - (gain2 K e nq (fe_w f) g * (coo f (fst p) (next (fe_nn f) (snd p)) 0 - coo f (fst p) (prev (fe_nn f) (snd p)) 0))).
      { intros p Hp. destruct (occ_in f a p Hp) as (B1 & B2 & _).
        apply (pull2 K e nq det inv f px py pz g); auto. intros q Hq. exact (HD _ q B1 Hq). }
      destruct d as [|[|d]]; [ | |lia].
      + rewrite <- (P 1%nat). apply sumf_ext. intros p Hp. apply (C p Hp).
      + transitivity (- (0 : K)); [|ring]. rewrite <- (P 0%nat), <- sumf_opp. apply sumf_ext. intros p Hp. apply (C p Hp).
    - assert (D3 : ele_dim e = 3%nat) by (destruct E as [-> | ->]; reflexivity).
      assert (IN' : exists H, Permutation
         (flat_map (fun p => map (map (node_of f (fst p))) (corner_faces e (snd p))) (occurrences f a)) (H ++ map (@rev nat) H)).
      { destruct E as [-> | ->]; exact IN. }
      rewrite D3 in *. destruct IN' as (H & PM).
      set (G := gain3 K e nq (fe_w f) g).
      transitivity (sumf (face_moment K (get2 (fe_points f)) G d a)
         (flat_map (fun p => map (map (node_of f (fst p))) (corner_faces e (snd p))) (occurrences f a))).
      { rewrite sumf_flat_map. apply sumf_ext. intros p Hp. destruct (occ_in f a p Hp) as (B1 & B2 & B3).
        rewrite (pull3 K nq det inv f (fst p) (snd p) d); [| | |exact Hd].
        2:{ intros q Hq. apply HI; assumption. }
        2:{ intros q Hq. exact (HD _ q B1 Hq). }
        assert (C : Sum (fe_nn f) (fun i => Sum (fe_nn f) (fun j => coo f (fst p) i (s1 d) * coo f (fst p) j (s2 d) * Sum nq (fun q => fe_w f q * tri3 K f q (snd p) i j)))
           = sumf (face_moment K (fun m i => coo f (fst p) m i) G d (snd p)) (corner_faces e (snd p))).
        { destruct E as [E|E].
          - apply (tet3 K e nq f px py pz g); assumption.
          - apply (hex3 K e nq f px py pz g); assumption. }
        rewrite C, sumf_map. apply sumf_ext. intros l _.
        exact (corner_moment (get2 (fe_points f)) G d (snd p) a l (node_of f (fst p)) B3). }
      rewrite (@sumf_perm K _ _ _ _ PM), sumf_app, sumf_map.
      assert (R : sumf (fun x => face_moment K (get2 (fe_points f)) G d a (rev x)) H = - sumf (face_moment K (get2 (fe_points f)) G d a) H).
      { rewrite <- sumf_opp. apply sumf_ext. intros l _. apply moment_rev. }
      rewrite R. ring.
  Qed.
End Final.

(** A body of TRI3, QUAD4, TET4 or HEX8 elements whose only term is a stress depending on the
    displacement gradient and on internal variables that are the same everywhere in effect
    (same stress [P] for gradient [A] at every quadrature point).  For an affine displacement
    [b + A x] every interior node is in equilibrium, for any (possibly distorted) mesh. *)
Theorem C110_patch :
  forall (K : CRing) e nq nfq det inv norm (V W : Type) (f : fe K) vw (ph : physics K V) tm
         vars vj sj xv xs pb bs0 px py pz g u A b P a k,
  let dim := ele_dim e in
  In e ["TRI3"; "QUAD4"; "TET4"; "HEX8"]%string ->
  tabulated K e dim f px py pz -> rule_ok K e nq (fe_w f) px py pz g ->
  (* the linear algebra library does its job on the element Jacobians *)
  (forall c q, c < length (fe_cells f) -> q < nq -> inverse_ok K dim inv f c q) ->
  (forall c q, c < length (fe_cells f) -> q < nq -> det (jac dim f c q) = det_of dim (jac dim f c q)) ->
  (* a single-variable problem with a stress only *)
  wf_fes [f] ->
  (forall u x, length (vj u x) = num_local [f] * num_local [f]) ->
  (forall u x, length (sj u x) = num_local [f] * num_local [f]) ->
  0 < bs0 ->
  ph_universal ph = None -> ph_extra ph = None -> ph_mass ph = None ->
  match ph_tensor ph with Some t => Some t | None => ph_energy_grad ph end = Some tm ->
  build dim nq nfq det inv norm [f] vw ph vars (@nil (bdata K W)) vj sj xv xs = Some pb ->
  (* affine displacement, homogeneous response *)
  (forall a k, a < length (fe_points f) -> k < fe_vec f ->
     get u (a * fe_vec f + k) = cadd (b k) (Sum dim (fun j => cmul (A k j) (get2 (fe_points f) a j)))) ->
  (forall c q, c < length (fe_cells f) -> q < nq -> tm (tab (fe_vec f) (fun k => tab dim (A k))) (vars c q) = P) ->
  interior e f a -> a < length (fe_points f) -> k < fe_vec f ->
  get (get_res pb bs0 u) (a * fe_vec f + k) = c0.
Proof.
  intros K e nq nfq det inv norm V W f vw ph tm vars vj sj xv xs pb bs0 px py pz g u A b P a k dim
         He T HR HI HD WF TJ TS Hbs PU PE PM PT EB HA HP IN Ha Hk.
  apply (patch_res K dim nq nfq det inv norm V W f vw ph tm vars vj sj xv xs pb bs0 u A b P a k); auto.
  - apply (tab_unity K e f px py pz); assumption.
  - intros d Hd. apply (pull_interior K e nq det inv f px py pz g a d); assumption.
Qed.
Print Assumptions C110_patch.

(** The affine displacement solves the discrete boundary value problem in which it is prescribed
    at every degree of freedom of the nodes that are not interior: the constrained residual
    handed to the solver vanishes in every row. *)
Theorem C110_solution :
  forall (K : CRing) e nq nfq det inv norm (V W : Type) (f : fe K) vw (ph : physics K V) tm
         vars vj sj xv xs pb bs0 px py pz g u A b P (bc : dirichlet K),
  let dim := ele_dim e in
  In e ["TRI3"; "QUAD4"; "TET4"; "HEX8"]%string ->
  tabulated K e dim f px py pz -> rule_ok K e nq (fe_w f) px py pz g ->
  (forall c q, c < length (fe_cells f) -> q < nq -> inverse_ok K dim inv f c q) ->
  (forall c q, c < length (fe_cells f) -> q < nq -> det (jac dim f c q) = det_of dim (jac dim f c q)) ->
  wf_fes [f] ->
  (forall u x, length (vj u x) = num_local [f] * num_local [f]) ->
  (forall u x, length (sj u x) = num_local [f] * num_local [f]) ->
  0 < bs0 ->
  ph_universal ph = None -> ph_extra ph = None -> ph_mass ph = None ->
  match ph_tensor ph with Some t => Some t | None => ph_energy_grad ph end = Some tm ->
  build dim nq nfq det inv norm [f] vw ph vars (@nil (bdata K W)) vj sj xv xs = Some pb ->
  (forall a k, a < length (fe_points f) -> k < fe_vec f ->
     get u (a * fe_vec f + k) = cadd (b k) (Sum dim (fun j => cmul (A k j) (get2 (fe_points f) a j)))) ->
  (forall c q, c < length (fe_cells f) -> q < nq -> tm (tab (fe_vec f) (fun k => tab dim (A k))) (vars c q) = P) ->
  (* the boundary conditions prescribe [u] wherever a node is not interior *)
  wf_bc bc (length (fe_points f) * fe_vec f) ->
  (forall j, j < length (bc_rows bc) -> get (bc_vals bc) j = get u (nth j (bc_rows bc) 0)) ->
  (forall a k, a < length (fe_points f) -> k < fe_vec f -> ~ In (a * fe_vec f + k) (bc_rows bc) -> interior e f a) ->
  forall i, i < length (fe_points f) * fe_vec f -> get (apply_res bc (get_res pb bs0 u) u c1) i = c0.
Proof.
  intros K e nq nfq det inv norm V W f vw ph tm vars vj sj xv xs pb bs0 px py pz g u A b P bc dim
         He T HR HI HD WF TJ TS Hbs PU PE PM PT EB HA HP WB HV HF.
  assert (PN : pr_n pb = length (fe_points f) * fe_vec f).
  { unfold build in EB. destruct (volume_kernel dim nq [f] ph); [|discriminate]. cbn [map all_opt] in EB. injection EB as <-.
    cbn [pr_n]. unfold total_dofs, layout_of, sizes. cbn. lia. }
  apply (proj2 (C11_zero_iff (get_res pb bs0 u) u WB (eq_trans (get_res_length pb bs0 u) PN))).
  split; [intros j Hj; symmetry; apply HV; exact Hj|].
  intros i Hi Hn.
  assert (V0 : fe_vec f <> 0) by (intros E; rewrite E in Hi; lia).
  pose proof (Nat.div_mod i (fe_vec f) V0) as DM. rewrite (Nat.mul_comm (fe_vec f)) in DM.
  assert (Hk : i mod fe_vec f < fe_vec f) by (apply Nat.mod_upper_bound; exact V0).
  assert (Ha : i / fe_vec f < length (fe_points f)) by (apply Nat.div_lt_upper_bound; [exact V0|lia]).
  rewrite DM. rewrite DM in Hn.
  apply (C110_patch K e nq nfq det inv norm V W f vw ph tm vars vj sj xv xs pb bs0 px py pz g u A b P); try assumption.
  exact (HF _ _ Ha Hk Hn).
Qed.
Print Assumptions C110_solution.

(** ** Concrete cases over the integers *)

(** Three triangles of area 1/2 around node 0, which is interior; nodes 1 to 3 are not. *)
Definition fan_fe : fe ZK :=
  @Build_fe ZK 2 3 [[0; 0]; [1; 0]; [0; 1]; [-1; -1]]%Z [[0; 1; 2]; [0; 2; 3]; [0; 3; 1]]
    (fun _ _ => 0%Z) (fun _ n e => nth e (nth n [[-1; -1]; [1; 0]; [0; 1]] [])%Z 0%Z) (fun _ => 1%Z)
    (fun _ _ _ => 0%Z) (fun _ _ _ _ => 0%Z) (fun _ _ => 0%Z) (fun _ _ => 0%Z).
Definition adj2 (M : list (list Z)) : list (list Z) :=
  let a := get2 (K := ZK) M 0 0 : Z in let b := get2 (K := ZK) M 0 1 : Z in let c := get2 (K := ZK) M 1 0 : Z in let d := get2 (K := ZK) M 1 1 : Z in
  [[d; - b]; [- c; a]]%Z.
(** A nonlinear stress. *)
Definition fan_tm : tensor_map ZK Z := fun G y =>
  let a := get2 (K := ZK) G 0 0 : Z in let b := get2 (K := ZK) G 0 1 : Z in let c := get2 (K := ZK) G 1 0 : Z in let d := get2 (K := ZK) G 1 1 : Z in
  [[a * d + y; b * b]; [3 * c; d * d * d - a]]%Z.
Definition fan_ph : physics ZK Z := Build_physics ZK Z None None None (Some fan_tm) None None.
Definition fan_build (vars : nat -> nat -> Z) :=
  build (K := ZK) 2 1 1 (det2 (K := ZK)) adj2 (fun _ => 0%Z) [fan_fe] FULL fan_ph vars
    (@nil (bdata ZK Z)) (fun _ _ => repeat 0%Z 36) (fun _ _ => repeat 0%Z 36)
    (vinp_of 2 (det2 (K := ZK)) adj2 [fan_fe] (fun c q => 0%Z) 0)
    (finp_of 2 (det2 (K := ZK)) adj2 (fun _ => 0%Z) [fan_fe] (fun _ => 0%Z) (0, 0)).
(** The displacement [x -> (7 + 2x - y, 1 + 4x + 3y)]. *)
Definition fan_u : list Z := [7; 1; 9; 5; 6; 4; 6; -6]%Z.
Definition fan_A (k j : nat) : Z := nth j (nth k [[2; -1]; [4; 3]]%Z []) 0%Z.
Definition fan_b (k : nat) : Z := nth k [7; 1]%Z 0%Z.
Definition fan_bc : dirichlet ZK :=
  {| bc_rows := [2; 3; 4; 5; 6; 7]; bc_vals := ([9; 5; 6; 4; 6; -6]%Z : list ZK); bc_total := 8;
     bc_mask := [false; false; true; true; true; true; true; true] |}.

Example C110_example :
  tabulated ZK "TRI3" 2 fan_fe (fun _ => 0%Z) (fun _ => 0%Z) (fun _ => 0%Z) /\
  rule_ok ZK "TRI3" 1 (fe_w fan_fe) (fun _ => 0%Z) (fun _ => 0%Z) (fun _ => 0%Z) 0%Z /\
  (forall c q, c < 3 -> q < 1 -> inverse_ok ZK 2 adj2 fan_fe c q) /\
  wf_fes [fan_fe] /\
  (forall a k, a < 4 -> k < 2 -> get (K := ZK) fan_u (a * 2 + k) =
     cadd (c := ZK) (fan_b k) (Sum (K := ZK) 2 (fun j => cmul (c := ZK) (fan_A k j) (get2 (fe_points fan_fe) a j)))) /\
  interior "TRI3" fan_fe 0 /\ wf_bc fan_bc 8 /\
  (exists pb, fan_build (fun _ _ => 5%Z) = Some pb /\
     get_res pb 1 fan_u = [0; 0; 21; -1; -9; 38; -12; -37]%Z /\
     apply_res fan_bc (get_res pb 1 fan_u) fan_u 1%Z = [0; 0; 0; 0; 0; 0; 0; 0]%Z) /\
  (* a body that is not homogeneous is not in equilibrium *)
  (exists pb, fan_build (fun c _ => Z.of_nat (c * c)) = Some pb /\ get (K := ZK) (get_res pb 1 fan_u) 0 <> 0%Z).
Proof.
  split; [split; [reflexivity|intros; reflexivity]|].
  split; [split; discriminate|].
  split. { intros c q Hc Hq i d Hi Hd. destruct c as [|[|[|c]]]; [ | | |lia]; destruct i as [|[|i]]; try lia; destruct d as [|[|d]]; try lia; reflexivity. }
  split. { intros f [<-|[]]. split; [reflexivity|]. intros c [<-|[<-|[<-|[]]]]; (split; [reflexivity|]); cbn; intros n Hn; lia. }
  split. { intros a k Ha Hk. destruct a as [|[|[|[|a]]]]; try lia; destruct k as [|[|k]]; try lia; reflexivity. }
  split. { unfold interior. cbn. change (Permutation ([1; 2] ++ [3]) ([2; 3] ++ [1])). 
           apply (Permutation_trans (l' := [1; 2; 3])); [reflexivity|]. apply (Permutation_cons_append [2; 3] 1). }
  split. { constructor; cbn; try reflexivity.
           - repeat constructor.
           - intros r Hr. lia.
           - intros i. do 8 (destruct i as [|i]; [cbn; split; intros; (discriminate || reflexivity || lia || (repeat (try (left; reflexivity); right)))|]).
             cbn. split; [destruct i; discriminate|lia]. }
  split; (eexists; split; [reflexivity|]).
  - split; vm_compute; reflexivity.
  - vm_compute. discriminate.
Qed.

(** Four tetrahedra around node 0: the faces at node 0 pair up. *)
Ltac perm_lists :=
  match goal with
  | |- Permutation [] [] => constructor
  | |- Permutation (?x :: ?l) ?r =>
      let rec go pre r := match r with
        | x :: ?t => refine (@Permutation_cons_app _ l pre t x _)
        | ?y :: ?t => let p := eval cbn in (pre ++ [y]) in go p t
        end in go (@nil (list nat)) r; cbn [app]; perm_lists
  end.
Definition star_fe : fe ZK :=
  @Build_fe ZK 3 4 [[0; 0; 0]; [1; 0; 0]; [0; 1; 0]; [0; 0; 1]; [-1; -1; -1]]%Z
    [[0; 1; 2; 3]; [0; 1; 3; 4]; [0; 1; 4; 2]; [0; 2; 4; 3]]
    (fun _ _ => 0%Z) (fun _ n e => nth e (nth n [[-1; -1; -1]; [1; 0; 0]; [0; 1; 0]; [0; 0; 1]] [])%Z 0%Z) (fun _ => 1%Z)
    (fun _ _ _ => 0%Z) (fun _ _ _ _ => 0%Z) (fun _ _ => 0%Z) (fun _ _ => 0%Z).
Example C110_star :
  tabulated ZK "TET4" 3 star_fe (fun _ => 0%Z) (fun _ => 0%Z) (fun _ => 0%Z) /\ interior "TET4" star_fe 0 /\
  (forall c, c < 4 -> det3 (K := ZK) (jac 3 star_fe c 0) = 1%Z).
Proof.
  split; [split; [reflexivity|intros; reflexivity]|]. split.
  - unfold interior. exists [[2; 1]; [1; 3]; [3; 2]; [4; 3]; [4; 1]; [2; 4]]%nat.
    vm_compute. perm_lists.
  - intros c Hc. destruct c as [|[|[|[|c]]]]; try lia; reflexivity.
Qed.

(** Rules that meet the requirements: corner points on the quadrilateral, Simpson's rule in each
    direction on the hexahedron. *)
Definition QcR : CRing := {| cth := Qcrt |}.
Definition simpson (t : nat) : QcR * QcR := match t with 0 => (Q2Qc 1, Q2Qc 0) | 1 => (Q2Qc 4, Q2Qc (1 # 2)%Q) | _ => (Q2Qc 1, Q2Qc 1) end.
Example C110_rules :
  rule_ok ZK "QUAD4" 4 (fun _ => 1%Z) (fun q => Z.of_nat (q mod 2)) (fun q => Z.of_nat (q / 2)) (fun _ => 0%Z) 1%Z /\
  rule_ok QcR "HEX8" 27
    (fun q => cmul (c := QcR) (fst (simpson (q mod 3))) (cmul (c := QcR) (fst (simpson (q / 3 mod 3))) (fst (simpson (q / 9)))))
    (fun q => snd (simpson (q mod 3))) (fun q => snd (simpson (q / 3 mod 3))) (fun q => snd (simpson (q / 9))) (Q2Qc 1).
Proof.
  split; split; try discriminate; intros _.
  - intros [|] [|]; vm_compute; reflexivity.
  - intros [|] [|] [|] [|] [|] [|]; apply Qc_is_canon; vm_compute; reflexivity.
Qed.
