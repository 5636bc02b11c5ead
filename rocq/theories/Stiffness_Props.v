(** C117: the assembled stiffness of a linear problem is its bilinear form; symmetric, positive semidefinite, and nonsingular once the
    supports stop every strain-free field. *)
From Coq Require Import List Arith Lia ZArith.
From Verif Require Import Base Csr_Model Assembly_Model Assembly_Spec AssemblyMain_Proofs Assembly_Props Ops_Proofs Dof_Model Dof_Spec Dof_Proofs Bc_Model Bc_Proofs Bc_Props LinSolve_Proofs
                          Kernel_Model Kernel_Spec Kernel_Proofs Kernel_Props Patch_Props Moment_Props Renum_Props Potential_Props Linear_Props.
Import ListNotations.

(** ** Specification *)
Section Spec.
  Variable K : CRing.
  Local Open Scope ring_K.
  (** The element tangents are the derivatives of element residuals that are affine in the displacements: times an increment, they
      give exactly the change of the residual. *)
  Definition exact_block (nd : nat) (k : list K -> list K * list K) : Prop :=
    forall u v a, length u = nd -> length v = nd -> a < nd ->
    Sum nd (fun b => get (snd (k u)) (a * nd + b) * get v b) = get (fst (k (add1 nd u v))) a - get (fst (k u)) a.
  Definition exact_tangent {Inp FInp} (pb : problem K Inp FInp) : Prop :=
    (forall x, In x (pr_inp pb) -> exact_block (pr_nd pb) (fun u => pr_kern pb u x)) /\
    (forall b x, In b (pr_bnd pb) -> In x (b_inp b) -> exact_block (pr_nd pb) (fun u => b_kern b u x)).
  (** [w^T A v] *)
  Definition quad_form (n : nat) (A : csr K) (w v : list K) : K := Sum n (fun i => get w i * get (matvec A v) i).
  Variables (dim nq nfq : nat) (det : list (list K) -> K) (inv : list (list K) -> list (list K)) (norm : list K -> K) (V W : Type).
  Variables (f : fe K) (ph : physics K V) (vars : nat -> nat -> V) (bnd : list (bdata K W)).
  (** Linear parts of the stress, of the body term and of the surface terms. *)
  Variables (lt : tensor_map K V) (lm : mass_map K V) (ls : bdata K W -> surface_map K W).
  Definition linear_parts : Prop :=
    (forall c q, c < length (fe_cells f) -> q < nq ->
       (forall tm G H k d, stress_of ph = Some tm -> k < fe_vec f -> d < dim ->
          get2 (tm (add2 (fe_vec f) dim G H) (vars c q)) k d = get2 (tm G (vars c q)) k d + get2 (lt H (vars c q)) k d) /\
       (forall mm a b x k, ph_mass ph = Some mm -> k < fe_vec f ->
          get (mm (add1 (fe_vec f) a b) x (vars c q)) k = get (mm a x (vars c q)) k + get (lm b x (vars c q)) k)) /\
    (forall bd w q sm a b x k, In bd bnd -> In w (bd_vars bd) -> q < nfq -> bp_map (bd_ph bd) = Some sm -> k < fe_vec f ->
       get (sm (add1 (fe_vec f) a b) x (w q)) k = get (sm a x (w q)) k + get (ls bd b x (w q)) k).
  (** The bilinear form: internal work of [v] on [w], plus that of the body and surface terms. *)
  Definition form (v w : list K) : K :=
    opt_term (ph_mass ph) (fun _ => mass_volume dim nq det [f] lm vars v w) +
    opt_term (stress_of ph) (fun _ => tensor_volume dim nq det inv [f] lt vars v w) +
    sumf (fun b => opt_term (bp_map (bd_ph b)) (fun _ => map_surface dim nfq det inv norm [f] (ls b) b v w)) bnd.
  (** Symmetric and non-negative linear parts. *)
  Definition symmetric_parts : Prop :=
    (forall c q, c < length (fe_cells f) -> q < nq ->
       (forall G H, dot2 (fe_vec f) dim (lt G (vars c q)) H = dot2 (fe_vec f) dim (lt H (vars c q)) G) /\
       (forall a b x, dot1 (fe_vec f) (lm a x (vars c q)) b = dot1 (fe_vec f) (lm b x (vars c q)) a)) /\
    (forall bd w q a b x, In bd bnd -> In w (bd_vars bd) -> q < nfq -> dot1 (fe_vec f) (ls bd a x (w q)) b = dot1 (fe_vec f) (ls bd b x (w q)) a).
  Definition nonneg_parts (le : K -> K -> Prop) : Prop :=
    (forall c q, c < length (fe_cells f) -> q < nq ->
       (forall G, le 0 (dot2 (fe_vec f) dim (lt G (vars c q)) G)) /\ (forall a x, le 0 (dot1 (fe_vec f) (lm a x (vars c q)) a))) /\
    (forall bd w q a x, In bd bnd -> In w (bd_vars bd) -> q < nfq -> le 0 (dot1 (fe_vec f) (ls bd a x (w q)) a)).
End Spec.
Arguments exact_block {K}. Arguments exact_tangent {K Inp FInp}. Arguments quad_form {K}.
Arguments linear_parts {K} dim nq nfq {V W}. Arguments form {K} dim nq nfq det inv norm {V W}.
Arguments symmetric_parts {K} dim nq nfq {V W}. Arguments nonneg_parts {K} dim nq nfq {V W}.

(** ** The product with the tangent is the change of the residual *)
Section Increment.
  Variable K : CRing.
  Add Ring KR117 : (cth K).
  Local Open Scope ring_K.
  Variables (Inp FInp : Type) (pb : problem K Inp FInp) (bs0 : nat).
  Hypothesis (Hbs : 0 < bs0) (WP : wf_problem pb) (EX : exact_tangent pb).
  Local Notation n := (pr_n pb).
  Local Notation nd := (pr_nd pb).
  Lemma get_mapped (g : nat -> K) d a : a < length d -> get (map g d) a = g (nth a d 0%nat).
  Proof using. intros Ha. unfold get. apply nth_map_in. exact Ha. Qed.
  Lemma local_add (u v : list K) d : length d = nd -> (forall k, In k d -> k < n) -> local_sol (add1 n u v) d = add1 nd (local_sol u d) (local_sol v d).
  Proof using.
    intros Hd Hk. unfold local_sol, add1. rewrite <- Hd. apply (nth_ext _ _ 0 0); [rewrite map_length, tab_length; reflexivity|].
    intros a Ha. rewrite map_length in Ha. change (get (map (get (tab n (fun k => get u k + get v k))) d) a = get (tab (length d) (fun k => get (map (get u) d) k + get (map (get v) d) k)) a).
    rewrite get_tab, !get_mapped by exact Ha. rewrite get_tab by (apply Hk, nth_In, Ha). reflexivity.
  Qed.
  Lemma block_increment (k : list K -> list K * list K) (u v : list K) d i : exact_block nd k -> length d = nd -> (forall j, In j d -> j < n) ->
    sumf (fun j => elem_jac nd d (snd (k (local_sol u d))) i j * get v j) (seq 0 n) =
    elem_res nd d (fst (k (local_sol (add1 n u v) d))) i - elem_res nd d (fst (k (local_sol u d))) i.
  Proof using Hbs WP.
    intros E Hd Hk. rewrite <- (elem_res_lin pb Hbs d _ v i Hd Hk). rewrite (local_add u v d Hd Hk). unfold elem_res. rewrite <- sumf_sub. apply sumf_ext. intros a Ha. apply in_seq in Ha.
    destruct (nth a d 0%nat =? i); [|ring]. unfold block_mul. change (map (fun a0 => sumf (fun b => get (snd (k (local_sol u d))) (a0 * nd + b)%nat * get (map (get v) d) b) (seq 0 nd)) (seq 0 nd)) with (tab nd (fun a0 => sumf (fun b => get (snd (k (local_sol u d))) (a0 * nd + b)%nat * get (map (get v) d) b) (seq 0 nd))). rewrite get_tab by lia. unfold local_sol in *.
    rewrite <- (E (map (get u) d) (map (get v) d) a) by (rewrite ?map_length; lia). reflexivity.
  Qed.
  Lemma jac_increment (u v : list K) i : i < n -> sumf (fun j => spec_jac pb u i j * get v j) (seq 0 n) = get (get_res pb bs0 (add1 n u v)) i - get (get_res pb bs0 u) i.
  Proof using Hbs WP EX.
    intros Hi. rewrite !(get_res_spec Hbs WP) by exact Hi. unfold spec_res, spec_jac.
    assert (DC : forall d, In d (pr_cells pb) -> length d = nd /\ forall k, In k d -> k < n) by (intros d Hd; split; [apply (w_cells WP _ Hd)|intros k Hk; apply (w_dofs WP _ _ Hd Hk)]).
    rewrite sumf_ext with (l := seq 0 n) (g := fun j => spec_vol_jac pb u i j * get v j + spec_face_jac pb u i j * get v j) by (intros; ring).
    rewrite sumf_add.
    match goal with |- ?a + ?b = (?c + ?d) - (?e + ?g) => assert (VOL : a = c - e); [|assert (FAC : b = d - g); [|rewrite VOL, FAC; ring]] end.
    - unfold spec_vol_jac.
      rewrite sumf_ext with (l := seq 0 n) (g := fun j => sumf (fun p => elem_jac nd (fst p) (snd (pr_kern pb (local_sol u (fst p)) (snd p))) i j * get v j) (combine (pr_cells pb) (pr_inp pb)))
        by (intros j _; symmetry; apply sumf_mul_r).
      rewrite sumf_swap, <- sumf_sub. apply sumf_ext. intros [d x] Hp. cbn [fst snd].
      destruct (DC d (in_combine_l _ _ _ _ Hp)) as [D1 D2].
      exact (block_increment (fun u => pr_kern pb u x) u v d i (proj1 EX x (in_combine_r _ _ _ _ Hp)) D1 D2).
    - unfold spec_face_jac.
      rewrite sumf_ext with (l := seq 0 n) (g := fun j => sumf (fun b => sumf (fun q => elem_jac nd (nth (fst q) (pr_cells pb) []) (snd (b_kern b (local_sol u (nth (fst q) (pr_cells pb) [])) (snd q))) i j * get v j)
            (combine (b_cells b) (b_inp b))) (pr_bnd pb)).
      2:{ intros j _. rewrite <- sumf_mul_r. apply sumf_ext. intros b _. symmetry. apply sumf_mul_r. }
      rewrite sumf_swap, <- sumf_sub. apply sumf_ext. intros b Hb. rewrite sumf_swap, <- sumf_sub. apply sumf_ext. intros [c x] Hq. cbn [fst snd].
      assert (Hc : In (nth c (pr_cells pb) []) (pr_cells pb)) by (apply nth_In, (w_bcells WP b c Hb), (in_combine_l _ _ _ _ Hq)).
      destruct (DC _ Hc) as [D1 D2].
      exact (block_increment (fun u => b_kern b u x) u v _ i (proj2 EX b x Hb (in_combine_r _ _ _ _ Hq)) D1 D2).
  Qed.
  Lemma matvec_increment (u v : list K) i : pr_view pb = FULL -> pr_surface_jac_zero pb = false -> i < n ->
    get (matvec (get_jacobian pb bs0 u) v) i = get (get_res pb bs0 (add1 n u v)) i - get (get_res pb bs0 u) i.
  Proof using Hbs WP EX.
    intros HV HF Hi. rewrite <- jac_increment by exact Hi.
    assert (VA : valid_csr (get_jacobian pb bs0 u)) by (apply built_valid; [apply (all_pairs_range WP) | apply (get_J_csr_length Hbs WP)]).
    rewrite (matvec_dense VA) by exact Hi. cbn [get_jacobian csr_of m_ncols]. change (p_n (pr_pat pb)) with n.
    apply sumf_ext. intros j _. f_equal. rewrite <- (todense_entry VA) by exact Hi.
    rewrite (get_jacobian_dense Hbs WP), HV. cbn [in_view]. unfold eff_jac. rewrite HF. reflexivity.
  Qed.
End Increment.

Section Form.
  Variable K : CRing.
  Add Ring KR117b : (cth K).
  Local Open Scope ring_K.
  Variables (dim nq nfq : nat) (det : list (list K) -> K) (inv : list (list K) -> list (list K)) (norm : list K -> K) (V W : Type).
  Variables (f : fe K) (ph : physics K V) (vars : nat -> nat -> V) (bnd : list (bdata K W)).
  Variables (lt : tensor_map K V) (lm : mass_map K V) (ls : bdata K W -> surface_map K W).
  Hypothesis (WF : wf_fes [f]) (WB : forall b, In b bnd -> wf_bdata [f] b).
  Hypothesis (LP : linear_parts dim nq nfq f ph vars bnd lt lm ls).
  Local Notation n := (length (fe_points f) * fe_vec f)%nat.
  Variables (u v w : list K).
  Lemma add_at i : i < n -> get (add1 n u v) i = get u i + get v i.
  Proof using. intros Hi. unfold add1. apply get_tab. exact Hi. Qed.
  Lemma mass_increment mm : ph_mass ph = Some mm -> mass_volume dim nq det [f] mm vars (add1 n u v) w = mass_volume dim nq det [f] mm vars u w + mass_volume dim nq det [f] lm vars v w.
  Proof using WF LP.
    intros E. unfold mass_volume, over_cells. rewrite <- Sum_add. apply Sum_ext. intros c Hc. rewrite <- Sum_add. apply Sum_ext. intros q Hq.
    change (fe_at [f] 0) with f. rewrite (field_sum K f u v (add1 n u v) WF add_at c q Hc).
    match goal with |- ?j * ?a = ?j * ?b + ?j * ?d => replace (j * b + j * d) with (j * (b + d)) by ring end. f_equal. unfold dot1. rewrite <- Sum_add.
    apply Sum_ext. intros k Hk. rewrite (proj2 (proj1 LP c q Hc Hq) mm _ _ _ k E Hk). ring.
  Qed.
  Lemma stress_increment tm : stress_of ph = Some tm -> tensor_volume dim nq det inv [f] tm vars (add1 n u v) w = tensor_volume dim nq det inv [f] tm vars u w + tensor_volume dim nq det inv [f] lt vars v w.
  Proof using WF LP.
    intros E. unfold tensor_volume, over_cells. rewrite <- Sum_add. apply Sum_ext. intros c Hc. rewrite <- Sum_add. apply Sum_ext. intros q Hq.
    change (fe_at [f] 0) with f. rewrite (grad_sum K dim inv f u v (add1 n u v) WF add_at c q Hc).
    match goal with |- ?j * ?a = ?j * ?b + ?j * ?d => replace (j * b + j * d) with (j * (b + d)) by ring end. f_equal. unfold dot2. rewrite <- Sum_add.
    apply Sum_ext. intros k Hk. rewrite <- Sum_add. apply Sum_ext. intros d Hd. rewrite (proj1 (proj1 LP c q Hc Hq) tm _ _ k d E Hk Hd). ring.
  Qed.
  Lemma surface_increment bd sm : In bd bnd -> bp_map (bd_ph bd) = Some sm ->
    map_surface dim nfq det inv norm [f] sm bd (add1 n u v) w = map_surface dim nfq det inv norm [f] sm bd u w + map_surface dim nfq det inv norm [f] (ls bd) bd v w.
  Proof using WF WB LP.
    intros Hb E. unfold map_surface, over_faces. rewrite <- sumf_add. apply sumf_ext. intros [[c e] y] Hp. cbn [fst snd]. rewrite <- Sum_add. apply Sum_ext. intros q Hq.
    assert (Hc : c < length (fe_cells f)) by (exact (proj2 (WB bd Hb) (c, e) (in_combine_l _ _ _ _ Hp))).
    assert (Hy : In y (bd_vars bd)) by exact (in_combine_r _ _ _ _ Hp).
    change (fe_at [f] 0) with f. rewrite (face_sum K f u v (add1 n u v) WF add_at c e q Hc).
    match goal with |- ?j * ?a = ?j * ?b + ?j * ?d => replace (j * b + j * d) with (j * (b + d)) by ring end. f_equal. unfold dot1. rewrite <- Sum_add.
    apply Sum_ext. intros k Hk. rewrite (proj2 LP bd y q sm _ _ _ k Hb Hy Hq E Hk). ring.
  Qed.
  Lemma form_symmetric : symmetric_parts dim nq nfq f vars bnd lt lm ls ->
    form dim nq nfq det inv norm f ph vars bnd lt lm ls v w = form dim nq nfq det inv norm f ph vars bnd lt lm ls w v.
  Proof using WB.
    intros [SV SS]. unfold form. f_equal; [f_equal|].
    - destruct (ph_mass ph) as [mm|]; [|reflexivity]. cbn [opt_term]. unfold mass_volume, over_cells. apply Sum_ext. intros c Hc. apply Sum_ext. intros q Hq. f_equal.
      apply (proj2 (SV c q Hc Hq)).
    - destruct (stress_of ph) as [mm|]; [|reflexivity]. cbn [opt_term]. unfold tensor_volume, over_cells. apply Sum_ext. intros c Hc. apply Sum_ext. intros q Hq. f_equal.
      apply (proj1 (SV c q Hc Hq)).
    - apply sumf_ext. intros b Hb. destruct (bp_map (bd_ph b)) as [sm|]; [|reflexivity]. cbn [opt_term]. unfold map_surface, over_faces. apply sumf_ext. intros [[c e] y] Hp.
      apply Sum_ext. intros q Hq. cbn [fst snd]. f_equal. apply (SS b y q _ _ _ Hb (in_combine_r _ _ _ _ Hp) Hq).
  Qed.
  Section Order.
    Variable le : K -> K -> Prop.
    Hypothesis (OR : ordered le).
    Hypothesis (JP : forall c q, c < length (fe_cells f) -> q < nq -> le 0 (JxW dim det f c q)).
    Hypothesis (NP : forall b c e q, In b bnd -> In (c, e) (bd_inds b) -> q < nfq -> le 0 (nanson dim det inv norm f c e q)).
    Hypothesis (NN : nonneg_parts dim nq nfq f vars bnd lt lm ls le).
    Lemma sumf_nonneg {A} (l : list A) (g : A -> K) : (forall i, In i l -> le 0 (g i)) -> le 0 (sumf g l).
    Proof using OR. intros H. induction l as [|x l IH]; cbn [sumf]; [apply (le_refl _ _ OR)|]. replace (0 : K) with (0 + 0 : K) at 1 by ring. apply (le_add _ _ OR); [apply H; left; reflexivity|apply IH; intros i Hi; apply H; right; exact Hi]. Qed.
    Lemma stress_nonneg : le 0 (opt_term (stress_of ph) (fun _ => tensor_volume dim nq det inv [f] lt vars v v)).
    Proof using OR JP NN.
      destruct (stress_of ph) as [tm|]; cbn [opt_term]; [|apply (le_refl _ _ OR)]. unfold tensor_volume, over_cells.
      apply (Sum_nonneg K le OR). intros c Hc. apply (Sum_nonneg K le OR). intros q Hq. apply (le_mul _ _ OR); [apply (JP c q Hc Hq)|]. apply (proj1 (proj1 NN c q Hc Hq)).
    Qed.
    Lemma body_nonneg : le 0 (opt_term (ph_mass ph) (fun _ => mass_volume dim nq det [f] lm vars v v)).
    Proof using OR JP NN.
      destruct (ph_mass ph) as [tm|]; cbn [opt_term]; [|apply (le_refl _ _ OR)]. unfold mass_volume, over_cells.
      apply (Sum_nonneg K le OR). intros c Hc. apply (Sum_nonneg K le OR). intros q Hq. apply (le_mul _ _ OR); [apply (JP c q Hc Hq)|]. apply (proj2 (proj1 NN c q Hc Hq)).
    Qed.
    Lemma surface_nonneg : le 0 (sumf (fun b => opt_term (bp_map (bd_ph b)) (fun _ => map_surface dim nfq det inv norm [f] (ls b) b v v)) bnd).
    Proof using OR NP NN.
      apply sumf_nonneg. intros b Hb. destruct (bp_map (bd_ph b)) as [tm|]; cbn [opt_term]; [|apply (le_refl _ _ OR)]. unfold map_surface, over_faces.
      apply sumf_nonneg. intros [[c e] y] Hp. cbn [fst snd]. apply (Sum_nonneg K le OR). intros q Hq.
      apply (le_mul _ _ OR); [apply (NP b c e q Hb (in_combine_l _ _ _ _ Hp) Hq)|]. apply (proj2 NN b y q _ _ Hb (in_combine_r _ _ _ _ Hp) Hq).
    Qed.
    Lemma form_nonneg : le 0 (form dim nq nfq det inv norm f ph vars bnd lt lm ls v v).
    Proof using OR JP NP NN.
      unfold form. replace (0 : K) with (0 + 0 + 0 : K) at 1 by ring. apply (le_add _ _ OR); [apply (le_add _ _ OR)|].
      - apply body_nonneg. - apply stress_nonneg. - apply surface_nonneg.
    Qed.
    Lemma zero_part (a b : K) : le 0 a -> le 0 b -> a + b = 0 -> a = 0.
    Proof using OR.
      intros A B E. apply (le_antisym _ _ OR); [|exact A]. rewrite <- E. replace a with (a + 0) at 1 by ring. apply (le_add _ _ OR); [apply (le_refl _ _ OR)|exact B].
    Qed.
    (** No work, no strain. *)
    Lemma form_zero : stress_of ph <> None -> form dim nq nfq det inv norm f ph vars bnd lt lm ls v v = 0 ->
      (forall c q x, c < length (fe_cells f) -> q < nq -> JxW dim det f c q * x = 0 -> x = 0) ->
      forall c q, c < length (fe_cells f) -> q < nq -> dot2 (fe_vec f) dim (lt (grad_at dim inv [f] 0 v c q) (vars c q)) (grad_at dim inv [f] 0 v c q) = 0.
    Proof using OR JP NP NN.
      intros HS E JC c q Hc Hq. unfold form in E.
      assert (S0 : opt_term (stress_of ph) (fun _ => tensor_volume dim nq det inv [f] lt vars v v) = 0).
      { apply (zero_part _ (opt_term (ph_mass ph) (fun _ => mass_volume dim nq det [f] lm vars v v) + sumf (fun b => opt_term (bp_map (bd_ph b)) (fun _ => map_surface dim nfq det inv norm [f] (ls b) b v v)) bnd)); [apply stress_nonneg| |rewrite <- E; ring].
        replace (0 : K) with (0 + 0 : K) at 1 by ring. apply (le_add _ _ OR); [apply body_nonneg|apply surface_nonneg]. }
      destruct (stress_of ph) as [tm|]; [|congruence]. cbn [opt_term] in S0. unfold tensor_volume, over_cells in S0.
      assert (P : forall c q, c < length (fe_cells f) -> q < nq -> le 0 (JxW dim det f c q * dot2 (fe_vec f) dim (lt (grad_at dim inv [f] 0 v c q) (vars c q)) (grad_at dim inv [f] 0 v c q))).
      { intros c' q' Hc' Hq'. apply (le_mul _ _ OR); [apply (JP c' q' Hc' Hq')|]. apply (proj1 (proj1 NN c' q' Hc' Hq')). }
      apply (JC c q _ Hc Hq).
      assert (S1 : Sum nq (fun q => JxW dim det f c q * dot2 (fe_vec f) dim (lt (grad_at dim inv [f] 0 v c q) (vars c q)) (grad_at dim inv [f] 0 v c q)) = 0).
      { apply (Sum_zero_each K le OR (length (fe_cells f)) (fun c => Sum nq (fun q => JxW dim det f c q * dot2 (fe_vec f) dim (lt (grad_at dim inv [f] 0 v c q) (vars c q)) (grad_at dim inv [f] 0 v c q)))); [|rewrite <- S0; apply (le_refl _ _ OR)|exact Hc].
        intros c' Hc'. apply (Sum_nonneg K le OR). intros q' Hq'. apply (P c' q' Hc' Hq'). }
      apply (Sum_zero_each K le OR nq (fun q => JxW dim det f c q * dot2 (fe_vec f) dim (lt (grad_at dim inv [f] 0 v c q) (vars c q)) (grad_at dim inv [f] 0 v c q)));
        [intros q' Hq'; apply (P c q' Hc Hq')|rewrite S1; apply (le_refl _ _ OR)|exact Hq].
    Qed.
  End Order.
End Form.

(** ** Elimination of the supports *)
Definition freed (K : CRing) (n : nat) (rows : list nat) (v : list K) : list K := tab n (fun i => if existsb (Nat.eqb i) rows then c0 else get v i).
Arguments freed {K}.
Section Elim.
  Variable K : CRing.
  Add Ring KR117c : (cth K).
  Local Open Scope ring_K.
  Variables (Inp FInp : Type) (pb : problem K Inp FInp) (bs0 : nat) (bc : dirichlet K).
  Hypothesis (Hbs : 0 < bs0) (WP : wf_problem pb) (WC : wf_bc bc (pr_n pb)).
  Hypothesis (COV : forall r, In r (bc_rows bc) -> exists d, In d (pr_cells pb) /\ In r d).
  Hypothesis (HV : pr_view pb = FULL) (HF : pr_surface_jac_zero pb = false).
  Local Notation n := (pr_n pb).
  Lemma matvec_spec u (v : list K) i : i < n -> get (matvec (get_jacobian pb bs0 u) v) i = sumf (fun j => spec_jac pb u i j * get v j) (seq 0 n).
  Proof using Hbs WP HV HF.
    intros Hi. assert (VA : valid_csr (get_jacobian pb bs0 u)) by (apply built_valid; [apply (all_pairs_range WP) | apply (get_J_csr_length Hbs WP)]).
    rewrite (matvec_dense VA) by exact Hi. cbn [get_jacobian csr_of m_ncols]. change (p_n (pr_pat pb)) with n.
    apply sumf_ext. intros j _. f_equal. rewrite <- (todense_entry VA) by exact Hi.
    rewrite (get_jacobian_dense Hbs WP), HV. cbn [in_view]. unfold eff_jac. rewrite HF. reflexivity.
  Qed.
  Lemma matvec_same u (v v' : list K) i : i < n -> (forall j, j < n -> get v j = get v' j) -> get (matvec (get_jacobian pb bs0 u) v) i = get (matvec (get_jacobian pb bs0 u) v') i.
  Proof using Hbs WP HV HF. intros Hi H. rewrite !matvec_spec by exact Hi. apply sumf_ext. intros j Hj. apply in_seq in Hj. rewrite (H j (proj2 Hj)). reflexivity. Qed.
  Lemma mask_rows i : nth i (bc_mask bc) false = existsb (Nat.eqb i) (bc_rows bc).
  Proof using WC.
    apply Bool.eq_true_iff_eq. rewrite (wb_mask WC), existsb_exists. split; [intros H; exists i; split; [exact H|apply Nat.eqb_refl]|].
    intros (x & Hx & E). apply Nat.eqb_eq in E. subst x. exact Hx.
  Qed.
  Lemma eliminated_matvec sym u (v : list K) i : i < n ->
    get (matvec (J_bc pb bs0 sym u bc) v) i =
    if existsb (Nat.eqb i) (bc_rows bc) then get v i else get (matvec (get_jacobian pb bs0 u) (if sym then freed n (bc_rows bc) v else v)) i.
  Proof using Hbs WP WC COV HV HF.
    intros Hi. rewrite <- (proj1 (@C13_matrix_free K Inp FInp pb bs0 u bc sym v Hbs WP WC COV HV (or_introl HF)) i Hi). cbn [matfree_res_J snd].
    match goal with |- get (map ?g (seq 0 n)) i = _ => change (map g (seq 0 n)) with (tab n g) end. rewrite get_tab by exact Hi. rewrite mask_rows.
    destruct (existsb (Nat.eqb i) (bc_rows bc)); [reflexivity|]. rewrite (residual_jvp_spec Hbs WP) by exact Hi. rewrite matvec_spec by exact Hi.
    destruct sym; [|reflexivity]. apply sumf_ext. intros j Hj. apply in_seq in Hj. f_equal. unfold freed.
    match goal with |- get (map ?g (seq 0 n)) j = _ => change (map g (seq 0 n)) with (tab n g) end. rewrite !get_tab by lia. rewrite mask_rows. reflexivity.
  Qed.
End Elim.

Section Ring.
  Variable K : CRing.
  Add Ring KR117d : (cth K).
  Local Open Scope ring_K.
  Lemma sum_part (a b c d e g : K) : a + b + (c + d) + (e + g) - (a + c + e) = b + d + g. Proof. ring. Qed.
  Lemma mul_sub (a b c : K) : a * (b - c) = a * b - a * c. Proof. ring. Qed.
  Lemma mul1 (a : K) : 1 * a = a. Proof. ring. Qed.
  Lemma mulr1 (a : K) : a * 1 = a. Proof. ring. Qed.
  Lemma mul0l (a : K) : 0 * a = 0. Proof. ring. Qed.
  Lemma add0 (a : K) : 0 + a = a. Proof. ring. Qed.
  Lemma nonneg_sum (le : K -> K -> Prop) a b : ordered le -> le 0 a -> le 0 b -> le 0 (a + b).
  Proof. intros OR A B. replace (0 : K) with (0 + 0 : K) at 1 by ring. apply (le_add _ _ OR); assumption. Qed.
  Lemma both_zero (le : K -> K -> Prop) a b : ordered le -> le 0 a -> le 0 b -> a + b = 0 -> a = 0 /\ b = 0.
  Proof.
    intros OR A B E. split; [apply (zero_part K le OR a b A B E)|]. apply (zero_part K le OR b a B A). rewrite <- E. ring.
  Qed.
End Ring.

(** ** Theorems *)

(** [w^T A v] for the assembled matrix [A] at any state is the bilinear form of the linear parts. *)
Theorem C117_form :
  forall (K : CRing) dim nq nfq det inv norm (V W : Type) (f : fe K) (ph : physics K V) vars (bnd : list (bdata K W)) vj sj xv xs pb bs0
         lt lm ls (u v w : list K),
  wf_fes [f] -> (forall b, In b bnd -> wf_bdata [f] b) ->
  (forall u x, length (vj u x) = num_local [f] * num_local [f]) ->
  (forall u x, length (sj u x) = num_local [f] * num_local [f]) -> 0 < bs0 ->
  ph_universal ph = None -> ph_extra ph = None -> (forall b, In b bnd -> bp_universal (bd_ph b) = None) ->
  build dim nq nfq det inv norm [f] FULL ph vars bnd vj sj xv xs = Some pb ->
  exact_tangent pb -> linear_parts dim nq nfq f ph vars bnd lt lm ls ->
  quad_form (length (fe_points f) * fe_vec f) (get_jacobian pb bs0 u) w v = form dim nq nfq det inv norm f ph vars bnd lt lm ls v w.
Proof.
  intros K dim nq nfq det inv norm V W f ph vars bnd vj sj xv xs pb bs0 lt lm ls u v w WF WB TJ TS Hbs PU PE PB EB EX LP.
  assert (N := ndofs K dim nq nfq det inv norm V W f FULL ph vars bnd vj sj xv xs pb bs0 WF WB TJ TS Hbs PU PE PB EB).
  assert (KS : kernel_shapes [f] ph bnd). { split; [intros k [E|E]; congruence|]. intros b k Hb E. rewrite (PB b Hb) in E. discriminate. }
  assert (WP := build_is_wf K dim nq nfq det inv norm V W [f] FULL ph vars bnd vj sj xv xs pb WF (Nat.lt_0_succ 0) WB KS TJ TS EB).
  assert (HV : pr_view pb = FULL /\ pr_surface_jac_zero pb = false).
  { unfold build in EB. destruct (volume_kernel _ _ _ _); [|discriminate]. destruct (all_opt _); [|discriminate]. injection EB as <-. split; reflexivity. }
  destruct HV as [HV HF]. rewrite <- N. unfold quad_form.
  rewrite (Sum_ext K _ _ (fun i => csub (cmul (get w i) (get (get_res pb bs0 (add1 (pr_n pb) u v)) i)) (cmul (get w i) (get (get_res pb bs0 u) i)))).
  2:{ intros i Hi. rewrite (matvec_increment K _ _ pb bs0 Hbs WP EX u v i HV HF Hi). apply mul_sub. }
  rewrite Sum_sub.
  change (csub (virtual_work (pr_n pb) w (get_res pb bs0 (add1 (pr_n pb) u v))) (virtual_work (pr_n pb) w (get_res pb bs0 u)) = form dim nq nfq det inv norm f ph vars bnd lt lm ls v w).
  rewrite !(work_terms K dim nq nfq det inv norm V W f FULL ph vars bnd vj sj xv xs pb bs0 WF WB TJ TS Hbs PU PE PB EB). fold (stress_of ph).
  rewrite N. unfold form.
  match goal with |- csub (cadd (cadd ?a3 ?b3) ?c3) (cadd (cadd ?a1 ?b1) ?c1) = cadd (cadd ?a2 ?b2) ?c2 =>
    assert (TA : a3 = cadd a1 a2); [|assert (TB : b3 = cadd b1 b2); [|assert (TC : c3 = cadd c1 c2); [|rewrite TA, TB, TC; apply sum_part]]] end.
  - destruct (ph_mass ph) as [mm|] eqn:E; cbn [opt_term]; [|symmetry; apply add0]. apply (mass_increment K dim nq nfq det V W f ph vars bnd lt lm ls WF LP u v w mm E).
  - destruct (stress_of ph) as [tm|] eqn:E; cbn [opt_term]; [|symmetry; apply add0]. apply (stress_increment K dim nq nfq det inv V W f ph vars bnd lt lm ls WF LP u v w tm E).
  - rewrite <- sumf_add. apply sumf_ext. intros b Hb. destruct (bp_map (bd_ph b)) as [sm|] eqn:E; cbn [opt_term]; [|symmetry; apply add0].
    apply (surface_increment K dim nq nfq det inv norm V W f ph vars bnd lt lm ls WF WB LP u v w b sm Hb E).
Qed.
Print Assumptions C117_form.

Section Setup.
  Variable K : CRing.
  Add Ring KR117e : (cth K).
  Variables (dim nq nfq : nat) (det : list (list K) -> K) (inv : list (list K) -> list (list K)) (norm : list K -> K) (V W : Type).
  Variables (f : fe K) (ph : physics K V) (vars : nat -> nat -> V) (bnd : list (bdata K W)).
  Variables (vj : list K -> vinp K V -> list K) (sj : list K -> finp K W -> list K) (xv : vinp K V) (xs : finp K W).
  Variables (pb : problem K (vinp K V) (finp K W)) (bs0 : nat).
  Hypothesis (WF : wf_fes [f]) (WB : forall b, In b bnd -> wf_bdata [f] b).
  Hypothesis (TJ : forall u x, length (vj u x) = num_local [f] * num_local [f]).
  Hypothesis (TS : forall u x, length (sj u x) = num_local [f] * num_local [f]).
  Hypothesis (Hbs : 0 < bs0).
  Hypothesis (PU : ph_universal ph = None) (PE : ph_extra ph = None) (PB : forall b, In b bnd -> bp_universal (bd_ph b) = None).
  Hypothesis (EB : build dim nq nfq det inv norm [f] FULL ph vars bnd vj sj xv xs = Some pb).
  Lemma setup : pr_n pb = length (fe_points f) * fe_vec f /\ wf_problem pb /\ pr_view pb = FULL /\ pr_surface_jac_zero pb = false.
  Proof using WF WB TJ TS Hbs PU PE PB EB.
    split; [exact (ndofs K dim nq nfq det inv norm V W f FULL ph vars bnd vj sj xv xs pb bs0 WF WB TJ TS Hbs PU PE PB EB)|].
    assert (KS : kernel_shapes [f] ph bnd). { split; [intros k [E|E]; congruence|]. intros b k Hb E. rewrite (PB b Hb) in E. discriminate. }
    split; [exact (build_is_wf K dim nq nfq det inv norm V W [f] FULL ph vars bnd vj sj xv xs pb WF (Nat.lt_0_succ 0) WB KS TJ TS EB)|].
    unfold build in EB. destruct (volume_kernel _ _ _ _); [|discriminate]. destruct (all_opt _); [|discriminate]. injection EB as <-. split; reflexivity.
  Qed.
End Setup.

Section Entry.
  Variable K : CRing.
  Add Ring KR117f : (cth K).
  Local Open Scope ring_K.
  Variables (Inp FInp : Type) (pb : problem K Inp FInp) (bs0 : nat).
  Hypothesis (Hbs : 0 < bs0) (WP : wf_problem pb).
  Hypothesis (HV : pr_view pb = FULL) (HF : pr_surface_jac_zero pb = false).
  Local Notation n := (pr_n pb).
  Definition unit_vec (j : nat) : list K := tab n (fun i => if (i =? j)%nat then 1 else 0).
  Lemma entry_form u i j : i < n -> j < n -> todense (get_jacobian pb bs0 u) i j = quad_form n (get_jacobian pb bs0 u) (unit_vec i) (unit_vec j).
  Proof using Hbs WP HV HF.
    intros Hi Hj. transitivity (get (matvec (get_jacobian pb bs0 u) (unit_vec j)) i); [|symmetry; apply (unit_work K n i _ Hi)].
    rewrite (matvec_spec K _ _ pb bs0 Hbs WP HV HF) by exact Hi. rewrite (get_jacobian_dense Hbs WP), HV. cbn [in_view]. unfold eff_jac. rewrite HF.
    change (spec_vol_jac pb u i j + spec_face_jac pb u i j) with (spec_jac pb u i j).
    rewrite sumf_ext with (g := fun k => if (k =? j)%nat then spec_jac pb u i k else 0).
    - symmetry. apply (sumf_single_nat K (spec_jac pb u i) Hj).
    - intros k Hk. apply in_seq in Hk. unfold unit_vec. rewrite get_tab by (exact (proj2 Hk)). destruct (k =? j)%nat; ring.
  Qed.
  Lemma entry_outside u i j : ~ (i < n /\ j < n) -> todense (get_jacobian pb bs0 u) i j = 0.
  Proof using Hbs WP HV HF.
    intros H. destruct (C02_assembled_sum u Hbs WP HF) as [_ A]. destruct (A i j) as (A1 & A2 & A3). rewrite A1 by (rewrite HV; exact I). apply A3.
    intros C. apply H. destruct C as (d & Hd & Hi & Hj). split; apply (w_dofs WP _ _ Hd); assumption.
  Qed.
End Entry.

(** The assembled matrix and the matrix with symmetrically eliminated supports are symmetric. *)
Theorem C117_symmetric :
  forall (K : CRing) dim nq nfq det inv norm (V W : Type) (f : fe K) (ph : physics K V) vars (bnd : list (bdata K W)) vj sj xv xs pb bs0
         lt lm ls (u : list K) bc,
  wf_fes [f] -> (forall b, In b bnd -> wf_bdata [f] b) ->
  (forall u x, length (vj u x) = num_local [f] * num_local [f]) ->
  (forall u x, length (sj u x) = num_local [f] * num_local [f]) -> 0 < bs0 ->
  ph_universal ph = None -> ph_extra ph = None -> (forall b, In b bnd -> bp_universal (bd_ph b) = None) ->
  build dim nq nfq det inv norm [f] FULL ph vars bnd vj sj xv xs = Some pb ->
  exact_tangent pb -> linear_parts dim nq nfq f ph vars bnd lt lm ls -> symmetric_parts dim nq nfq f vars bnd lt lm ls ->
  (forall i j, todense (get_jacobian pb bs0 u) i j = todense (get_jacobian pb bs0 u) j i) /\
  (wf_bc bc (pr_n pb) -> (forall r, In r (bc_rows bc) -> exists d, In d (pr_cells pb) /\ In r d) ->
   forall i j, todense (J_bc pb bs0 true u bc) i j = todense (J_bc pb bs0 true u bc) j i).
Proof.
  intros K dim nq nfq det inv norm V W f ph vars bnd vj sj xv xs pb bs0 lt lm ls u bc WF WB TJ TS Hbs PU PE PB EB EX LP SP.
  destruct (setup K dim nq nfq det inv norm V W f ph vars bnd vj sj xv xs pb bs0 WF WB TJ TS Hbs PU PE PB EB) as (N & WP & HV & HF).
  assert (S : forall i j, todense (get_jacobian pb bs0 u) i j = todense (get_jacobian pb bs0 u) j i).
  { intros i j. destruct (Nat.lt_ge_cases i (pr_n pb)) as [Hi|Hi], (Nat.lt_ge_cases j (pr_n pb)) as [Hj|Hj].
    2-4: rewrite !(entry_outside K _ _ pb bs0 Hbs WP HV HF) by lia; reflexivity.
    rewrite !(entry_form K _ _ pb bs0 Hbs WP HV HF) by assumption. rewrite N.
    rewrite !(C117_form K dim nq nfq det inv norm V W f ph vars bnd vj sj xv xs pb bs0 lt lm ls) by assumption.
    apply form_symmetric; assumption. }
  split; [exact S|]. intros WC COV. apply (@C10_preserves_symmetry K _ _ pb bs0 u bc Hbs WP WC COV S).
Qed.
Print Assumptions C117_symmetric.

(** Positive semidefinite, with and without supports; with supports [v^T B v] is the sum of the squares at the supports plus the form
    of the free part. *)
Theorem C117_nonneg :
  forall (K : CRing) (le : K -> K -> Prop) dim nq nfq det inv norm (V W : Type) (f : fe K) (ph : physics K V) vars (bnd : list (bdata K W)) vj sj xv xs pb bs0
         lt lm ls (u v : list K) bc,
  let n := length (fe_points f) * fe_vec f in
  ordered le ->
  wf_fes [f] -> (forall b, In b bnd -> wf_bdata [f] b) ->
  (forall u x, length (vj u x) = num_local [f] * num_local [f]) ->
  (forall u x, length (sj u x) = num_local [f] * num_local [f]) -> 0 < bs0 ->
  ph_universal ph = None -> ph_extra ph = None -> (forall b, In b bnd -> bp_universal (bd_ph b) = None) ->
  build dim nq nfq det inv norm [f] FULL ph vars bnd vj sj xv xs = Some pb ->
  exact_tangent pb -> linear_parts dim nq nfq f ph vars bnd lt lm ls -> nonneg_parts dim nq nfq f vars bnd lt lm ls le ->
  (forall c q, c < length (fe_cells f) -> q < nq -> le c0 (JxW dim det f c q)) ->
  (forall b c e q, In b bnd -> In (c, e) (bd_inds b) -> q < nfq -> le c0 (nanson dim det inv norm f c e q)) ->
  le c0 (quad_form n (get_jacobian pb bs0 u) v v) /\
  (wf_bc bc n -> (forall r, In r (bc_rows bc) -> exists d, In d (pr_cells pb) /\ In r d) ->
   quad_form n (J_bc pb bs0 true u bc) v v =
     cadd (Sum n (fun i => if existsb (Nat.eqb i) (bc_rows bc) then cmul (get v i) (get v i) else c0))
          (form dim nq nfq det inv norm f ph vars bnd lt lm ls (freed n (bc_rows bc) v) (freed n (bc_rows bc) v)) /\
   ((forall a : K, le c0 (cmul a a)) -> le c0 (quad_form n (J_bc pb bs0 true u bc) v v))).
Proof.
  intros K le dim nq nfq det inv norm V W f ph vars bnd vj sj xv xs pb bs0 lt lm ls u v bc n OR WF WB TJ TS Hbs PU PE PB EB EX LP NN JP NP.
  destruct (setup K dim nq nfq det inv norm V W f ph vars bnd vj sj xv xs pb bs0 WF WB TJ TS Hbs PU PE PB EB) as (N & WP & HV & HF). fold n in N.
  assert (FM : forall v, quad_form n (get_jacobian pb bs0 u) v v = form dim nq nfq det inv norm f ph vars bnd lt lm ls v v).
  { intros v'. apply (C117_form K dim nq nfq det inv norm V W f ph vars bnd vj sj xv xs pb bs0 lt lm ls); assumption. }
  assert (FN : forall v, le c0 (form dim nq nfq det inv norm f ph vars bnd lt lm ls v v)).
  { intros v'. apply (form_nonneg K dim nq nfq det inv norm V W f ph vars bnd lt lm ls v' le OR JP NP NN). }
  split; [rewrite FM; apply FN|]. intros WC COV.
  assert (Q : quad_form n (J_bc pb bs0 true u bc) v v =
     cadd (Sum n (fun i => if existsb (Nat.eqb i) (bc_rows bc) then cmul (get v i) (get v i) else c0))
          (form dim nq nfq det inv norm f ph vars bnd lt lm ls (freed n (bc_rows bc) v) (freed n (bc_rows bc) v))).
  { rewrite <- FM. unfold quad_form. rewrite <- Sum_add. apply Sum_ext. intros i Hi. rewrite <- N in WC.
    rewrite (eliminated_matvec K _ _ pb bs0 bc Hbs WP WC COV HV HF) by (rewrite N; exact Hi). rewrite N.
    unfold freed at 2. rewrite get_tab by exact Hi. destruct (existsb (Nat.eqb i) (bc_rows bc)).
    - symmetry. apply plus_zero.
    - symmetry. apply add0. }
  split; [exact Q|]. intros SQ. rewrite Q.
  apply (nonneg_sum K le _ _ OR); [|apply FN].
  apply (Sum_nonneg K le OR). intros i Hi. destruct (existsb _ _); [apply SQ|apply (le_refl _ _ OR)].
Qed.
Print Assumptions C117_nonneg.

(** Positive definite and nonsingular: if no nonzero field vanishes at the supports and has strain-free gradients everywhere, [v^T B v = 0] only for
    [v = 0], and [B v = 0] only for [v = 0], whichever way the supports are eliminated. *)
Theorem C117_definite :
  forall (K : CRing) (le : K -> K -> Prop) dim nq nfq det inv norm (V W : Type) (f : fe K) (ph : physics K V) vars (bnd : list (bdata K W)) vj sj xv xs pb bs0
         lt lm ls (u v : list K) bc,
  let n := length (fe_points f) * fe_vec f in
  ordered le ->
  wf_fes [f] -> (forall b, In b bnd -> wf_bdata [f] b) ->
  (forall u x, length (vj u x) = num_local [f] * num_local [f]) ->
  (forall u x, length (sj u x) = num_local [f] * num_local [f]) -> 0 < bs0 ->
  ph_universal ph = None -> ph_extra ph = None -> (forall b, In b bnd -> bp_universal (bd_ph b) = None) -> stress_of ph <> None ->
  build dim nq nfq det inv norm [f] FULL ph vars bnd vj sj xv xs = Some pb ->
  exact_tangent pb -> linear_parts dim nq nfq f ph vars bnd lt lm ls -> nonneg_parts dim nq nfq f vars bnd lt lm ls le ->
  (* positive Jacobians: a product with one is zero only if the other factor is *)
  (forall c q, c < length (fe_cells f) -> q < nq -> le c0 (JxW dim det f c q)) ->
  (forall c q x, c < length (fe_cells f) -> q < nq -> cmul (JxW dim det f c q) x = c0 -> x = c0) ->
  (forall b c e q, In b bnd -> In (c, e) (bd_inds b) -> q < nfq -> le c0 (nanson dim det inv norm f c e q)) ->
  wf_bc bc n -> (forall r, In r (bc_rows bc) -> exists d, In d (pr_cells pb) /\ In r d) ->
  (* the supports stop every strain-free field *)
  (forall v, length v = n -> (forall i, In i (bc_rows bc) -> get v i = c0) ->
     (forall c q, c < length (fe_cells f) -> q < nq -> dot2 (fe_vec f) dim (lt (grad_at dim inv [f] 0 v c q) (vars c q)) (grad_at dim inv [f] 0 v c q) = c0) ->
     forall i, i < n -> get v i = c0) ->
  ((forall a : K, le c0 (cmul a a)) -> (forall a : K, cmul a a = c0 -> a = c0) ->
   quad_form n (J_bc pb bs0 true u bc) v v = c0 -> forall i, i < n -> get v i = c0) /\
  (forall sym, (forall i, i < n -> get (matvec (J_bc pb bs0 sym u bc) v) i = c0) -> forall i, i < n -> get v i = c0).
Proof.
  intros K le dim nq nfq det inv norm V W f ph vars bnd vj sj xv xs pb bs0 lt lm ls u v bc n OR WF WB TJ TS Hbs PU PE PB HS EB EX LP NN JP JC NP WC COV SF.
  destruct (setup K dim nq nfq det inv norm V W f ph vars bnd vj sj xv xs pb bs0 WF WB TJ TS Hbs PU PE PB EB) as (N & WP & HV & HF). fold n in N.
  assert (FM : forall v, quad_form n (get_jacobian pb bs0 u) v v = form dim nq nfq det inv norm f ph vars bnd lt lm ls v v).
  { intros v'. apply (C117_form K dim nq nfq det inv norm V W f ph vars bnd vj sj xv xs pb bs0 lt lm ls); assumption. }
  assert (FN : forall v, le c0 (form dim nq nfq det inv norm f ph vars bnd lt lm ls v v)).
  { intros v'. apply (form_nonneg K dim nq nfq det inv norm V W f ph vars bnd lt lm ls v' le OR JP NP NN). }
  assert (FR : forall i, In i (bc_rows bc) -> get (freed n (bc_rows bc) v) i = c0).
  { intros i Hi. unfold freed. rewrite get_tab by apply (wb_range WC _ Hi). assert (E : existsb (Nat.eqb i) (bc_rows bc) = true) by (apply existsb_exists; exists i; split; [exact Hi|apply Nat.eqb_refl]). rewrite E. reflexivity. }
  assert (FZ : form dim nq nfq det inv norm f ph vars bnd lt lm ls (freed n (bc_rows bc) v) (freed n (bc_rows bc) v) = c0 -> forall i, i < n -> get (freed n (bc_rows bc) v) i = c0).
  { intros Z. apply (SF (freed n (bc_rows bc) v) (tab_length _ _ _) FR).
    apply (form_zero K dim nq nfq det inv norm V W f ph vars bnd lt lm ls (freed n (bc_rows bc) v) le OR JP NP NN HS Z JC). }
  assert (FREE : forall i, i < n -> existsb (Nat.eqb i) (bc_rows bc) = false -> get (freed n (bc_rows bc) v) i = get v i).
  { intros i Hi E. unfold freed. rewrite get_tab by exact Hi. rewrite E. reflexivity. }
  split.
  - intros SQ SZ Q. destruct (C117_nonneg K le dim nq nfq det inv norm V W f ph vars bnd vj sj xv xs pb bs0 lt lm ls u v bc OR WF WB TJ TS Hbs PU PE PB EB EX LP NN JP NP) as [_ D].
    destruct (D WC COV) as [D1 _]. fold n in D1. rewrite D1 in Q.
    assert (SN : forall i, i < n -> le c0 (if existsb (Nat.eqb i) (bc_rows bc) then cmul (get v i) (get v i) else c0)) by (intros i Hi; destruct (existsb _ _); [apply SQ|apply (le_refl _ _ OR)]).
    destruct (both_zero K le _ _ OR (Sum_nonneg K le OR n _ SN) (FN _) Q) as [Q1 Q2].
    intros i Hi. destruct (existsb (Nat.eqb i) (bc_rows bc)) eqn:E; [|rewrite <- FREE by assumption; apply (FZ Q2 i Hi)].
    apply SZ. pose proof (Sum_zero_each K le OR n _ SN (eq_ind _ (fun s => le s c0) (le_refl _ _ OR c0) _ (eq_sym Q1)) i Hi) as Z. cbv beta in Z. rewrite E in Z. exact Z.
  - intros sym B.
    assert (BR : forall i, i < n -> (if existsb (Nat.eqb i) (bc_rows bc) then get v i else get (matvec (get_jacobian pb bs0 u) (if sym then freed n (bc_rows bc) v else v)) i) = c0).
    { intros i Hi. rewrite <- (B i Hi). rewrite <- N in WC. rewrite (eliminated_matvec K _ _ pb bs0 bc Hbs WP WC COV HV HF) by (rewrite N; exact Hi). rewrite N. reflexivity. }
    assert (SAME : forall i, i < n -> get (freed n (bc_rows bc) v) i = get v i).
    { intros i Hi. destruct (existsb (Nat.eqb i) (bc_rows bc)) eqn:E; [|apply (FREE i Hi E)]. pose proof (BR i Hi) as Z. rewrite E in Z. rewrite Z. unfold freed. rewrite get_tab by exact Hi. rewrite E. reflexivity. }
    intros i Hi. rewrite <- SAME by exact Hi. apply FZ; [|exact Hi]. rewrite <- FM. unfold quad_form. apply Sum_zero. intros j Hj.
    pose proof (BR j Hj) as Z. destruct (existsb (Nat.eqb j) (bc_rows bc)) eqn:E.
    + unfold freed at 1. rewrite get_tab by exact Hj. rewrite E. apply mul0l.
    + destruct sym; [rewrite Z; apply kmul0|].
      rewrite (matvec_same K _ _ pb bs0 Hbs WP HV HF u _ v j) by (rewrite N; first [exact Hj|exact SAME]). rewrite Z. apply kmul0.
Qed.
Print Assumptions C117_definite.

(** ** Concrete case: two bars in a row with different stiffnesses, a body force and an elastic support at the right end; the left end
    is fixed.  The element tangents are the columns of element residuals of unit displacements. *)
Definition st_fe : fe ZK :=
  @Build_fe ZK 1 2 [[0]; [1]; [2]]%Z [[0; 1]; [1; 2]] (fun _ n => if n =? 0 then 1%Z else 0%Z) (fun _ n _ => if n =? 0 then (-1)%Z else 1%Z) (fun _ => 1%Z)
    (fun g _ n => if n =? g then 1%Z else 0%Z) (fun _ _ n _ => if n =? 0 then (-1)%Z else 1%Z) (fun _ _ => 1%Z) (fun _ _ => 1%Z).
Definition st_det (M : list (list Z)) : Z := nth 0 (nth 0 M []) 0%Z.
Definition st_inv (M : list (list Z)) : list (list Z) := M.
Definition st_tm : tensor_map ZK Z := fun G y => [[(y * get2 (K := ZK) G 0 0 + 1)%Z]].
Definition st_mm : mass_map ZK Z := fun _ _ _ => [-7]%Z.
Definition st_sm : surface_map ZK Z := fun a _ y => [(y * get (K := ZK) a 0 - 3)%Z].
Definition st_ph : physics ZK Z := Build_physics ZK Z None None (Some st_mm) (Some st_tm) None None.
Definition st_bph : bphysics ZK Z := Build_bphysics ZK Z None None (Some st_sm).
Definition st_bnd : list (bdata ZK Z) := [Build_bdata ZK Z [(1, 1)] st_bph [fun _ => 4%Z]].
Definition st_vars (c q : nat) : Z := Z.of_nat c + 2.
Definition st_lt : tensor_map ZK Z := fun G y => [[(y * get2 (K := ZK) G 0 0)%Z]].
Definition st_lm : mass_map ZK Z := fun _ _ _ => [0]%Z.
Definition st_ls : bdata ZK Z -> surface_map ZK Z := fun _ a _ y => [(y * get (K := ZK) a 0)%Z].
Definition st_columns {A} (k : list Z -> A -> list Z) (x : A) : list Z :=
  [nth 0 (k [1; 0]%Z x) 0 - nth 0 (k [0; 0]%Z x) 0; nth 0 (k [0; 1]%Z x) 0 - nth 0 (k [0; 0]%Z x) 0;
   nth 1 (k [1; 0]%Z x) 0 - nth 1 (k [0; 0]%Z x) 0; nth 1 (k [0; 1]%Z x) 0 - nth 1 (k [0; 0]%Z x) 0]%Z.
Definition st_k : list Z -> vinp ZK Z -> list Z := match volume_kernel (K := ZK) 1 1 [st_fe] st_ph with Some k => k | None => fun _ _ => [] end.
Definition st_s : list Z -> finp ZK Z -> list Z := match surface_kernel_of (K := ZK) 1 [st_fe] st_bph with Some k => k | None => fun _ _ => [] end.
Definition st_build :=
  build (K := ZK) 1 1 1 st_det st_inv (fun _ => 1%Z) [st_fe] FULL st_ph st_vars st_bnd (fun _ x => st_columns st_k x) (fun _ x => st_columns st_s x)
    (vinp_of 1 st_det st_inv [st_fe] (fun c q => 0%Z) 0) (finp_of 1 st_det st_inv (fun _ => 1%Z) [st_fe] (fun _ => 0%Z) (0, 0)).
Lemma st_exact pb : st_build = Some pb -> exact_tangent pb.
Proof.
  intros E. injection E as <-. split.
  - intros x Hx u v a Lu Lv Ha. cbn [pr_nd] in *. change (num_local [st_fe]) with 2 in *.
    destruct u as [|u0 [|u1 [|]]]; try discriminate Lu. destruct v as [|v0 [|v1 [|]]]; try discriminate Lv. cbn [carrier ZK] in u0, u1, v0, v1.
    destruct Hx as [<-|[<-|[]]]; do 2 (destruct a as [|a]; [match goal with |- @eq _ ?l ?r => change (@eq Z l r) end; cbv -[Z.add Z.mul Z.sub Z.opp]; ring|]); lia.
  - intros b x [<-|[]] Hx u v a Lu Lv Ha. cbn [pr_nd b_inp] in *. change (num_local [st_fe]) with 2 in *.
    destruct u as [|u0 [|u1 [|]]]; try discriminate Lu. destruct v as [|v0 [|v1 [|]]]; try discriminate Lv. cbn [carrier ZK] in u0, u1, v0, v1.
    destruct Hx as [<-|[]]; do 2 (destruct a as [|a]; [match goal with |- @eq _ ?l ?r => change (@eq Z l r) end; cbv -[Z.add Z.mul Z.sub Z.opp]; ring|]); lia.
Qed.
Definition st_bc : dirichlet ZK := {| bc_rows := [0]; bc_vals := ([0]%Z : list ZK); bc_total := 3; bc_mask := [true; false; false] |}.
Lemma st_linear : linear_parts (K := ZK) 1 1 1 st_fe st_ph st_vars st_bnd st_lt st_lm st_ls.
Proof.
  split.
  - intros c q Hc Hq. split.
    + intros tm G H k d [= <-] Hk Hd. change (fe_vec st_fe) with 1 in *. assert (k = 0) as -> by lia. assert (d = 0) as -> by lia.
      unfold st_tm, st_lt. generalize (st_vars c q). intros y. unfold add2. rewrite (get2_tab ZK 1 1) by lia.
      change (get2 (K := ZK) [[(y * (get2 G 0 0 + get2 H 0 0)%K + 1)%Z]] 0 0) with (y * (get2 (K := ZK) G 0 0 + get2 (K := ZK) H 0 0) + 1)%Z.
      generalize (get2 (K := ZK) G 0 0 : Z) (get2 (K := ZK) H 0 0 : Z). cbn [carrier ZK]. intros g h.
      match goal with |- @eq _ ?l ?r => change (@eq Z l (y * g + 1 + y * h)%Z) end. ring.
    + intros mm a b x k [= <-] Hk. change (fe_vec st_fe) with 1 in *. assert (k = 0) as -> by lia. reflexivity.
  - intros bd w q sm a b x k [<-|[]] [<-|[]] Hq [= <-] Hk. change (fe_vec st_fe) with 1 in *. assert (k = 0) as -> by lia.
    unfold st_sm, st_ls, add1. rewrite get_tab by lia. generalize (get (K := ZK) a 0 : Z) (get (K := ZK) b 0 : Z). cbn [carrier ZK]. intros g h.
    match goal with |- @eq _ ?l ?r => change (@eq Z (4 * (g + h) - 3)%Z (4 * g - 3 + 4 * h)%Z) end. ring.
Qed.
Lemma st_dot2 a H : dot2 (K := ZK) 1 1 [[a]] H = (a * get2 (K := ZK) H 0 0)%Z.
Proof. change (dot2 (K := ZK) 1 1 [[a]] H) with (a * get2 (K := ZK) H 0 0 + 0 + 0)%Z. cbn [carrier ZK] in *. generalize (get2 (K := ZK) H 0 0 : Z). cbn [carrier ZK]. intros h. lia. Qed.
Lemma st_dot1 a b : dot1 (K := ZK) 1 [a] b = (a * get (K := ZK) b 0)%Z.
Proof. change (dot1 (K := ZK) 1 [a] b) with (a * get (K := ZK) b 0 + 0)%Z. cbn [carrier ZK] in *. generalize (get (K := ZK) b 0 : Z). cbn [carrier ZK]. intros h. lia. Qed.
Lemma st_symmetric : symmetric_parts (K := ZK) 1 1 1 st_fe st_vars st_bnd st_lt st_lm st_ls.
Proof.
  split.
  - intros c q _ _. change (fe_vec st_fe) with 1. split.
    + intros G H. unfold st_lt. rewrite !st_dot2. generalize (st_vars c q) (get2 (K := ZK) G 0 0 : Z) (get2 (K := ZK) H 0 0 : Z). cbn [carrier ZK]. intros y g h. match goal with |- @eq _ ?l ?r => change (@eq Z l r) end. ring.
    + intros a b x. unfold st_lm. rewrite !st_dot1. reflexivity.
  - intros bd w q a b x [<-|[]] [<-|[]] _. change (fe_vec st_fe) with 1. unfold st_ls. rewrite !st_dot1. generalize (get (K := ZK) a 0 : Z) (get (K := ZK) b 0 : Z). cbn [carrier ZK]. intros g h. match goal with |- @eq _ ?l ?r => change (@eq Z l r) end. ring.
Qed.
Lemma st_nonneg : nonneg_parts (K := ZK) 1 1 1 st_fe st_vars st_bnd st_lt st_lm st_ls Z.le.
Proof.
  split.
  - intros c q _ _. change (fe_vec st_fe) with 1. split.
    + intros G. unfold st_lt. rewrite !st_dot2. assert (Y : (0 <= st_vars c q)%Z) by (unfold st_vars; lia). revert Y. generalize (st_vars c q) (get2 (K := ZK) G 0 0 : Z). cbn [carrier ZK]. intros y g Y. change (0 <= y * g * g)%Z. nia.
    + intros a x. unfold st_lm. rewrite !st_dot1. cbn. lia.
  - intros bd w q a x [<-|[]] [<-|[]] _. change (fe_vec st_fe) with 1. unfold st_ls. rewrite !st_dot1. generalize (get (K := ZK) a 0 : Z). cbn [carrier ZK]. intros g. change (0 <= 4 * g * g)%Z. nia.
Qed.
Lemma st_supported v : length v = 3 -> (forall i, In i (bc_rows st_bc) -> get (K := ZK) v i = 0%Z) ->
  (forall c q, c < 2 -> q < 1 -> dot2 (K := ZK) 1 1 (st_lt (grad_at (K := ZK) 1 st_inv [st_fe] 0 v c q) (st_vars c q)) (grad_at (K := ZK) 1 st_inv [st_fe] 0 v c q) = 0%Z) ->
  forall i, i < 3 -> get (K := ZK) v i = 0%Z.
Proof.
  intros L S H i Hi. destruct v as [|v0 [|v1 [|v2 [|]]]]; try discriminate L. pose proof (S 0 (or_introl eq_refl)) as S0. cbn in S0. subst v0.
  pose proof (H 0 0 ltac:(lia) ltac:(lia)) as H0. pose proof (H 1 0 ltac:(lia) ltac:(lia)) as H1. unfold st_lt in H0, H1. rewrite !st_dot2 in H0, H1. cbn [carrier ZK] in v1, v2.
  assert (E0 : (2 * (v1 * v1) = 0)%Z) by (etransitivity; [|exact H0]; cbv -[Z.add Z.mul Z.sub Z.opp]; ring).
  assert (E1 : (3 * ((v2 - v1) * (v2 - v1)) = 0)%Z) by (etransitivity; [|exact H1]; cbv -[Z.add Z.mul Z.sub Z.opp]; ring).
  clear H H0 H1 S. assert (v1 = 0)%Z by nia. subst v1. assert (v2 = 0)%Z by nia. subst v2.
  do 3 (destruct i as [|i]; [reflexivity|]). lia.
Qed.
Example C117_example :
  wf_fes [st_fe] /\ (forall b, In b st_bnd -> wf_bdata [st_fe] b) /\
  linear_parts (K := ZK) 1 1 1 st_fe st_ph st_vars st_bnd st_lt st_lm st_ls /\ symmetric_parts (K := ZK) 1 1 1 st_fe st_vars st_bnd st_lt st_lm st_ls /\
  nonneg_parts (K := ZK) 1 1 1 st_fe st_vars st_bnd st_lt st_lm st_ls Z.le /\
  (forall c q, c < 2 -> q < 1 -> (0 <= JxW (K := ZK) 1 st_det st_fe c q)%Z) /\
  (forall c q x, c < 2 -> q < 1 -> (JxW (K := ZK) 1 st_det st_fe c q * x = 0)%Z -> x = 0%Z) /\
  (forall b c e q, In b st_bnd -> In (c, e) (bd_inds b) -> q < 1 -> (0 <= nanson (K := ZK) 1 st_det st_inv (fun _ => 1%Z) st_fe c e q)%Z) /\
  wf_bc st_bc 3 /\
  exists pb, st_build = Some pb /\ exact_tangent pb /\ (forall r, In r (bc_rows st_bc) -> exists d, In d (pr_cells pb) /\ In r d) /\
    map (fun i => map (todense (get_jacobian pb 1 [5; 6; 7]%Z) i) [0; 1; 2]) [0; 1; 2] = [[2; -2; 0]; [-2; 5; -3]; [0; -3; 7]]%Z /\
    map (fun i => map (todense (J_bc pb 1 true [5; 6; 7]%Z st_bc) i) [0; 1; 2]) [0; 1; 2] = [[1; 0; 0]; [0; 5; -3]; [0; -3; 7]]%Z.
Proof.
  split. { intros f [<-|[]]. split; [reflexivity|]. intros c [<-|[<-|[]]]; (split; [reflexivity|]); cbn; intros n Hn; lia. }
  split. { intros b [<-|[]]. split; [reflexivity|]. intros cg [<-|[]]. cbn. lia. }
  split; [exact st_linear|]. split; [exact st_symmetric|]. split; [exact st_nonneg|].
  split. { intros c q Hc Hq. assert (q = 0) as -> by lia. destruct c as [|[|c]]; try lia; vm_compute; discriminate. }
  split. { intros c q x Hc Hq. assert (q = 0) as -> by lia. assert (J : JxW (K := ZK) 1 st_det st_fe c 0 = 1%Z) by (destruct c as [|[|c]]; try lia; vm_compute; reflexivity). rewrite J. intros H. cbn [carrier ZK] in x. lia. }
  split. { intros b c e q [<-|[]] [[= <- <-]|[]] Hq. assert (q = 0) as -> by lia. vm_compute; discriminate. }
  split. { constructor; cbn; try reflexivity.
           - repeat constructor.
           - intros r Hr. lia.
           - intros i. do 3 (destruct i as [|i]; [cbn; split; intros; (discriminate || reflexivity || lia || (left; reflexivity))|]).
             cbn. split; [destruct i; discriminate|lia]. }
  eexists. split; [reflexivity|]. split; [apply st_exact; reflexivity|]. split. { intros r [<-|[]]. exists [0; 1]. split; [left; reflexivity|left; reflexivity]. }
  split; vm_compute; reflexivity.
Qed.
