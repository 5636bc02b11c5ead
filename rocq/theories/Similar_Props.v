(** C126: similar bodies: moving, turning and scaling a mesh. *)
From Verif Require Import Base Csr_Model Assembly_Model AssemblyMain_Proofs Dof_Model Dof_Spec Dof_Proofs Bc_Model Bc_Proofs Bc_Props
                          Kernel_Model Kernel_Spec Kernel_Proofs Kernel_Props Patch_Props Moment_Props Potential_Props Objective_Props.
From Coq Require Import List Arith Lia ZArith Ring_theory.
Import ListNotations.

(** ** Specification *)
Section Spec.
  Variable K : CRing.
  Local Open Scope ring_K.
  Variables (dim : nat) (s si : K) (Q : nat -> nat -> K) (t : nat -> K).
  (** The point [s Q x + t]. *)
  Definition sim_point (x : list K) : list K := tab dim (fun i => t i + s * turn dim Q (get x) i).
  (** The same mesh with every node moved to its similar point. *)
  Definition sim_mesh (f : fe K) : fe K :=
    {| fe_vec := fe_vec f; fe_nn := fe_nn f; fe_points := map sim_point (fe_points f); fe_cells := fe_cells f; fe_sv := fe_sv f; fe_sgref := fe_sgref f; fe_w := fe_w f;
       fe_fsv := fe_fsv f; fe_fsgref := fe_fsgref f; fe_fnormal := fe_fnormal f; fe_fw := fe_fw f |}.
  (** [inv] computes the inverse of [M]. *)
  Definition inverts (inv : list (list K) -> list (list K)) (M : list (list K)) : Prop :=
    forall i j, i < dim -> j < dim -> Sum dim (fun e => get2 M i e * get2 (inv M) e j) = delta i j /\ Sum dim (fun e => get2 (inv M) i e * get2 M e j) = delta i j.
  (** Determinants are multiplied by [sd] (that is [s^dim]) and lengths of normals by [si] under the similarity. *)
  Definition det_scales (det : list (list K) -> K) (sd : K) : Prop :=
    forall M, det (tab dim (fun i => tab dim (fun e => s * turn dim Q (fun j => get2 M j e) i))) = sd * det M.
  Definition norm_scales (norm : list K -> K) : Prop := forall v, norm (tab dim (fun d => si * turn dim Q v d)) = si * norm (tab dim v).
  (** Values at a point are multiplied by [la C], stresses by [mu]; [la] and [C] are free: for displacements [la = s], [C = Q], for a temperature
      [la = 1], [C = 1]. *)
  Variables (m : nat) (C : nat -> nat -> K) (la : K).
  Definition sim_value (b : list K) : list K := tab m (fun k => la * turn m C (get b) k).
  Definition sim_grad (G : list (list K)) : list (list K) := tab m (fun k => tab dim (fun d => la * si * turn dim Q (fun e => turn m C (fun j => get2 G j e) k) d)).
  Variables (V W : Type).
  Definition sim_tensor (mu : K) (tm tm' : tensor_map K V) : Prop :=
    forall G y k d, k < m -> d < dim -> get2 (tm' (sim_grad G) y) k d = mu * turn dim Q (fun e => turn m C (fun j => get2 (tm G y) j e) k) d.
  Definition sim_load (mu : K) (l l' : list K -> list K -> W -> list K) : Prop :=
    forall b x y k, k < m -> get (l' (sim_value b) (sim_point x) y) k = mu * turn m C (get (l b x y)) k.
End Spec.
Arguments sim_point {K}. Arguments sim_mesh {K}. Arguments inverts {K}. Arguments det_scales {K}. Arguments norm_scales {K}. Arguments sim_value {K}. Arguments sim_grad {K}.
Arguments sim_tensor {K} dim si Q m C la {V}. Arguments sim_load {K} dim s Q t m C la {W}.
(** Both hooks absent, or both present and related. *)
Definition both {A} (r : A -> A -> Prop) (a b : option A) : Prop := match a, b with None, None => True | Some x, Some y => r x y | _, _ => False end.
Definition stress_hook {K : CRing} {V} (ph : physics K V) : option (tensor_map K V) := match ph_tensor ph with Some s => Some s | None => ph_energy_grad ph end.

Section Geometry.
  Variable K : CRing.
  Add Ring KR126 : (cth K).
  Local Open Scope ring_K.
  Variables (dim : nat) (s si : K) (Q : nat -> nat -> K) (t : nat -> K) (f : fe K).
  Variables (det : list (list K) -> K) (inv : list (list K) -> list (list K)) (norm : list K -> K) (sd : K).
  Local Notation f' := (sim_mesh dim s Q t f).
  Hypothesis (SI : s * si = 1) (OQ : orthogonal dim Q).
  Hypothesis (WF : wf_fes [f]).

  Lemma turn_ext n (B : nat -> nat -> K) g h i : (forall j, j < n -> g j = h j) -> turn n B g i = turn n B h i.
  Proof using. intros H. unfold turn. apply Sum_ext. intros j Hj. rewrite H by exact Hj. reflexivity. Qed.
  Lemma orth_dot (a b : nat -> K) : Sum dim (fun d => turn dim Q a d * turn dim Q b d) = Sum dim (fun e => a e * b e).
  Proof using OQ.
    rewrite (turn_work K Q dim a (turn dim Q b)). apply Sum_ext. intros j Hj. f_equal.
    transitivity (Sum dim (fun e => Sum dim (fun k => Q k j * Q k e) * b e)).
    - unfold turn. rewrite (Sum_ext K _ _ (fun k => Sum dim (fun e => Q k j * Q k e * b e))) by (intros k Hk; rewrite <- Sum_mul_l; apply Sum_ext; intros e He; ring).
      rewrite Sum_swap. apply Sum_ext. intros e He. rewrite <- Sum_mul_r. reflexivity.
    - rewrite (Sum_ext K _ _ (fun e => if (e =? j)%nat then b e else 0)); [exact (Sum_single K dim j b Hj)|].
      intros e He. rewrite (OQ j e Hj He). unfold delta. rewrite (Nat.eqb_sym j e). destruct (e =? j)%nat; ring.
  Qed.
  Lemma coo_sim c n i : c < length (fe_cells f) -> n < fe_nn f -> i < dim -> coo f' c n i = t i + s * turn dim Q (coo f c n) i.
  Proof using WF.
    intros Hc Hn Hi. pose proof (node_bound K f c n WF Hc Hn) as B. unfold coo. change (node_of f' c n) with (node_of f c n). cbn [fe_points sim_mesh]. unfold get2.
    rewrite (nth_map_in _ (fe_points f) []) by exact B. unfold sim_point. rewrite get_tab by exact Hi. reflexivity.
  Qed.
  (** Interpolation of the coordinates with any weights. *)
  Lemma coords_sim (w : nat -> K) c i : c < length (fe_cells f) -> i < dim ->
    Sum (fe_nn f) (fun n => w n * coo f' c n i) = t i * Sum (fe_nn f) w + s * turn dim Q (fun j => Sum (fe_nn f) (fun n => w n * coo f c n j)) i.
  Proof using WF.
    intros Hc Hi. rewrite (Sum_ext K _ _ (fun n => t i * w n + s * Sum dim (fun j => Q i j * (w n * coo f c n j)))).
    - rewrite Sum_add, !Sum_mul_l. f_equal. f_equal. rewrite Sum_swap. unfold turn. apply Sum_ext. intros j Hj. apply Sum_mul_l.
    - intros n Hn. rewrite coo_sim by assumption. unfold turn.
      rewrite (Sum_ext K dim (fun j => Q i j * (w n * coo f c n j)) (fun j => w n * (Q i j * coo f c n j))) by (intros; ring). rewrite Sum_mul_l. ring.
  Qed.
  Lemma matrix_sim (w : nat -> nat -> K) c : (forall e, e < dim -> Sum (fe_nn f) (fun n => w n e) = 0) -> c < length (fe_cells f) ->
    tab dim (fun i => tab dim (fun e => Sum (fe_nn f) (fun n => coo f' c n i * w n e))) =
    tab dim (fun i => tab dim (fun e => s * turn dim Q (fun j => get2 (tab dim (fun i => tab dim (fun e => Sum (fe_nn f) (fun n => coo f c n i * w n e)))) j e) i)).
  Proof using WF.
    intros U Hc. apply tab_ext. intros i Hi. apply tab_ext. intros e He.
    rewrite (Sum_ext K _ _ (fun n => w n e * coo f' c n i)) by (intros; ring). rewrite (coords_sim (fun n => w n e)) by assumption. rewrite U by exact He.
    rewrite (turn_ext dim Q _ (fun j => get2 (tab dim (fun i0 => tab dim (fun e0 => Sum (fe_nn f) (fun n => coo f c n i0 * w n e0)))) j e)); [ring|].
    intros j Hj. rewrite (get2_tab K _ dim) by assumption. apply Sum_ext. intros; ring.
  Qed.
  (** The computed inverse of the similar matrix. *)
  Lemma inverse_sim (M M' : list (list K)) : M' = tab dim (fun i => tab dim (fun e => s * turn dim Q (fun j => get2 M j e) i)) ->
    inverts dim inv M -> inverts dim inv M' -> forall e d, e < dim -> d < dim -> get2 (inv M') e d = si * turn dim Q (fun j => get2 (inv M) e j) d.
  Proof using SI OQ.
    intros EM I I' e d He Hd.
    (* Y = si (inv M) Q^T is a left inverse of M'; X = inv M' a right inverse *)
    set (Y := fun a b => si * turn dim Q (fun j => get2 (inv M) a j) b).
    assert (LY : forall a b, a < dim -> b < dim -> Sum dim (fun i => Y a i * get2 M' i b) = delta a b).
    { intros a b Ha Hb. rewrite (Sum_ext K _ _ (fun i => si * s * (turn dim Q (fun j => get2 (inv M) a j) i * turn dim Q (fun j => get2 M j b) i))).
      - rewrite Sum_mul_l, orth_dot. rewrite (proj2 (I a b Ha Hb)). replace (si * s) with (s * si) by ring. rewrite SI. ring.
      - intros i Hi. rewrite EM, (get2_tab K _ dim) by assumption. unfold Y. ring. }
    change (get2 (inv M') e d = Y e d).
    transitivity (Sum dim (fun b => delta e b * get2 (inv M') b d)).
    { rewrite (Sum_ext K _ _ (fun b => if (b =? e)%nat then get2 (inv M') b d else 0)); [symmetry; exact (Sum_single K dim e (fun b => get2 (inv M') b d) He)|]. intros b Hb. unfold delta. rewrite (Nat.eqb_sym e b). destruct (b =? e)%nat; ring. }
    transitivity (Sum dim (fun b => Sum dim (fun i => Y e i * get2 M' i b * get2 (inv M') b d))).
    { apply Sum_ext. intros b Hb. rewrite <- (LY e b He Hb). rewrite <- Sum_mul_r. reflexivity. }
    rewrite Sum_swap. rewrite (Sum_ext K _ _ (fun i => if (i =? d)%nat then Y e i else 0)); [exact (Sum_single K dim d (fun i => Y e i) Hd)|].
    intros i Hi. transitivity (Y e i * Sum dim (fun b => get2 M' i b * get2 (inv M') b d)); [rewrite <- Sum_mul_l; apply Sum_ext; intros; ring|].
    rewrite (proj1 (I' i d Hi Hd)). unfold delta. destruct (i =? d)%nat; ring.
  Qed.
  Lemma jac_sim c q : unity K dim f -> c < length (fe_cells f) -> jac dim f' c q = tab dim (fun i => tab dim (fun e => s * turn dim Q (fun j => get2 (jac dim f c q) j e) i)).
  Proof using WF. intros U Hc. unfold jac. cbn [fe_nn fe_sgref sim_mesh]. apply (matrix_sim (fun n e => fe_sgref f q n e)); [intros e He; apply U; exact He|exact Hc]. Qed.
  Lemma face_jac_sim c g q : (forall e, e < dim -> Sum (fe_nn f) (fun n => fe_fsgref f g q n e) = 0) -> c < length (fe_cells f) ->
    face_jac dim f' c g q = tab dim (fun i => tab dim (fun e => s * turn dim Q (fun j => get2 (face_jac dim f c g q) j e) i)).
  Proof using WF. intros U Hc. unfold face_jac. cbn [fe_nn fe_fsgref sim_mesh]. apply (matrix_sim (fun n e => fe_fsgref f g q n e)); [exact U|exact Hc]. Qed.
  Lemma JxW_sim c q : det_scales dim s Q det sd -> unity K dim f -> c < length (fe_cells f) -> JxW dim det f' c q = sd * JxW dim det f c q.
  Proof using WF. intros DS U Hc. unfold JxW. rewrite jac_sim by assumption. rewrite DS. cbn [fe_w sim_mesh]. ring. Qed.
  Lemma turn_row n (B : nat -> nat -> K) (w : nat -> K) (g : nat -> nat -> K) d : Sum n (fun e => w e * turn dim B (g e) d) = turn dim B (fun j => Sum n (fun e => w e * g e j)) d.
  Proof using.
    unfold turn. rewrite (Sum_ext K _ _ (fun e => Sum dim (fun j => B d j * (w e * g e j)))) by (intros e He; rewrite <- Sum_mul_l; apply Sum_ext; intros; ring).
    rewrite Sum_swap. apply Sum_ext. intros j Hj. apply Sum_mul_l.
  Qed.
  Lemma nanson_sim c g q : det_scales dim s Q det sd -> norm_scales dim si Q norm -> (forall e, e < dim -> Sum (fe_nn f) (fun n => fe_fsgref f g q n e) = 0) -> c < length (fe_cells f) ->
    inverts dim inv (face_jac dim f c g q) -> inverts dim inv (face_jac dim f' c g q) -> nanson dim det inv norm f' c g q = sd * si * nanson dim det inv norm f c g q.
  Proof using SI OQ WF.
    intros DS NS U Hc I I'. unfold nanson. pose proof (face_jac_sim c g q U Hc) as EJ.
    assert (E : tab dim (fun d => Sum dim (fun e => fe_fnormal f' g e * get2 (inv (face_jac dim f' c g q)) e d)) =
                tab dim (fun d => si * turn dim Q (fun j => Sum dim (fun e => fe_fnormal f g e * get2 (inv (face_jac dim f c g q)) e j)) d)).
    { apply tab_ext. intros d Hd. cbn [fe_fnormal sim_mesh].
      rewrite (Sum_ext K _ _ (fun e => si * (fe_fnormal f g e * turn dim Q (fun j => get2 (inv (face_jac dim f c g q)) e j) d))).
      - rewrite Sum_mul_l. f_equal. apply (turn_row dim Q (fe_fnormal f g) (fun e j => get2 (inv (face_jac dim f c g q)) e j) d).
      - intros e He. rewrite (inverse_sim _ _ EJ I I' e d He Hd). ring. }
    rewrite E, NS, EJ, DS. cbn [fe_fw sim_mesh]. ring.
  Qed.
  Lemma shape_grad_sim c q n d : unity K dim f -> c < length (fe_cells f) -> inverts dim inv (jac dim f c q) -> inverts dim inv (jac dim f' c q) -> d < dim ->
    shape_grad dim inv f' c q n d = si * turn dim Q (shape_grad dim inv f c q n) d.
  Proof using SI OQ WF.
    intros U Hc I I' Hd. unfold shape_grad at 1. cbn [fe_sgref sim_mesh].
    rewrite (Sum_ext K _ _ (fun e => si * (fe_sgref f q n e * turn dim Q (fun j => get2 (inv (jac dim f c q)) e j) d))).
    - rewrite Sum_mul_l. f_equal. exact (turn_row dim Q (fun e => fe_sgref f q n e) (fun e j => get2 (inv (jac dim f c q)) e j) d).
    - intros e He. rewrite (inverse_sim _ _ (jac_sim c q U Hc) I I' e d He Hd). ring.
  Qed.
  Lemma point_sim (w : nat -> K) c : Sum (fe_nn f) w = 1 -> c < length (fe_cells f) ->
    tab dim (fun i => Sum (fe_nn f) (fun n => w n * coo f' c n i)) = sim_point dim s Q t (tab dim (fun i => Sum (fe_nn f) (fun n => w n * coo f c n i))).
  Proof using WF.
    intros S1 Hc. unfold sim_point. apply tab_ext. intros i Hi. rewrite coords_sim by assumption. rewrite S1.
    rewrite (turn_ext dim Q (fun j => Sum (fe_nn f) (fun n => w n * coo f c n j)) (get (tab dim (fun i0 => Sum (fe_nn f) (fun n => w n * coo f c n i0))))); [ring|]. intros j Hj. rewrite get_tab by exact Hj. reflexivity.
  Qed.
End Geometry.

Section Work.
  Variable K : CRing.
  Add Ring KR126b : (cth K).
  Local Open Scope ring_K.
  Variables (dim nq nfq : nat) (det : list (list K) -> K) (inv : list (list K) -> list (list K)) (norm : list K -> K) (V W : Type).
  Variables (f : fe K) (vw : view) (ph ph' : physics K V) (vars : nat -> nat -> V) (bnd bnd' : list (bdata K W))
            (vj vj' : list K -> vinp K V -> list K) (sj sj' : list K -> finp K W -> list K) (xv xv' : vinp K V) (xs xs' : finp K W)
            (pb pb' : problem K (vinp K V) (finp K W)) (bs0 bs0' : nat).
  Variables (s si sd la mu : K) (Q C : nat -> nat -> K) (t : nat -> K) (u u' : list K).
  Local Notation f' := (sim_mesh dim s Q t f).
  Local Notation m := (fe_vec f).
  Hypothesis (SI : s * si = 1) (OQ : orthogonal dim Q).
  Hypothesis (DS : det_scales dim s Q det sd) (NS : norm_scales dim si Q norm).
  Hypothesis (WF : wf_fes [f]).
  Hypothesis (WB : forall b, In b bnd -> wf_bdata [f] b).
  Hypothesis (TJ : forall u x, length (vj u x) = (num_local [f] * num_local [f])%nat).
  Hypothesis (TS : forall u x, length (sj u x) = (num_local [f] * num_local [f])%nat).
  Hypothesis (TJ' : forall u x, length (vj' u x) = (num_local [f] * num_local [f])%nat).
  Hypothesis (TS' : forall u x, length (sj' u x) = (num_local [f] * num_local [f])%nat).
  Hypothesis (Hbs : (0 < bs0)%nat) (Hbs' : (0 < bs0')%nat).
  Hypothesis (PU : ph_universal ph = None) (PE : ph_extra ph = None) (PU' : ph_universal ph' = None) (PE' : ph_extra ph' = None).
  Hypothesis (EB : build dim nq nfq det inv norm [f] vw ph vars bnd vj sj xv xs = Some pb).
  Hypothesis (EB' : build dim nq nfq det inv norm [f'] vw ph' vars bnd' vj' sj' xv' xs' = Some pb').
  Hypothesis (U : unity K dim f).
  Hypothesis (UF : forall b c g q e, In b bnd -> In (c, g) (bd_inds b) -> e < dim -> Sum (fe_nn f) (fun n => fe_fsgref f g q n e) = 0).
  Hypothesis (SV : forall q, q < nq -> Sum (fe_nn f) (fe_sv f q) = 1).
  Hypothesis (SF : forall b c g q, In b bnd -> In (c, g) (bd_inds b) -> q < nfq -> Sum (fe_nn f) (fe_fsv f g q) = 1).
  Hypothesis (IV : forall c q, c < length (fe_cells f) -> q < nq -> inverts dim inv (jac dim f c q) /\ inverts dim inv (jac dim f' c q)).
  Hypothesis (IF : forall b c g q, In b bnd -> In (c, g) (bd_inds b) -> q < nfq -> inverts dim inv (face_jac dim f c g q) /\ inverts dim inv (face_jac dim f' c g q)).
  Hypothesis (MV : forall a k, a < length (fe_points f) -> k < m -> get u' (a * m + k) = la * turn m C (fun j => get u (a * m + j)) k).
  Hypothesis (RT : both (sim_tensor dim si Q m C la mu) (stress_hook ph) (stress_hook ph')).
  Hypothesis (RM : both (sim_load dim s Q t m C la (mu * si)) (ph_mass ph) (ph_mass ph')).
  Hypothesis (RB : Forall2 (fun b b' => bd_inds b' = bd_inds b /\ bd_vars b' = bd_vars b /\ bp_universal (bd_ph b) = None /\ bp_universal (bd_ph b') = None /\
                                        both (sim_load dim s Q t m C la mu) (bp_map (bd_ph b)) (bp_map (bd_ph b'))) bnd bnd').

  Lemma WF' : wf_fes [f'].
  Proof using WF.
    intros g [<-|[]]. destruct (WF f (or_introl eq_refl)) as [A B]. split; [exact A|]. intros c Hc. destruct (B c Hc) as [B1 B2]. split; [exact B1|].
    intros n Hn. cbn [fe_points sim_mesh]. rewrite map_length. apply B2. exact Hn.
  Qed.
  Lemma PB : forall b, In b bnd -> bp_universal (bd_ph b) = None.
  Proof using RB. intros b Hb. clear - RB Hb. induction RB as [|x y l l' (_ & _ & A & _) R IH]; [destruct Hb|]. destruct Hb as [<-|Hb]; [exact A|]. apply IH; assumption. Qed.
  Lemma PB' : forall b, In b bnd' -> bp_universal (bd_ph b) = None.
  Proof using RB. intros b Hb. clear - RB Hb. induction RB as [|x y l l' (_ & _ & _ & A & _) R IH]; [destruct Hb|]. destruct Hb as [<-|Hb]; [exact A|]. apply IH; assumption. Qed.
  Lemma WB' : forall b, In b bnd' -> wf_bdata [f'] b.
  Proof using RB WB.
    intros b Hb. clear - RB WB Hb. induction RB as [|x y l l' (A1 & A2 & _) R IH]; [destruct Hb|]. destruct Hb as [<-|Hb].
    - destruct (WB x (or_introl eq_refl)) as [B1 B2]. unfold wf_bdata. rewrite A1, A2. split; [exact B1|exact B2].
    - apply IH; [intros z Hz; apply WB; right; exact Hz|exact R|exact Hb].
  Qed.
  Lemma nodal_sim (v : list K) c n k : nodal [f'] 0 v c n k = nodal [f] 0 v c n k.
  Proof using. rewrite !nodal1. reflexivity. Qed.
  Lemma interp_sim (w : nat -> K) c k : c < length (fe_cells f) -> k < m ->
    Sum (fe_nn f) (fun n => w n * nodal [f'] 0 u' c n k) = la * turn m C (fun j => Sum (fe_nn f) (fun n => w n * nodal [f] 0 u c n j)) k.
  Proof using WF MV.
    intros Hc Hk. rewrite (Sum_ext K _ _ (fun n => la * (w n * turn m C (fun j => nodal [f] 0 u c n j) k))).
    - rewrite Sum_mul_l. f_equal. unfold turn. rewrite (Sum_ext K _ _ (fun n => Sum m (fun j => C k j * (w n * nodal [f] 0 u c n j)))) by (intros; rewrite <- Sum_mul_l; apply Sum_ext; intros; ring).
      rewrite Sum_swap. apply Sum_ext. intros j Hj. apply Sum_mul_l.
    - intros n Hn. rewrite nodal_sim, nodal1, MV by (try exact Hk; apply node_bound; assumption).
      rewrite (turn_ext K m C (fun j => get u (node_of f c n * m + j)) (fun j => nodal [f] 0 u c n j)) by (intros j Hj; rewrite nodal1; reflexivity). ring.
  Qed.
  Lemma value_sim (w : nat -> K) c : c < length (fe_cells f) ->
    tab m (fun k => Sum (fe_nn f) (fun n => w n * nodal [f'] 0 u' c n k)) = sim_value m C la (tab m (fun k => Sum (fe_nn f) (fun n => w n * nodal [f] 0 u c n k))).
  Proof using WF MV.
    intros Hc. unfold sim_value. apply tab_ext. intros k Hk. rewrite interp_sim by assumption. f_equal. apply turn_ext. intros j Hj. rewrite get_tab by exact Hj. reflexivity.
  Qed.
  (** Gradient of any field on the similar mesh. *)
  Lemma grad_row (v : list K) c q k d : c < length (fe_cells f) -> q < nq -> k < m -> d < dim ->
    Sum (fe_nn f) (fun n => shape_grad dim inv f' c q n d * nodal [f'] 0 v c n k) = si * turn dim Q (fun e => Sum (fe_nn f) (fun n => shape_grad dim inv f c q n e * nodal [f'] 0 v c n k)) d.
  Proof using SI OQ WF U IV.
    intros Hc Hq Hk Hd. destruct (IV c q Hc Hq) as [I I'].
    rewrite (Sum_ext K _ _ (fun n => si * (nodal [f'] 0 v c n k * turn dim Q (shape_grad dim inv f c q n) d))).
    - rewrite Sum_mul_l. f_equal. etransitivity; [exact (turn_row K dim (fe_nn f) Q (fun n => nodal [f'] 0 v c n k) (fun n j => shape_grad dim inv f c q n j) d)|]. apply turn_ext. intros j Hj. apply Sum_ext. intros; ring.
    - intros n Hn. rewrite (shape_grad_sim K dim s si Q t f inv SI OQ WF c q n d U Hc I I' Hd). ring.
  Qed.
  Lemma grad_sim c q : c < length (fe_cells f) -> q < nq -> grad_at dim inv [f'] 0 u' c q = sim_grad dim si Q m C la (grad_at dim inv [f] 0 u c q).
  Proof using SI OQ WF U IV MV.
    intros Hc Hq. unfold grad_at at 1, sim_grad. cbn [fe_at nth fe_vec fe_nn sim_mesh]. apply tab_ext. intros k Hk. apply tab_ext. intros d Hd.
    rewrite grad_row by assumption.
    rewrite (turn_ext K dim Q _ (fun e => la * turn m C (fun j => get2 (grad_at dim inv [f] 0 u c q) j e) k)).
    - unfold turn at 1. rewrite (Sum_ext K dim _ (fun e => la * (Q d e * turn m C (fun j => get2 (grad_at dim inv [f] 0 u c q) j e) k))) by (intros; ring). rewrite Sum_mul_l. unfold turn. ring.
    - intros e He. rewrite (interp_sim (fun n => shape_grad dim inv f c q n e)) by assumption. f_equal. apply turn_ext. intros j Hj. unfold grad_at. cbn [fe_at nth]. rewrite (get2_tab K _ dim) by assumption. reflexivity.
  Qed.
  Lemma load_dot (w : nat -> K) (mu0 : K) (g g' : list K) v c : (forall k, k < m -> get g' k = mu0 * turn m C (get g) k) -> c < length (fe_cells f) ->
    Sum m (fun k => get g' k * get (tab m (fun k => Sum (fe_nn f) (fun n => w n * nodal [f'] 0 v c n k))) k) =
    mu0 * Sum m (fun k => get g k * get (tab m (fun k => Sum (fe_nn f) (fun n => w n * nodal [f] 0 (turned K C f v) c n k))) k).
  Proof using WF.
    intros H Hc. rewrite (Sum_ext K _ _ (fun k => mu0 * (turn m C (get g) k * Sum (fe_nn f) (fun n => w n * nodal [f] 0 v c n k)))).
    - rewrite Sum_mul_l. f_equal. rewrite (turn_work K C). apply Sum_ext. intros j Hj. rewrite get_tab by exact Hj. rewrite (interp_turned K C f WF) by assumption. reflexivity.
    - intros k Hk. rewrite H, get_tab by exact Hk. rewrite (Sum_ext K (fe_nn f) (fun n => w n * nodal [f'] 0 v c n k) (fun n => w n * nodal [f] 0 v c n k)) by (intros; rewrite nodal_sim; reflexivity). ring.
  Qed.
  Lemma sim_work v : virtual_work (pr_n pb') v (get_res pb' bs0' u') = (sd * si * mu) * virtual_work (pr_n pb) (turned K C f v) (get_res pb bs0 u).
  Proof using SI OQ DS NS WF WB TJ TS TJ' TS' Hbs Hbs' PU PE PU' PE' EB EB' U UF SV SF IV IF MV RT RM RB.
    rewrite (work_terms K dim nq nfq det inv norm V W f vw ph vars bnd vj sj xv xs pb bs0 WF WB TJ TS Hbs PU PE PB EB).
    rewrite (work_terms K dim nq nfq det inv norm V W f' vw ph' vars bnd' vj' sj' xv' xs' pb' bs0' WF' WB' TJ' TS' Hbs' PU' PE' PB' EB').
    fold (stress_hook ph). fold (stress_hook ph').
    assert (T1 : opt_term (ph_mass ph') (fun mm => mass_volume dim nq det [f'] mm vars u' v) = sd * si * mu * opt_term (ph_mass ph) (fun mm => mass_volume dim nq det [f] mm vars u (turned K C f v))).
    { clear RT RB. destruct (ph_mass ph) as [mm|], (ph_mass ph') as [mm'|]; cbn [both opt_term] in *; try contradiction; [|ring].
      unfold mass_volume, over_cells. rewrite <- Sum_mul_l. apply Sum_ext. intros c Hc. rewrite <- Sum_mul_l. apply Sum_ext. intros q Hq.
      change (num_cells [f']) with (length (fe_cells f)) in Hc. change (fe_at [f'] 0) with f'. change (fe_at [f] 0) with f. rewrite (JxW_sim K dim s Q t f det sd WF c q DS U Hc).
      unfold dot1. unfold field_at. change (fe_at [f'] 0) with f'. change (fe_at [f] 0) with f. cbv zeta. cbn [fe_vec fe_nn fe_sv sim_mesh].
      unfold quad_point. cbn [fe_nn fe_sv sim_mesh]. rewrite (point_sim K dim s Q t f WF (fe_sv f q) c (SV q Hq) Hc). rewrite (value_sim (fe_sv f q) c Hc).
      rewrite (load_dot (fe_sv f q) (mu * si) (mm (tab m (fun k => Sum (fe_nn f) (fun n => fe_sv f q n * nodal [f] 0 u c n k))) (tab dim (fun i => Sum (fe_nn f) (fun n => fe_sv f q n * coo f c n i))) (vars c q))); [ring| |exact Hc].
      intros k Hk. apply RM. exact Hk. }
    assert (T2 : opt_term (stress_hook ph') (fun tm => tensor_volume dim nq det inv [f'] tm vars u' v) = sd * si * mu * opt_term (stress_hook ph) (fun tm => tensor_volume dim nq det inv [f] tm vars u (turned K C f v))).
    { clear RM RB T1. destruct (stress_hook ph) as [tm|], (stress_hook ph') as [tm'|]; cbn [both opt_term] in *; try contradiction; [|ring].
      unfold tensor_volume, over_cells. rewrite <- Sum_mul_l. apply Sum_ext. intros c Hc. rewrite <- Sum_mul_l. apply Sum_ext. intros q Hq.
      change (num_cells [f']) with (length (fe_cells f)) in Hc. change (fe_at [f'] 0) with f'. change (fe_at [f] 0) with f. rewrite (JxW_sim K dim s Q t f det sd WF c q DS U Hc).
      rewrite (grad_sim c q Hc Hq). cbn [fe_vec sim_mesh]. unfold dot2. set (T := tm (grad_at dim inv [f] 0 u c q) (vars c q)).
      assert (E : Sum m (fun k => Sum dim (fun d => get2 (tm' (sim_grad dim si Q m C la (grad_at dim inv [f] 0 u c q)) (vars c q)) k d * get2 (grad_at dim inv [f'] 0 v c q) k d)) =
                  mu * si * Sum m (fun k => Sum dim (fun e => turn m C (fun j => get2 T j e) k * Sum (fe_nn f) (fun n => shape_grad dim inv f c q n e * nodal [f] 0 v c n k)))).
      { rewrite <- Sum_mul_l. apply Sum_ext. intros k Hk.
        rewrite <- (orth_dot K dim Q OQ (fun e => turn m C (fun j => get2 T j e) k)). rewrite <- Sum_mul_l. apply Sum_ext. intros d Hd.
        rewrite (RT _ _ k d Hk Hd). fold T. unfold grad_at at 1. change (fe_at [f'] 0) with f'. cbv zeta. cbn [fe_vec fe_nn sim_mesh]. rewrite (get2_tab K _ dim) by assumption. rewrite grad_row by assumption.
        rewrite (turn_ext K dim Q (fun e => Sum (fe_nn f) (fun n => shape_grad dim inv f c q n e * nodal [f'] 0 v c n k)) (fun e => Sum (fe_nn f) (fun n => shape_grad dim inv f c q n e * nodal [f] 0 v c n k)))
          by (intros e He; apply Sum_ext; intros; rewrite nodal_sim; reflexivity). ring. }
      rewrite E. rewrite Sum_swap.
      rewrite (Sum_ext K dim _ (fun e => Sum m (fun j => get2 T j e * get2 (grad_at dim inv [f] 0 (turned K C f v) c q) j e))).
      - rewrite Sum_swap. ring.
      - intros e He. rewrite (turn_work K C m (fun j => get2 T j e) (fun k => Sum (fe_nn f) (fun n => shape_grad dim inv f c q n e * nodal [f] 0 v c n k))).
        apply Sum_ext. intros j Hj. unfold grad_at. cbn [fe_at nth]. rewrite (get2_tab K _ dim) by assumption. rewrite (interp_turned K C f WF) by assumption. reflexivity. }
    assert (T3 : sumf (fun b => opt_term (bp_map (bd_ph b)) (fun sm => map_surface dim nfq det inv norm [f'] sm b u' v)) bnd' =
                 sd * si * mu * sumf (fun b => opt_term (bp_map (bd_ph b)) (fun sm => map_surface dim nfq det inv norm [f] sm b u (turned K C f v))) bnd).
    { clear RT RM T1 T2. clear EB EB'. induction RB as [|b b' l l' (A1 & A2 & _ & _ & A3) R IH]; [cbn; ring|]. cbn [sumf map fold_right].
      assert (IH' := IH (fun b Hb => WB b (or_intror Hb)) (fun b c g q e Hb => UF b c g q e (or_intror Hb)) (fun b c g q Hb => SF b c g q (or_intror Hb)) (fun b c g q Hb => IF b c g q (or_intror Hb)) R). clear IH.
      change (sumf (fun b => opt_term (bp_map (bd_ph b)) (fun sm => map_surface dim nfq det inv norm [f'] sm b u' v)) (b' :: l')) with
        (opt_term (bp_map (bd_ph b')) (fun sm => map_surface dim nfq det inv norm [f'] sm b' u' v) + sumf (fun b => opt_term (bp_map (bd_ph b)) (fun sm => map_surface dim nfq det inv norm [f'] sm b u' v)) l').
      change (sumf (fun b => opt_term (bp_map (bd_ph b)) (fun sm => map_surface dim nfq det inv norm [f] sm b u (turned K C f v))) (b :: l)) with
        (opt_term (bp_map (bd_ph b)) (fun sm => map_surface dim nfq det inv norm [f] sm b u (turned K C f v)) + sumf (fun b => opt_term (bp_map (bd_ph b)) (fun sm => map_surface dim nfq det inv norm [f] sm b u (turned K C f v))) l).
      rewrite IH'.
      assert (X : opt_term (bp_map (bd_ph b')) (fun sm => map_surface dim nfq det inv norm [f'] sm b' u' v) = sd * si * mu * opt_term (bp_map (bd_ph b)) (fun sm => map_surface dim nfq det inv norm [f] sm b u (turned K C f v))); [|rewrite X; ring].
      destruct (bp_map (bd_ph b)) as [sm|], (bp_map (bd_ph b')) as [sm'|]; cbn [both opt_term] in *; try contradiction; [|ring].
      unfold map_surface, over_faces. rewrite A1, A2. rewrite <- sumf_mul_l. apply sumf_ext. intros [[c g] x] Hin. cbn [fst snd].
      assert (Hin' : In (c, g) (bd_inds b)) by (apply in_combine_l in Hin; exact Hin).
      assert (Hc : c < length (fe_cells f)) by (apply (proj2 (WB b (or_introl eq_refl)) (c, g)); exact Hin').
      rewrite <- Sum_mul_l. apply Sum_ext. intros q Hq. change (fe_at [f'] 0) with f'. change (fe_at [f] 0) with f. destruct (IF b c g q (or_introl eq_refl) Hin' Hq) as [I I'].
      rewrite (nanson_sim K dim s si Q t f det inv norm sd SI OQ WF c g q DS NS (fun e => UF b c g q e (or_introl eq_refl) Hin') Hc I I').
      unfold dot1. unfold face_field_at. change (fe_at [f'] 0) with f'. change (fe_at [f] 0) with f. cbv zeta. cbn [fe_vec fe_nn fe_fsv sim_mesh].
      unfold face_point. cbn [fe_nn fe_fsv sim_mesh]. rewrite (point_sim K dim s Q t f WF (fe_fsv f g q) c (SF b c g q (or_introl eq_refl) Hin' Hq) Hc). rewrite (value_sim (fe_fsv f g q) c Hc).
      rewrite (load_dot (fe_fsv f g q) mu (sm (tab m (fun k => Sum (fe_nn f) (fun n => fe_fsv f g q n * nodal [f] 0 u c n k))) (tab dim (fun i => Sum (fe_nn f) (fun n => fe_fsv f g q n * coo f c n i))) (x q))); [ring| |exact Hc].
      intros k Hk. apply A3. exact Hk. }
    rewrite T1, T2, T3. ring.
  Qed.
  Lemma sim_res a k : a < length (fe_points f) -> k < m ->
    get (get_res pb' bs0' u') (a * m + k) = (sd * si * mu) * turn m C (fun j => get (get_res pb bs0 u) (a * m + j)) k.
  Proof using SI OQ DS NS WF WB TJ TS TJ' TS' Hbs Hbs' PU PE PU' PE' EB EB' U UF SV SF IV IF MV RT RM RB.
    intros Ha Hk.
    assert (ND := ndofs K dim nq nfq det inv norm V W f vw ph vars bnd vj sj xv xs pb bs0 WF WB TJ TS Hbs PU PE PB EB).
    assert (ND' := ndofs K dim nq nfq det inv norm V W f' vw ph' vars bnd' vj' sj' xv' xs' pb' bs0' WF' WB' TJ' TS' Hbs' PU' PE' PB' EB').
    cbn [fe_points fe_vec sim_mesh] in ND'. rewrite map_length in ND'.
    rewrite <- (unit_work K (pr_n pb')) by (rewrite ND'; nia). rewrite sim_work. f_equal. unfold virtual_work. rewrite ND, ND'.
    rewrite (Sum_blocks K).
    rewrite (Sum_ext K _ _ (fun b => if (b =? a)%nat then turn m C (fun j => get (get_res pb bs0 u) (b * m + j)) k else 0)); [exact (Sum_single K _ a (fun b => turn m C (fun j => get (get_res pb bs0 u) (b * m + j)) k) Ha)|].
    intros b Hb.
    assert (E : forall j, j < m -> get (turned K C f (tab (length (fe_points f) * m) (fun i => if (i =? a * m + k)%nat then 1 else 0))) (b * m + j) = if (b =? a)%nat then C k j else 0).
    { intros j Hj. rewrite (get_turned K C f) by assumption.
      rewrite (Sum_ext K _ _ (fun i => if (i =? k)%nat then (if (b =? a)%nat then C i j else 0) else 0)); [rewrite (Sum_single K _ k (fun i => if (b =? a)%nat then C i j else 0)) by exact Hk; reflexivity|].
      intros i Hi. rewrite get_tab by nia.
      destruct (Nat.eqb_spec b a) as [->|Nb], (Nat.eqb_spec i k) as [->|Ni].
      - rewrite Nat.eqb_refl. ring.
      - destruct (Nat.eqb_spec (a * m + i) (a * m + k)); [lia|ring].
      - destruct (Nat.eqb_spec (b * m + k) (a * m + k)); [nia|ring].
      - destruct (Nat.eqb_spec (b * m + i) (a * m + k)) as [X|]; [|ring].
        exfalso. apply Nb. assert (Y : ((b * m + i) / m = (a * m + k) / m)%nat) by (rewrite X; reflexivity).
        rewrite !Nat.div_add_l, !Nat.div_small in Y by lia. lia. }
    rewrite (Sum_ext K _ _ (fun j => (if (b =? a)%nat then C k j else 0) * get (get_res pb bs0 u) (b * m + j))) by (intros j Hj; rewrite E by exact Hj; reflexivity).
    destruct (b =? a)%nat; [reflexivity|]. apply Sum_zero. intros j Hj. ring.
  Qed.
End Work.

Lemma one_mul_1 (K : CRing) (a : K) : cmul c1 a = a. Proof. apply (Rmul_1_l (cth K)). Qed.
Lemma one_mul_0 (K : CRing) (a : K) : cmul c0 a = c0. Proof. apply (zero_mul K). Qed.
(** ** Theorems *)
(** Two problems on similar meshes (nodes [x] and [s Q x + t], [Q] orthogonal, same cells, element tables and coefficients). *)
Record similar_problems (K : CRing) dim nq nfq (det : list (list K) -> K) (inv : list (list K) -> list (list K)) norm (V W : Type) (f : fe K) vw (ph ph' : physics K V) vars (bnd bnd' : list (bdata K W))
    vj vj' sj sj' xv xv' xs xs' pb pb' (s si sd la mu : K) (Q C : nat -> nat -> K) t : Prop := {
  sp_scale : cmul s si = c1;
  sp_orth : orthogonal dim Q;
  sp_det : det_scales dim s Q det sd;
  sp_norm : norm_scales dim si Q norm;
  sp_wf : wf_fes [f] /\ (forall b, In b bnd -> wf_bdata [f] b);
  sp_tan : (forall u x, length (vj u x) = num_local [f] * num_local [f]) /\ (forall u x, length (sj u x) = num_local [f] * num_local [f]) /\
           (forall u x, length (vj' u x) = num_local [f] * num_local [f]) /\ (forall u x, length (sj' u x) = num_local [f] * num_local [f]);
  sp_hooks : ph_universal ph = None /\ ph_extra ph = None /\ ph_universal ph' = None /\ ph_extra ph' = None;
  sp_build : build dim nq nfq det inv norm [f] vw ph vars bnd vj sj xv xs = Some pb;
  sp_build' : build dim nq nfq det inv norm [sim_mesh dim s Q t f] vw ph' vars bnd' vj' sj' xv' xs' = Some pb';
  (* shape functions sum to one, in the cells and on the loaded faces *)
  sp_unity : unity K dim f /\ (forall q, q < nq -> Sum (fe_nn f) (fe_sv f q) = c1);
  sp_funity : (forall b c g q e, In b bnd -> In (c, g) (bd_inds b) -> e < dim -> Sum (fe_nn f) (fun n => fe_fsgref f g q n e) = c0) /\
              (forall b c g q, In b bnd -> In (c, g) (bd_inds b) -> q < nfq -> Sum (fe_nn f) (fe_fsv f g q) = c1);
  (* the element maps of both meshes are invertible *)
  sp_inv : forall c q, c < length (fe_cells f) -> q < nq -> inverts dim inv (jac dim f c q) /\ inverts dim inv (jac dim (sim_mesh dim s Q t f) c q);
  sp_finv : forall b c g q, In b bnd -> In (c, g) (bd_inds b) -> q < nfq -> inverts dim inv (face_jac dim f c g q) /\ inverts dim inv (face_jac dim (sim_mesh dim s Q t f) c g q);
  (* the stress at the similar gradient is [mu] times the turned stress; tractions scale like stresses, body loads like stress per length *)
  sp_stress : both (sim_tensor dim si Q (fe_vec f) C la mu) (stress_hook ph) (stress_hook ph');
  sp_body : both (sim_load dim s Q t (fe_vec f) C la (cmul mu si)) (ph_mass ph) (ph_mass ph');
  sp_faces : Forall2 (fun b b' => bd_inds b' = bd_inds b /\ bd_vars b' = bd_vars b /\ bp_universal (bd_ph b) = None /\ bp_universal (bd_ph b') = None /\
                                  both (sim_load dim s Q t (fe_vec f) C la mu) (bp_map (bd_ph b)) (bp_map (bd_ph b'))) bnd bnd' }.

(** The nodal forces of the similar body under the similar field [la C u] are the forces of the body, turned by [C] and multiplied by
    [sd si mu]: with [sd = s^dim] this is stress ratio times [s^(dim-1)], the ratio of areas. *)
Theorem C126_forces :
  forall (K : CRing) dim nq nfq det inv norm (V W : Type) (f : fe K) vw (ph ph' : physics K V) vars (bnd bnd' : list (bdata K W)) vj vj' sj sj' xv xv' xs xs' pb pb' s si sd la mu Q C t bs0 bs0' (u u' : list K),
  similar_problems K dim nq nfq det inv norm V W f vw ph ph' vars bnd bnd' vj vj' sj sj' xv xv' xs xs' pb pb' s si sd la mu Q C t ->
  0 < bs0 -> 0 < bs0' ->
  (forall a k, a < length (fe_points f) -> k < fe_vec f -> get u' (a * fe_vec f + k) = cmul la (turn (fe_vec f) C (fun j => get u (a * fe_vec f + j)) k)) ->
  forall a k, a < length (fe_points f) -> k < fe_vec f ->
  get (get_res pb' bs0' u') (a * fe_vec f + k) = cmul (cmul (cmul sd si) mu) (turn (fe_vec f) C (fun j => get (get_res pb bs0 u) (a * fe_vec f + j)) k).
Proof.
  intros K dim nq nfq det inv norm V W f vw ph ph' vars bnd bnd' vj vj' sj sj' xv xv' xs xs' pb pb' s si sd la mu Q C t bs0 bs0' u u' H Hbs Hbs' MV a k Ha Hk.
  destruct H as [H1 H2 H3 H4 [H5 H6] (H7 & H8 & H9 & H10) (H11 & H12 & H13 & H14) H15 H16 [H17 H18] [H19 H20] H21 H22 H23 H24 H25].
  eapply (sim_res K dim nq nfq det inv norm V W f vw ph ph' vars bnd bnd' vj vj' sj sj' xv xv' xs xs' pb pb' bs0 bs0' s si sd la mu Q C t u u'); eassumption.
Qed.
Print Assumptions C126_forces.

(** The same in other units ([Q] and [C] the identity, so only lengths, values and stresses are rescaled): the residual vector is multiplied by one factor,
    and [u] is in equilibrium exactly if the rescaled field is. *)
Theorem C126_units :
  forall (K : CRing) dim nq nfq det inv norm (V W : Type) (f : fe K) vw (ph ph' : physics K V) vars (bnd bnd' : list (bdata K W)) vj vj' sj sj' xv xv' xs xs' pb pb' s si sd la mu t bs0 bs0' (u u' : list K) rows w,
  similar_problems K dim nq nfq det inv norm V W f vw ph ph' vars bnd bnd' vj vj' sj sj' xv xv' xs xs' pb pb' s si sd la mu delta delta t ->
  0 < bs0 -> 0 < bs0' ->
  (forall i, i < pr_n pb -> get u' i = cmul la (get u i)) ->
  (* the factor is invertible *)
  cmul w (cmul (cmul sd si) mu) = c1 ->
  pr_n pb' = pr_n pb /\ (forall i, i < pr_n pb -> get (get_res pb' bs0' u') i = cmul (cmul (cmul sd si) mu) (get (get_res pb bs0 u) i)) /\
  (equilibrium (pr_n pb) rows (get_res pb bs0 u) <-> equilibrium (pr_n pb') rows (get_res pb' bs0' u')).
Proof.
  intros K dim nq nfq det inv norm V W f vw ph ph' vars bnd bnd' vj vj' sj sj' xv xv' xs xs' pb pb' s si sd la mu t bs0 bs0' u u' rows w H Hbs Hbs' MV WI.
  assert (TD : forall (g : nat -> K) k, k < fe_vec f -> turn (fe_vec f) delta g k = g k).
  { intros g k Hk. unfold turn, delta. rewrite (Sum_ext K _ _ (fun j => if (j =? k)%nat then g j else c0)); [apply Sum_single; exact Hk|].
    intros j Hj. rewrite (Nat.eqb_sym k j). destruct (j =? k)%nat; [apply one_mul_1|apply one_mul_0]. }
  pose proof (C126_forces K dim nq nfq det inv norm V W f vw ph ph' vars bnd bnd' vj vj' sj sj' xv xv' xs xs' pb pb' s si sd la mu delta delta t bs0 bs0' u u' H Hbs Hbs') as F.
  destruct H as [H1 H2 H3 H4 [H5 H6] (H7 & H8 & H9 & H10) (H11 & H12 & H13 & H14) H15 H16 [H17 H18] [H19 H20] H21 H22 H23 H24 H25].
  assert (PBn : forall b, In b bnd -> bp_universal (bd_ph b) = None) by (eapply (PB K dim W f bnd bnd' s la mu delta delta t); eassumption).
  assert (PBn' : forall b, In b bnd' -> bp_universal (bd_ph b) = None) by (eapply (PB' K dim W f bnd bnd' s la mu delta delta t); eassumption).
  assert (ND := ndofs K dim nq nfq det inv norm V W f vw ph vars bnd vj sj xv xs pb bs0 H5 H6 H7 H8 Hbs H11 H12 PBn H15).
  assert (ND' := ndofs K dim nq nfq det inv norm V W (sim_mesh dim s delta t f) vw ph' vars bnd' vj' sj' xv' xs' pb' bs0' (WF' K dim f s delta t H5)
     (WB' K dim W f bnd bnd' s la mu delta delta t H6 H25) H9 H10 Hbs' H13 H14 PBn' H16).
  cbn [fe_points fe_vec sim_mesh] in ND'. rewrite map_length in ND'.
  assert (SP : forall i, i < pr_n pb -> exists a k, a < length (fe_points f) /\ k < fe_vec f /\ i = (a * fe_vec f + k)%nat).
  { intros i Hi. rewrite ND in Hi. assert (V0 : fe_vec f <> 0) by (intros X; rewrite X in Hi; lia). exists (i / fe_vec f), (i mod fe_vec f).
    split; [apply Nat.div_lt_upper_bound; lia|]. split; [apply Nat.mod_upper_bound; exact V0|]. rewrite Nat.mul_comm. apply Nat.div_mod. exact V0. }
  assert (RE : forall i, i < pr_n pb -> get (get_res pb' bs0' u') i = cmul (cmul (cmul sd si) mu) (get (get_res pb bs0 u) i)).
  { intros i Hi. destruct (SP i Hi) as (a & k & Ha & Hk & ->). rewrite F by (try assumption; intros b j Hb Hj; rewrite TD by exact Hj; apply MV; rewrite ND; nia). rewrite TD by exact Hk. reflexivity. }
  split; [congruence|]. split; [exact RE|]. unfold equilibrium. rewrite ND', <- ND. split; intros E i Hi Ni.
  - rewrite RE by exact Hi. rewrite (E i Hi Ni). apply (mul_zero K).
  - pose proof (E i Hi Ni) as E0. rewrite RE in E0 by exact Hi.
    transitivity (cmul (cmul w (cmul (cmul sd si) mu)) (get (get_res pb bs0 u) i)); [rewrite WI; symmetry; apply one_mul_1|].
    rewrite (mul_assoc K), E0. apply (mul_zero K).
Qed.
Print Assumptions C126_units.

(** ** Concrete case: the two-material laminate of Homog_Props with a body force along x, doubled in size, turned by a quarter and moved to (5, -7);
    the displacements are twice the turned ones, so strains and stresses are the turned ones and forces double. *)
From Verif Require Import Homog_Props.
From Coq Require Import QArith Qcanon.
Local Close Scope Qc_scope. Local Close Scope Q_scope. Local Open Scope nat_scope.
Definition sm_Q (i j : nat) : QcR := nth j (nth i [[qc 0; qc (-1)]; [qc 1; qc 0]] []) (qc 0).
Definition sm_t (i : nat) : QcR := nth i [qc 5; qc (-7)] (qc 0).
Definition sm_load (b : list QcR) : list QcR -> list QcR -> QcR -> list QcR := fun _ _ _ => b.
Definition sm_ph (b : list QcR) : physics QcR QcR := Build_physics QcR QcR None None (Some (sm_load b)) (Some lam_tm) None None.
Definition sm_fe' : fe QcR := sim_mesh 2 (qc 2) sm_Q sm_t lam_fe.
Definition sm_build (f : fe QcR) (b : list QcR) :=
  build 2 1 1 lam_det lam_inv (fun _ => c0) [f] FULL (sm_ph b) lam_vars (@nil (bdata QcR QcR)) lam_vj lam_sj lam_xv lam_xs.
Definition sm_pb (f : fe QcR) (b : list QcR) : problem QcR (vinp QcR QcR) (finp QcR QcR) := match sm_build f b with Some p => p | None => lam_pb end.
Definition sm_b : list QcR := [qc 6; qc 0].
Definition sm_b' : list QcR := [qc 0; qc 3].
Definition sm_u : list QcR := map qc [0; 0; 1; 2; 0; 3; 0; 0; 1; 0; 4; 0]%Z.
(** [2 Q u] node by node. *)
Definition sm_u' : list QcR := map qc [0; 0; -4; 2; -6; 0; 0; 0; 0; 2; 0; 8]%Z.
Local Ltac qring := match goal with |- @eq _ ?l ?r => change (@eq Qc l r) end; ring.
Lemma sm_turn (g : nat -> QcR) : turn 2 sm_Q g 0 = copp (g 1) /\ turn 2 sm_Q g 1 = g 0.
Proof. unfold turn. change (Sum (K := QcR) 2) with (Sum (K := QcR) 2). unfold Sum. cbn [seq map sumf fold_right sm_Q nth]. split; cbn [sumf fold_right]; change (qc 0) with (Q2Qc 0); change (qc 1) with (Q2Qc 1); change (qc (-1)) with (Qcopp (Q2Qc 1)); cbn [cadd cmul copp c0 QcR]; qring. Qed.
Example C126_example :
  similar_problems QcR 2 1 1 lam_det lam_inv (fun _ => c0) QcR QcR lam_fe FULL (sm_ph sm_b) (sm_ph sm_b') lam_vars [] [] lam_vj lam_vj lam_sj lam_sj lam_xv lam_xv lam_xs lam_xs
    (sm_pb lam_fe sm_b) (sm_pb sm_fe' sm_b') (qc 2) qhalf (qc 4) (qc 2) (qc 1) sm_Q sm_Q sm_t /\
  (forall a k, a < 6 -> k < 2 -> get sm_u' (a * 2 + k) = cmul (qc 2) (turn 2 sm_Q (fun j => get sm_u (a * 2 + j)) k)) /\
  map this (get_res (sm_pb lam_fe sm_b) 1 sm_u) = [3 # 2; -3 # 2; 23 # 2; 1 # 2; -31 # 2; 45 # 2; -1 # 2; 1 # 2; -5; -7; 20; -15]%Q /\
  map this (get_res (sm_pb sm_fe' sm_b') 1 sm_u') = [3; 3; -1; 23; -45; -31; -1; -1; 14; -10; 30; 40]%Q.
Proof.
  split; [constructor|].
  - apply Qc_is_canon; vm_compute; reflexivity.
  - intros i j Hi Hj. destruct i as [|[|i]]; try lia; destruct j as [|[|j]]; try lia; apply Qc_is_canon; vm_compute; reflexivity.
  - intros M. unfold lam_det. rewrite !(get2_tab QcR 2 2) by lia.
    rewrite !(proj1 (sm_turn _)), !(proj2 (sm_turn _)). change (qc 4) with (Qcmult (qc 2) (qc 2)). cbn [cadd cmul copp csub c0 c1 QcR]. qring.
  - intros v. cbn. qring.
  - split; [|intros b []]. intros g [<-|[]]. split; [reflexivity|]. intros c [<-|[<-|[<-|[<-|[]]]]]; (split; [reflexivity|]); cbn; intros n Hn; lia.
  - repeat split; reflexivity.
  - repeat split.
  - reflexivity.
  - reflexivity.
  - split; [exact (proj1 (proj2 (proj2 (proj2 lam_sound))))|]. intros q _. apply Qc_is_canon; vm_compute; reflexivity.
  - split; intros b c g q; [intros e|]; intros [].
  - intros c q Hc Hq. cbn in Hc. split; intros i j Hi Hj; destruct c as [|[|[|[|c]]]]; try lia; destruct i as [|[|i]]; try lia; destruct j as [|[|j]]; try lia;
      split; apply Qc_is_canon; vm_compute; reflexivity.
  - intros b c g q [].
  - cbn [both stress_hook sm_ph ph_tensor]. intros G y k d Hk Hd. cbn [fe_vec lam_fe] in Hk.
    assert (E : forall i j, i < 2 -> j < 2 -> get2 (sim_grad 2 qhalf sm_Q 2 sm_Q (qc 2) G) i j = turn 2 sm_Q (fun e => turn 2 sm_Q (fun j => get2 G j e) i) j).
    { intros i j Hi Hj. unfold sim_grad. rewrite (get2_tab QcR 2 2) by assumption. assert (O : cmul (qc 2) qhalf = @c1 QcR) by (apply Qc_is_canon; vm_compute; reflexivity). rewrite O. apply one_mul_1. }
    change (fe_vec lam_fe) with 2. unfold lam_tm at 1. rewrite (get2_tab QcR 2 2) by assumption. unfold Sum. cbn [seq map sumf fold_right]. rewrite !E by lia.
    destruct k as [|[|k]]; try lia; destruct d as [|[|d]]; try lia; rewrite !(proj1 (sm_turn _)), ?(proj2 (sm_turn _)), ?(proj1 (sm_turn _)); unfold lam_tm; rewrite ?(get2_tab QcR 2 2) by lia;
      unfold Sum, lam_C, dl; cbn [seq map sumf fold_right Nat.eqb]; change (qc 0) with (Q2Qc 0); change (qc 1) with (Q2Qc 1); cbn [cadd cmul copp csub c0 c1 QcR]; qring.
  - cbn [both sm_ph ph_mass]. intros b x y k Hk. cbn [fe_vec lam_fe] in *. unfold sm_load. destruct k as [|[|k]]; try lia; rewrite ?(proj1 (sm_turn _)), ?(proj2 (sm_turn _)); apply Qc_is_canon; vm_compute; reflexivity.
  - constructor.
  - split; [|split; vm_compute; reflexivity].
    intros a k Ha Hk. destruct a as [|[|[|[|[|[|a]]]]]]; try lia; destruct k as [|[|k]]; try lia; apply Qc_is_canon; vm_compute; reflexivity.
Qed.
