(** C115: superposed rigid motions turn the internal forces with the body (frame indifference of the residual). *)
From Verif Require Import Base Csr_Model Assembly_Model AssemblyMain_Proofs Dof_Model Dof_Spec Dof_Proofs Bc_Model Bc_Proofs Bc_Props
                          Kernel_Model Kernel_Spec Kernel_Proofs Kernel_Props Patch_Props Moment_Props Potential_Props.
From Coq Require Import List Arith Lia ZArith.
Import ListNotations.

(** ** Specification *)
Section Spec.
  Variable K : CRing.
  Local Open Scope ring_K.
  Variables (dim : nat) (Q : nat -> nat -> K).
  Definition delta (i j : nat) : K := if (i =? j)%nat then 1 else 0.
  (** The product of [Q] with a column. *)
  Definition turn (x : nat -> K) (k : nat) : K := Sum dim (fun j => Q k j * x j).
  (** [Q' Q = I]. *)
  Definition orthogonal : Prop := forall i j, i < dim -> j < dim -> Sum dim (fun k => Q k i * Q k j) = delta i j.
  (** Displacement gradient of the moved body: [Q (I + G) - I]. *)
  Definition moved_grad (G : list (list K)) : list (list K) := tab dim (fun k => tab dim (fun d => turn (fun j => delta j d + get2 G j d) k - delta k d)).
  (** Displacement after the rigid motion [y -> Q y + t] of a point at [x] displaced by [a]: [Q (x + a) + t - x]. *)
  Definition moved (t : nat -> K) (x a : list K) : list K := tab dim (fun k => t k + turn (fun j => get x j + get a j) k - get x k).
  Variables (V W : Type).
  (** A stress (first Piola-Kirchhoff) that turns with the body, and loads that do. *)
  Definition objective_stress (tm : tensor_map K V) : Prop :=
    forall G y k d, k < dim -> d < dim -> get2 (tm (moved_grad G) y) k d = turn (fun j => get2 (tm G y) j d) k.
  Definition following (t : nat -> K) (l : list K -> list K -> W -> list K) : Prop :=
    forall x a y k, k < dim -> get (l (moved t x a) x y) k = turn (get (l a x y)) k.
End Spec.
Arguments delta {K}. Arguments turn {K}. Arguments orthogonal {K}. Arguments moved_grad {K}. Arguments moved {K}. Arguments objective_stress {K} dim Q {V}. Arguments following {K} dim Q {W}.

Section Turn.
  Variable K : CRing.
  Add Ring KR115 : (cth K).
  Local Open Scope ring_K.
  Variables (Q : nat -> nat -> K) (f : fe K).
  Lemma nodal1 (u : list K) c n k : nodal [f] 0 u c n k = get u (node_of f c n * fe_vec f + k).
  Proof using. unfold nodal. rewrite dof_single. reflexivity. Qed.
  (** Transposed product at every node. *)
  Definition turned (v : list K) : list K :=
    tab (length (fe_points f) * fe_vec f) (fun i => Sum (fe_vec f) (fun k => Q k (i mod fe_vec f)%nat * get v (i / fe_vec f * fe_vec f + k)%nat)).
  Lemma get_turned v a j : a < length (fe_points f) -> j < fe_vec f -> get (turned v) (a * fe_vec f + j) = Sum (fe_vec f) (fun k => Q k j * get v (a * fe_vec f + k)%nat).
  Proof.
    intros Ha Hj. unfold turned. rewrite get_tab by nia.
    assert (D : ((a * fe_vec f + j) / fe_vec f = a)%nat) by (rewrite Nat.div_add_l, Nat.div_small by lia; lia).
    assert (M : ((a * fe_vec f + j) mod fe_vec f = j)%nat) by (rewrite Nat.add_comm, Nat.mod_add, Nat.mod_small by lia; lia).
    rewrite D, M. reflexivity.
  Qed.
  Hypothesis (WF : wf_fes [f]).
  Lemma interp_turned (w : nat -> K) v c j : c < length (fe_cells f) -> j < fe_vec f ->
    Sum (fe_nn f) (fun n => w n * nodal [f] 0 (turned v) c n j) = Sum (fe_vec f) (fun k => Q k j * Sum (fe_nn f) (fun n => w n * nodal [f] 0 v c n k)).
  Proof using WF.
    intros Hc Hj. transitivity (Sum (fe_nn f) (fun n => Sum (fe_vec f) (fun k => Q k j * (w n * nodal [f] 0 v c n k)))).
    - apply Sum_ext. intros n Hn. rewrite nodal1, get_turned by (try exact Hj; apply node_bound; assumption).
      rewrite <- Sum_mul_l. apply Sum_ext. intros k Hk. rewrite nodal1. ring.
    - rewrite Sum_swap. apply Sum_ext. intros k Hk. apply Sum_mul_l.
  Qed.
  (** The work of a turned array on a field is the work of the array on the field turned back. *)
  Lemma turn_work n (g h : nat -> K) : Sum n (fun k => turn n Q g k * h k) = Sum n (fun j => g j * Sum n (fun k => Q k j * h k)).
  Proof.
    transitivity (Sum n (fun k => Sum n (fun j => Q k j * g j * h k))).
    - apply Sum_ext. intros k Hk. unfold turn. rewrite <- Sum_mul_r. reflexivity.
    - rewrite Sum_swap. apply Sum_ext. intros j Hj. rewrite <- Sum_mul_l. apply Sum_ext. intros k Hk. ring.
  Qed.
  Variables (t : nat -> K) (u u' : list K).
  Hypothesis (MV : forall a k, a < length (fe_points f) -> k < fe_vec f ->
    get u' (a * fe_vec f + k) = t k + turn (fe_vec f) Q (fun j => get2 (fe_points f) a j + get u (a * fe_vec f + j)) k - get2 (fe_points f) a k).
  Lemma interp_moved (w : nat -> K) c k : c < length (fe_cells f) -> k < fe_vec f ->
    Sum (fe_nn f) (fun n => w n * nodal [f] 0 u' c n k) =
    t k * Sum (fe_nn f) w + turn (fe_vec f) Q (fun j => Sum (fe_nn f) (fun n => w n * coo f c n j) + Sum (fe_nn f) (fun n => w n * nodal [f] 0 u c n j)) k - Sum (fe_nn f) (fun n => w n * coo f c n k).
  Proof using WF MV.
    intros Hc Hk.
    transitivity (Sum (fe_nn f) (fun n => t k * w n + Sum (fe_vec f) (fun j => Q k j * (w n * coo f c n j + w n * nodal [f] 0 u c n j)) - w n * coo f c n k)).
    - apply Sum_ext. intros n Hn. rewrite nodal1, MV by (try exact Hk; apply node_bound; assumption).
      unfold turn. assert (E : Sum (fe_vec f) (fun j => Q k j * (w n * coo f c n j + w n * nodal [f] 0 u c n j)) =
          w n * Sum (fe_vec f) (fun j => Q k j * (get2 (fe_points f) (node_of f c n) j + get u (node_of f c n * fe_vec f + j)))).
      { rewrite <- Sum_mul_l. apply Sum_ext. intros j Hj. rewrite nodal1. unfold coo. ring. }
      cbv beta. rewrite E. unfold coo. ring.
    - rewrite Sum_sub, Sum_add, Sum_mul_l. f_equal. f_equal. rewrite Sum_swap. unfold turn. apply Sum_ext. intros j Hj. rewrite Sum_mul_l, Sum_add. reflexivity.
  Qed.
  Lemma grad_moved inv c q : unity K (fe_vec f) f -> inverse_ok K (fe_vec f) inv f c q -> c < length (fe_cells f) ->
    (forall k d, k < fe_vec f -> d < fe_vec f -> Sum (fe_nn f) (fun n => shape_grad (fe_vec f) inv f c q n d * coo f c n k) = delta k d) ->
    grad_at (fe_vec f) inv [f] 0 u' c q = moved_grad (fe_vec f) Q (grad_at (fe_vec f) inv [f] 0 u c q).
  Proof using WF MV.
    intros U IO Hc GC. unfold grad_at at 1, moved_grad. cbn [fe_at nth]. apply tab_ext. intros k Hk. apply tab_ext. intros d Hd.
    rewrite interp_moved by assumption. rewrite (shape_grad_unity K _ inv f c q d U), GC by assumption.
    assert (E : turn (fe_vec f) Q (fun j => Sum (fe_nn f) (fun n => shape_grad (fe_vec f) inv f c q n d * coo f c n j) + Sum (fe_nn f) (fun n => shape_grad (fe_vec f) inv f c q n d * nodal [f] 0 u c n j)) k =
                turn (fe_vec f) Q (fun j => delta j d + get2 (grad_at (fe_vec f) inv [f] 0 u c q) j d) k).
    { unfold turn. apply Sum_ext. intros j Hj. rewrite GC by assumption. unfold grad_at. cbn [fe_at nth]. rewrite (get2_tab K _ (fe_vec f)) by assumption. reflexivity. }
    rewrite E. ring.
  Qed.
  Lemma values_moved (w : nat -> K) c : Sum (fe_nn f) w = 1 -> c < length (fe_cells f) ->
    tab (fe_vec f) (fun k => Sum (fe_nn f) (fun n => w n * nodal [f] 0 u' c n k)) =
    moved (fe_vec f) Q t (tab (fe_vec f) (fun k => Sum (fe_nn f) (fun n => w n * coo f c n k))) (tab (fe_vec f) (fun k => Sum (fe_nn f) (fun n => w n * nodal [f] 0 u c n k))).
  Proof using WF MV.
    intros S1 Hc. unfold moved. apply tab_ext. intros k Hk. rewrite interp_moved by assumption. rewrite S1, get_tab by exact Hk.
    assert (E : turn (fe_vec f) Q (fun j => get (tab (fe_vec f) (fun k0 => Sum (fe_nn f) (fun n => w n * coo f c n k0))) j + get (tab (fe_vec f) (fun k0 => Sum (fe_nn f) (fun n => w n * nodal [f] 0 u c n k0))) j) k =
      turn (fe_vec f) Q (fun j => Sum (fe_nn f) (fun n => w n * coo f c n j) + Sum (fe_nn f) (fun n => w n * nodal [f] 0 u c n j)) k)
      by (unfold turn; apply Sum_ext; intros j Hj; rewrite !get_tab by exact Hj; reflexivity).
    rewrite E. ring.
  Qed.
End Turn.

Section Work.
  Variable K : CRing.
  Add Ring KR115b : (cth K).
  Local Open Scope ring_K.
  Variables (nq nfq : nat) (det : list (list K) -> K) (inv : list (list K) -> list (list K)) (norm : list K -> K) (V W : Type).
  Variables (f : fe K) (vw : view) (ph : physics K V) (vars : nat -> nat -> V) (bnd : list (bdata K W))
            (vj : list K -> vinp K V -> list K) (sj : list K -> finp K W -> list K) (xv : vinp K V) (xs : finp K W)
            (pb : problem K (vinp K V) (finp K W)) (bs0 : nat).
  Hypothesis (WF : wf_fes [f]).
  Hypothesis (WB : forall b, In b bnd -> wf_bdata [f] b).
  Hypothesis (TJ : forall u x, length (vj u x) = (num_local [f] * num_local [f])%nat).
  Hypothesis (TS : forall u x, length (sj u x) = (num_local [f] * num_local [f])%nat).
  Hypothesis (Hbs : (0 < bs0)%nat).
  Hypothesis (PU : ph_universal ph = None).
  Hypothesis (PE : ph_extra ph = None).
  Hypothesis (PB : forall b, In b bnd -> bp_universal (bd_ph b) = None).
  Hypothesis (EB : build (fe_vec f) nq nfq det inv norm [f] vw ph vars bnd vj sj xv xs = Some pb).
  Hypothesis (U : unity K (fe_vec f) f).
  Hypothesis (SV : forall q, q < nq -> Sum (fe_nn f) (fe_sv f q) = 1).
  Hypothesis (SF : forall g q, q < nfq -> Sum (fe_nn f) (fe_fsv f g q) = 1).
  Hypothesis (IO : forall c q, c < length (fe_cells f) -> q < nq -> inverse_ok K (fe_vec f) inv f c q).
  Variables (Q : nat -> nat -> K) (t : nat -> K) (u u' : list K).
  Hypothesis (MV : forall a k, a < length (fe_points f) -> k < fe_vec f ->
    get u' (a * fe_vec f + k) = t k + turn (fe_vec f) Q (fun j => get2 (fe_points f) a j + get u (a * fe_vec f + j)) k - get2 (fe_points f) a k).
  Hypothesis (OS : forall tm, match ph_tensor ph with Some s => Some s | None => ph_energy_grad ph end = Some tm -> objective_stress (fe_vec f) Q tm).
  Hypothesis (OB : forall mm, ph_mass ph = Some mm -> following (fe_vec f) Q t mm).
  Hypothesis (OF : forall b sm, In b bnd -> bp_map (bd_ph b) = Some sm -> following (fe_vec f) Q t sm).

  Lemma moved_work v : virtual_work (pr_n pb) v (get_res pb bs0 u') = virtual_work (pr_n pb) (turned K Q f v) (get_res pb bs0 u).
  Proof using WF WB TJ TS Hbs PU PE PB EB U SV SF IO MV OS OB OF.
    rewrite !(work_terms K (fe_vec f) nq nfq det inv norm V W f vw ph vars bnd vj sj xv xs pb bs0 WF WB TJ TS Hbs PU PE PB EB).
    f_equal; [f_equal|].
    - destruct (ph_mass ph) as [mm|] eqn:EM; cbn [opt_term]; [|reflexivity]. unfold mass_volume, over_cells. apply Sum_ext. intros c Hc. apply Sum_ext. intros q Hq. f_equal.
      change (fe_at [f] 0) with f. unfold dot1.
      assert (EF : field_at [f] 0 u' c q = moved (fe_vec f) Q t (quad_point (fe_vec f) f c q) (field_at [f] 0 u c q)).
      { unfold field_at, quad_point. cbn [fe_at nth]. apply (values_moved K Q f WF t u u' MV (fe_sv f q) c); [apply SV; exact Hq|exact Hc]. }
      rewrite EF. etransitivity; [apply Sum_ext; intros k Hk; rewrite (OB mm eq_refl _ _ _ k Hk); reflexivity|]. rewrite (turn_work K Q).
      apply Sum_ext. intros j Hj. f_equal. unfold field_at. cbn [fe_at nth]. rewrite get_tab by exact Hj. rewrite (interp_turned K Q f WF) by assumption.
      apply Sum_ext. intros k Hk. rewrite get_tab by exact Hk. reflexivity.
    - destruct (match ph_tensor ph with Some s => Some s | None => ph_energy_grad ph end) as [tm|] eqn:ET; cbn [opt_term]; [|reflexivity].
      unfold tensor_volume, over_cells. apply Sum_ext. intros c Hc. apply Sum_ext. intros q Hq. f_equal.
      change (fe_at [f] 0) with f. unfold dot2.
      rewrite (grad_moved K Q f WF t u u' MV inv c q U (IO c q Hc Hq) Hc).
      2:{ intros k d Hk Hd. apply (grad_coo K (fe_vec f) nq nfq det inv norm V W f vw ph vars bnd vj sj xv xs pb bs0 WF WB TJ TS Hbs PU PE PB EB c q k d (IO c q Hc Hq) Hk Hd). }
      rewrite Sum_swap. symmetry. rewrite Sum_swap. symmetry. apply Sum_ext. intros d Hd.
      etransitivity; [apply Sum_ext; intros k Hk; rewrite (OS tm eq_refl _ _ k d Hk Hd); reflexivity|].
      rewrite (turn_work K Q (fe_vec f) (fun j => get2 (tm (grad_at (fe_vec f) inv [f] 0 u c q) (vars c q)) j d) (fun k => get2 (grad_at (fe_vec f) inv [f] 0 v c q) k d)).
      apply Sum_ext. intros j Hj. f_equal. unfold grad_at. cbn [fe_at nth]. rewrite (get2_tab K _ (fe_vec f)) by assumption. rewrite (interp_turned K Q f WF) by assumption.
      apply Sum_ext. intros k Hk. rewrite (get2_tab K _ (fe_vec f)) by assumption. reflexivity.
    - apply sumf_ext. intros b Hb. destruct (bp_map (bd_ph b)) as [sm|] eqn:EM; cbn [opt_term]; [|reflexivity].
      unfold map_surface, over_faces. apply sumf_ext. intros [[c e] x] Hin. cbn [fst snd].
      assert (Hc : c < length (fe_cells f)). { apply (proj2 (WB b Hb) (c, e)). apply in_combine_l in Hin. exact Hin. }
      apply Sum_ext. intros q Hq. f_equal. change (fe_at [f] 0) with f. unfold dot1.
      assert (EF : face_field_at [f] 0 u' c e q = moved (fe_vec f) Q t (face_point (fe_vec f) f c e q) (face_field_at [f] 0 u c e q)).
      { unfold face_field_at, face_point. cbn [fe_at nth]. apply (values_moved K Q f WF t u u' MV (fe_fsv f e q) c); [apply SF; exact Hq|exact Hc]. }
      rewrite EF. etransitivity; [apply Sum_ext; intros k Hk; rewrite (OF b sm Hb EM _ _ _ k Hk); reflexivity|]. rewrite (turn_work K Q).
      apply Sum_ext. intros j Hj. f_equal. unfold face_field_at. cbn [fe_at nth]. rewrite get_tab by exact Hj. rewrite (interp_turned K Q f WF) by assumption.
      apply Sum_ext. intros k Hk. rewrite get_tab by exact Hk. reflexivity.
  Qed.
  Lemma moved_res a k : a < length (fe_points f) -> k < fe_vec f ->
    get (get_res pb bs0 u') (a * fe_vec f + k) = turn (fe_vec f) Q (fun j => get (get_res pb bs0 u) (a * fe_vec f + j)) k.
  Proof using WF WB TJ TS Hbs PU PE PB EB U SV SF IO MV OS OB OF.
    intros Ha Hk.
    assert (ND := ndofs K (fe_vec f) nq nfq det inv norm V W f vw ph vars bnd vj sj xv xs pb bs0 WF WB TJ TS Hbs PU PE PB EB).
    rewrite <- (unit_work K (pr_n pb)) by (rewrite ND; nia). rewrite moved_work. unfold virtual_work. rewrite ND.
    rewrite (Sum_blocks K). 
    rewrite (Sum_ext K _ _ (fun b => if (b =? a)%nat then turn (fe_vec f) Q (fun j => get (get_res pb bs0 u) (b * fe_vec f + j)) k else 0)); [exact (Sum_single K _ a (fun b => turn (fe_vec f) Q (fun j => get (get_res pb bs0 u) (b * fe_vec f + j)) k) Ha)|].
    intros b Hb.
    assert (E : forall j, j < fe_vec f -> get (turned K Q f (tab (length (fe_points f) * fe_vec f) (fun i => if (i =? a * fe_vec f + k)%nat then 1 else 0))) (b * fe_vec f + j) = if (b =? a)%nat then Q k j else 0).
    { intros j Hj. rewrite (get_turned K Q f) by assumption.
      rewrite (Sum_ext K _ _ (fun i => if (i =? k)%nat then (if (b =? a)%nat then Q i j else 0) else 0)); [rewrite (Sum_single K _ k (fun i => if (b =? a)%nat then Q i j else 0)) by exact Hk; reflexivity|].
      intros i Hi. rewrite get_tab by nia.
      destruct (Nat.eqb_spec b a) as [->|Nb], (Nat.eqb_spec i k) as [->|Ni].
      - rewrite Nat.eqb_refl. ring.
      - destruct (Nat.eqb_spec (a * fe_vec f + i) (a * fe_vec f + k)); [lia|ring].
      - destruct (Nat.eqb_spec (b * fe_vec f + k) (a * fe_vec f + k)); [nia|ring].
      - destruct (Nat.eqb_spec (b * fe_vec f + i) (a * fe_vec f + k)) as [X|]; [|ring].
        exfalso. apply Nb. assert (Y : ((b * fe_vec f + i) / fe_vec f = (a * fe_vec f + k) / fe_vec f)%nat) by (rewrite X; reflexivity).
        rewrite !Nat.div_add_l, !Nat.div_small in Y by lia. lia. }
    rewrite (Sum_ext K _ _ (fun j => (if (b =? a)%nat then Q k j else 0) * get (get_res pb bs0 u) (b * fe_vec f + j))) by (intros j Hj; rewrite E by exact Hj; reflexivity).
    destruct (b =? a)%nat; [reflexivity|]. apply Sum_zero. intros j Hj. ring.
  Qed.
End Work.

(** ** Theorems *)
Section Ring.
  Variable K : CRing.
  Add Ring KR115c : (cth K).
  Local Open Scope ring_K.
  Lemma shift_eq (x v w t : K) : x + v = w + t -> v = t + w - x.
  Proof. intros H. replace v with (x + v - x) by ring. rewrite H. ring. Qed.
  Lemma zero_add : 0 + 0 = (0 : K). Proof. ring. Qed.
  Lemma mul_zero (a : K) : a * 0 = 0. Proof. ring. Qed.
  Lemma zero_mul (a : K) : 0 * a = 0. Proof. ring. Qed.
  Lemma mul_assoc (a b c : K) : a * b * c = a * (b * c). Proof. ring. Qed.
End Ring.

(** A rigid motion superposed on any deformation turns the residual: if the stress is objective for [Q] and the loads
    turn too (in particular if there are none), the nodal forces of the moved body are [Q] times those of the body. *)
Theorem C115_forces :
  forall (K : CRing) dim nq nfq det inv norm (V W : Type) (f : fe K) vw (ph : physics K V) vars (bnd : list (bdata K W)) vj sj xv xs pb bs0
         Q t (u u' : list K),
  wf_fes [f] -> (forall b, In b bnd -> wf_bdata [f] b) ->
  (forall u x, length (vj u x) = num_local [f] * num_local [f]) ->
  (forall u x, length (sj u x) = num_local [f] * num_local [f]) -> 0 < bs0 ->
  ph_universal ph = None -> ph_extra ph = None -> (forall b, In b bnd -> bp_universal (bd_ph b) = None) ->
  build dim nq nfq det inv norm [f] vw ph vars bnd vj sj xv xs = Some pb -> fe_vec f = dim ->
  unity K dim f -> (forall q, q < nq -> Sum (fe_nn f) (fe_sv f q) = c1) -> (forall g q, q < nfq -> Sum (fe_nn f) (fe_fsv f g q) = c1) ->
  (forall c q, c < length (fe_cells f) -> q < nq -> inverse_ok K dim inv f c q) ->
  (* every node at [x + u] is moved to [Q (x + u) + t] *)
  (forall a k, a < length (fe_points f) -> k < dim ->
     cadd (get2 (fe_points f) a k) (get u' (a * dim + k)) = cadd (turn dim Q (fun j => cadd (get2 (fe_points f) a j) (get u (a * dim + j))) k) (t k)) ->
  (forall tm, match ph_tensor ph with Some s => Some s | None => ph_energy_grad ph end = Some tm -> objective_stress dim Q tm) ->
  (forall mm, ph_mass ph = Some mm -> following dim Q t mm) ->
  (forall b sm, In b bnd -> bp_map (bd_ph b) = Some sm -> following dim Q t sm) ->
  forall a k, a < length (fe_points f) -> k < dim ->
  get (get_res pb bs0 u') (a * dim + k) = turn dim Q (fun j => get (get_res pb bs0 u) (a * dim + j)) k.
Proof.
  intros K dim nq nfq det inv norm V W f vw ph vars bnd vj sj xv xs pb bs0 Q t u u' WF WB TJ TS Hbs PU PE PB EB VD U SV SF IO MV OS OB OF a k Ha Hk. subst dim.
  apply (moved_res K nq nfq det inv norm V W f vw ph vars bnd vj sj xv xs pb bs0 WF WB TJ TS Hbs PU PE PB EB U SV SF IO Q t u u'); try assumption.
  intros b i Hb Hi. exact (shift_eq K _ _ _ _ (MV b i Hb Hi)).
Qed.
Print Assumptions C115_forces.

(** The strain energy of an energy density that only sees the shape is unchanged. *)
Theorem C115_energy :
  forall (K : CRing) dim nq nfq det inv norm (V W : Type) (f : fe K) vw (ph : physics K V) vars (bnd : list (bdata K W)) vj sj xv xs pb bs0
         Q t (u u' : list K),
  wf_fes [f] -> (forall b, In b bnd -> wf_bdata [f] b) ->
  (forall u x, length (vj u x) = num_local [f] * num_local [f]) ->
  (forall u x, length (sj u x) = num_local [f] * num_local [f]) -> 0 < bs0 ->
  ph_universal ph = None -> ph_extra ph = None -> (forall b, In b bnd -> bp_universal (bd_ph b) = None) ->
  build dim nq nfq det inv norm [f] vw ph vars bnd vj sj xv xs = Some pb -> fe_vec f = dim ->
  unity K dim f -> (forall q, q < nq -> Sum (fe_nn f) (fe_sv f q) = c1) -> (forall g q, q < nfq -> Sum (fe_nn f) (fe_fsv f g q) = c1) ->
  (forall c q, c < length (fe_cells f) -> q < nq -> inverse_ok K dim inv f c q) ->
  (* every node at [x + u] is moved to [Q (x + u) + t] *)
  (forall a k, a < length (fe_points f) -> k < dim ->
     cadd (get2 (fe_points f) a k) (get u' (a * dim + k)) = cadd (turn dim Q (fun j => cadd (get2 (fe_points f) a j) (get u (a * dim + j))) k) (t k)) ->
  forall psi : list (list K) -> V -> K, (forall G y, psi (moved_grad dim Q G) y = psi G y) ->
  energy dim nq det inv [f] psi vars u' = energy dim nq det inv [f] psi vars u.
Proof.
  intros K dim nq nfq det inv norm V W f vw ph vars bnd vj sj xv xs pb bs0 Q t u u' WF WB TJ TS Hbs PU PE PB EB VD U SV SF IO MV psi OP. subst dim.
  rewrite !(energy_grad K). unfold over_cells. apply Sum_ext. intros c Hc. apply Sum_ext. intros q Hq. f_equal.
  rewrite (grad_moved K Q f WF t u u' (fun b i Hb Hi => shift_eq K _ _ _ _ (MV b i Hb Hi)) inv c q U (IO c q Hc Hq) Hc); [apply OP|].
  intros k d Hk Hd. apply (grad_coo K (fe_vec f) nq nfq det inv norm V W f vw ph vars bnd vj sj xv xs pb bs0 WF WB TJ TS Hbs PU PE PB EB c q k d (IO c q Hc Hq) Hk Hd).
Qed.
Print Assumptions C115_energy.

(** An unloaded body whose reference state is free of stress carries no nodal forces after any rigid motion. *)
Theorem C115_rigid :
  forall (K : CRing) dim nq nfq det inv norm (V W : Type) (f : fe K) vw (ph : physics K V) vars (bnd : list (bdata K W)) vj sj xv xs pb bs0
         Q t (u u' : list K),
  wf_fes [f] -> (forall b, In b bnd -> wf_bdata [f] b) ->
  (forall u x, length (vj u x) = num_local [f] * num_local [f]) ->
  (forall u x, length (sj u x) = num_local [f] * num_local [f]) -> 0 < bs0 ->
  ph_universal ph = None -> ph_extra ph = None -> (forall b, In b bnd -> bp_universal (bd_ph b) = None) ->
  build dim nq nfq det inv norm [f] vw ph vars bnd vj sj xv xs = Some pb -> fe_vec f = dim ->
  unity K dim f -> (forall q, q < nq -> Sum (fe_nn f) (fe_sv f q) = c1) -> (forall g q, q < nfq -> Sum (fe_nn f) (fe_fsv f g q) = c1) ->
  (forall c q, c < length (fe_cells f) -> q < nq -> inverse_ok K dim inv f c q) ->
  (* every node at [x + u] is moved to [Q (x + u) + t] *)
  (forall a k, a < length (fe_points f) -> k < dim ->
     cadd (get2 (fe_points f) a k) (get u' (a * dim + k)) = cadd (turn dim Q (fun j => cadd (get2 (fe_points f) a j) (get u (a * dim + j))) k) (t k)) ->
  (forall i, i < length (fe_points f) * dim -> get u i = c0) ->
  ph_mass ph = None -> (forall b, In b bnd -> bp_map (bd_ph b) = None) ->
  (forall tm, match ph_tensor ph with Some s => Some s | None => ph_energy_grad ph end = Some tm -> objective_stress dim Q tm /\
     forall y k d, get2 (tm (tab dim (fun _ => tab dim (fun _ => c0))) y) k d = c0) ->
  forall i, i < length (fe_points f) * dim -> get (get_res pb bs0 u') i = c0.
Proof.
  intros K dim nq nfq det inv norm V W f vw ph vars bnd vj sj xv xs pb bs0 Q t u u' WF WB TJ TS Hbs PU PE PB EB VD U SV SF IO MV UZ PM PS OS i Hi. subst dim.
  assert (Hv : 0 < fe_vec f) by nia.
  assert (Z : forall i, i < length (fe_points f) * fe_vec f -> get (get_res pb bs0 u) i = c0).
  { intros j Hj. assert (ND := ndofs K (fe_vec f) nq nfq det inv norm V W f vw ph vars bnd vj sj xv xs pb bs0 WF WB TJ TS Hbs PU PE PB EB).
    rewrite <- (unit_work K (pr_n pb)) by (rewrite ND; exact Hj).
    rewrite (work_terms K (fe_vec f) nq nfq det inv norm V W f vw ph vars bnd vj sj xv xs pb bs0 WF WB TJ TS Hbs PU PE PB EB).
    rewrite PM. cbn [opt_term]. rewrite (@sumf_zero K _ _ bnd) by (intros b Hb; rewrite (PS b Hb); reflexivity).
    destruct (match ph_tensor ph with Some s => Some s | None => ph_energy_grad ph end) as [tm|]; cbn [opt_term]; [|rewrite !zero_add; reflexivity].
    unfold tensor_volume, over_cells. rewrite Sum_zero; [rewrite !zero_add; reflexivity|]. intros c Hc. apply Sum_zero. intros q Hq.
    change (fe_at [f] 0) with f.
    assert (G0 : grad_at (fe_vec f) inv [f] 0 u c q = tab (fe_vec f) (fun _ => tab (fe_vec f) (fun _ => c0))).
    { unfold grad_at. cbn [fe_at nth]. apply tab_ext. intros k Hk. apply tab_ext. intros d Hd. apply Sum_zero. intros n Hn. rewrite nodal1, UZ; [apply mul_zero|].
      pose proof (node_bound K f c n WF Hc Hn). nia. }
    rewrite G0. unfold dot2. rewrite Sum_zero; [apply mul_zero|]. intros k Hk. apply Sum_zero. intros d Hd. rewrite (proj2 (OS tm eq_refl)). apply zero_mul. }
  assert (D : i = (i / fe_vec f) * fe_vec f + i mod fe_vec f) by (rewrite Nat.mul_comm; apply Nat.div_mod; lia).
  assert (Hk : i mod fe_vec f < fe_vec f) by (apply Nat.mod_upper_bound; lia).
  assert (Ha : i / fe_vec f < length (fe_points f)) by (apply Nat.div_lt_upper_bound; nia).
  rewrite D. rewrite (C115_forces K (fe_vec f) nq nfq det inv norm V W f vw ph vars bnd vj sj xv xs pb bs0 Q t u u' WF WB TJ TS Hbs PU PE PB EB eq_refl U SV SF IO MV); try assumption.
  - unfold turn. apply Sum_zero. intros j Hj. rewrite Z by nia. apply mul_zero.
  - intros tm E. exact (proj1 (OS tm E)).
  - intros mm E. rewrite PM in E. discriminate.
  - intros b sm Hb E. rewrite (PS b Hb) in E. discriminate.
Qed.
Print Assumptions C115_rigid.

(** ** Which stresses are objective *)
Section Hyper.
  Variable K : CRing.
  Add Ring KR115d : (cth K).
  Local Open Scope ring_K.
  Variable dim : nat.
  (** [F = I + G] and [C = F' F]. *)
  Definition Fd (G : list (list K)) (k d : nat) : K := delta k d + get2 G k d.
  Definition Cd (G : list (list K)) : list (list K) := tab dim (fun i => tab dim (fun j => Sum dim (fun k => Fd G k i * Fd G k j))).
  (** Stress [P = F S(C)]: St. Venant-Kirchhoff, neo-Hookean and the other hyperelastic laws written with [C]. *)
  Definition of_C {V} (s : list (list K) -> V -> list (list K)) : tensor_map K V := fun G y =>
    tab dim (fun k => tab dim (fun d => Sum dim (fun j => Fd G k j * get2 (s (Cd G) y) j d))).
  Lemma Fd_moved Q G k d : k < dim -> d < dim -> Fd (moved_grad dim Q G) k d = turn dim Q (fun j => Fd G j d) k.
  Proof. intros Hk Hd. unfold Fd at 1, moved_grad. rewrite (get2_tab K _ dim) by assumption. unfold Fd. ring. Qed.
  Lemma Cd_moved Q G : orthogonal dim Q -> Cd (moved_grad dim Q G) = Cd G.
  Proof.
    intros O. unfold Cd. apply tab_ext. intros i Hi. apply tab_ext. intros j Hj.
    transitivity (Sum dim (fun k => Sum dim (fun a => Sum dim (fun b => Q k a * Q k b * (Fd G a i * Fd G b j))))).
    - apply Sum_ext. intros k Hk. rewrite !Fd_moved by assumption. unfold turn. rewrite <- Sum_mul_r. apply Sum_ext. intros a Ha. rewrite <- Sum_mul_l. apply Sum_ext. intros b Hb. ring.
    - rewrite Sum_swap. apply Sum_ext. intros a Ha. rewrite Sum_swap.
      rewrite (Sum_ext K _ _ (fun b => if (b =? a)%nat then Fd G a i * Fd G b j else 0)); [exact (Sum_single K dim a (fun b => Fd G a i * Fd G b j) Ha)|].
      intros b Hb. rewrite Sum_mul_r, (O a b Ha Hb). unfold delta. rewrite Nat.eqb_sym. destruct (b =? a)%nat; ring.
  Qed.
End Hyper.
Theorem C115_hyperelastic :
  forall (K : CRing) dim (V : Type) (Q : nat -> nat -> K) (s : list (list K) -> V -> list (list K)) (w : list (list K) -> V -> K),
  orthogonal dim Q ->
  objective_stress dim Q (of_C K dim s) /\
  (forall G y, w (Cd K dim (moved_grad dim Q G)) y = w (Cd K dim G) y).
Proof.
  intros K dim V Q s w O. split.
  - intros G y k d Hk Hd. unfold of_C. rewrite (get2_tab K _ dim) by assumption. rewrite (Cd_moved K dim Q G O). unfold turn.
    etransitivity; [apply Sum_ext; intros j Hj; rewrite (Fd_moved K) by assumption; unfold turn; reflexivity|].
    etransitivity; [apply Sum_ext; intros j Hj; symmetry; apply Sum_mul_r|]. rewrite Sum_swap. apply Sum_ext. intros i Hi.
    rewrite (get2_tab K _ dim) by assumption. rewrite <- Sum_mul_l. apply Sum_ext. intros j Hj. apply mul_assoc.
  - intros G y. rewrite (Cd_moved K dim Q G O). reflexivity.
Qed.
Print Assumptions C115_hyperelastic.

(** ** Concrete case: a quarter turn and a translation of the deformed triangles of C113, with the stress [F (F'F - I)]. *)
Definition ob_s (C : list (list Z)) (y : Z) : list (list Z) := tab 2 (fun i => tab 2 (fun j => (y * (get2 (K := ZK) C i j - delta (K := ZK) i j))%Z)).
Definition ob_ph : physics ZK Z := Build_physics ZK Z None None None (Some (of_C ZK 2 ob_s)) None None.
Definition ob_build :=
  build (K := ZK) 2 1 1 mo_det mo_inv (fun _ => 1%Z) [mo_fe] FULL ob_ph (fun _ _ => 3%Z) (@nil (bdata ZK Z)) (fun _ _ => repeat 0%Z 36) (fun _ _ => repeat 0%Z 36)
    (vinp_of 2 mo_det mo_inv [mo_fe] (fun c q => 0%Z) 0) (finp_of 2 mo_det mo_inv (fun _ => 1%Z) [mo_fe] (fun _ => 0%Z) (0, 0)).
Definition ob_Q (k j : nat) : Z := nth j (nth k [[0; -1]; [1; 0]] [])%Z 0%Z.
Definition ob_t (k : nat) : Z := nth k [10; 20]%Z 0%Z.
(** Node [a] at [x + u] goes to [(10 - y, 20 + x)]. *)
Definition ob_u' : list Z := [8; 21; 9; 21; 9; 19; 12; 20]%Z.
Example C115_example :
  wf_fes [mo_fe] /\ unity ZK 2 mo_fe /\ (forall q, q < 1 -> Sum (K := ZK) 3 (fe_sv mo_fe q) = 1%Z) /\ (forall g q, q < 1 -> Sum (K := ZK) 3 (fe_fsv mo_fe g q) = 1%Z) /\
  (forall c q, c < 3 -> q < 1 -> inverse_ok ZK 2 mo_inv mo_fe c q) /\ orthogonal (K := ZK) 2 ob_Q /\
  (forall a k, a < 4 -> k < 2 -> (get2 (K := ZK) (fe_points mo_fe) a k + get (K := ZK) ob_u' (a * 2 + k) =
     turn (K := ZK) 2 ob_Q (fun j => get2 (K := ZK) (fe_points mo_fe) a j + get (K := ZK) mo_u (a * 2 + j))%Z k + ob_t k)%Z) /\
  (exists pb, ob_build = Some pb /\ get_res pb 1 mo_u = [945; 1872; -234; -672; -306; -411; -405; -789]%Z /\ get_res pb 1 ob_u' = [-1872; 945; 672; -234; 411; -306; 789; -405]%Z).
Proof.
  split. { intros f [<-|[]]. split; [reflexivity|]. intros c [<-|[<-|[<-|[]]]]; (split; [reflexivity|]); cbn; intros n Hn; lia. }
  split. { intros q e He. destruct e as [|[|e]]; try lia; reflexivity. }
  split. { intros q _. reflexivity. }
  split. { intros g q _. unfold mo_fe. cbn [fe_fsv]. assert (M : (g + 1) mod 3 < 3) by (apply Nat.mod_upper_bound; lia). destruct ((g + 1) mod 3) as [|[|[|]]]; try lia; reflexivity. }
  split. { intros c q Hc Hq i d Hi Hd. destruct c as [|[|[|c]]]; [ | | |lia]; destruct i as [|[|i]]; try lia; destruct d as [|[|d]]; try lia; reflexivity. }
  split. { intros i j Hi Hj. destruct i as [|[|i]]; try lia; destruct j as [|[|j]]; try lia; reflexivity. }
  split. { intros a k Ha Hk. destruct a as [|[|[|[|a]]]]; try lia; destruct k as [|[|k]]; try lia; reflexivity. }
  eexists. split; [reflexivity|]. split; vm_compute; reflexivity.
Qed.
