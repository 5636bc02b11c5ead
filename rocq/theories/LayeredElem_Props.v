(** Property C84, second part: the layered element and its geometric stiffness. *)
From Coq Require Import Reals List Arith Bool Lia Lra.
From Verif Require Import Tmc_Model Tmc_Props Adaptive_Model Adaptive_Props Layered_Model LayeredRot_Props LayeredQuad_Props.
Import ListNotations.
Open Scope R_scope.

(** Work of nodal forces [r] through nodal displacements [v]. *)
Definition work (nn : nat) (v r : nat -> nat -> R) : R := rs nn (fun a => rs 3 (fun i => v a i * r a i)).
Section Elem.
Variable nq nn : nat.
Variable dN : nat -> nat -> nat -> R.
Variable w : nat -> R.
Variable X : nat -> nat -> R.
Notation dNdx := (dNdx nn dN X).
Notation jac := (jac nn dN X).
Notation jxw := (jxw nn dN w X).
Notation grad_u := (grad_u nn dN X).
Notation strain := (strain nn dN X).
Notation stress := (stress nn dN X).
Notation residual := (residual nq nn dN w X).
Notation geo := (geo_residual nq nn dN w X).
(** Shape functions sum to one, so their reference gradients sum to zero; the cell is not degenerate. *)
Definition shapes_ok : Prop := forall q I, (q < nq)%nat -> (I < 3)%nat -> rs nn (fun a => dN q a I) = 0.
Definition cell_ok : Prop := forall q, (q < nq)%nat -> det3 (jac q) <> 0.

Lemma dNdx_sum q i : shapes_ok -> (q < nq)%nat -> rs nn (fun a => dNdx q a i) = 0.
Proof using Type.
  intros H Hq. unfold Layered_Model.dNdx. rewrite rs_swap. apply rs_zero. intros I HI. rewrite rs_scale_r, H by assumption. ring.
Qed.
Lemma dNdx_coord q i j : cell_ok -> (q < nq)%nat -> (i < 3)%nat -> (j < 3)%nat -> rs nn (fun a => X a i * dNdx q a j) = kd i j.
Proof using Type.
  intros H Hq Hi Hj. unfold Layered_Model.dNdx. transitivity (rs 3 (fun I => jac q i I * inv3 (jac q) I j)); [|apply inv3_right; auto].
  rewrite (rs_ext _ _ (fun a => rs 3 (fun I => X a i * (dN q a I * inv3 (jac q) I j)))) by (intros a _; rewrite rs_scale; reflexivity).
  rewrite rs_swap. apply rs_ext. intros I _. unfold Layered_Model.jac. rewrite <- rs_scale_r. apply rs_ext. intros; ring.
Qed.
Definition affine (c : nat -> R) (A : mat) : nat -> nat -> R := fun a i => c i + rs 3 (fun k => A i k * X a k).
Lemma grad_affine c A q i j : shapes_ok -> cell_ok -> (q < nq)%nat -> (i < 3)%nat -> (j < 3)%nat -> grad_u (affine c A) q i j = A i j.
Proof using Type.
  intros H1 H2 Hq Hi Hj. unfold Layered_Model.grad_u, affine.
  rewrite (rs_ext _ _ (fun a => c i * dNdx q a j + rs 3 (fun k => A i k * (X a k * dNdx q a j)))).
  - rewrite rs_plus, rs_scale, dNdx_sum by assumption. rewrite rs_swap.
    rewrite (rs_ext _ _ (fun k => (if Nat.eqb k j then 1 else 0) * A i k)); [rewrite (rs_delta 3 j (fun k => A i k) Hj); ring|].
    intros k Hk. rewrite rs_scale, dNdx_coord by assumption. unfold kd. ring.
  - intros a _. rewrite Rmult_plus_distr_r, <- rs_scale_r. f_equal. apply rs_ext. intros; ring.
Qed.

Definition sym_stress (s : nat -> mat) : Prop := forall q i j, (q < nq)%nat -> (i < 3)%nat -> (j < 3)%nat -> s q i j = s q j i.
Lemma work_residual_of s v : work nn v (residual_of nq nn dN w X s) = rs nq (fun q => jxw q * rs 3 (fun i => rs 3 (fun j => s q i j * grad_u v q i j))).
Proof using Type.
  unfold work, residual_of.
  rewrite (rs_ext _ _ (fun a => rs nq (fun q => rs 3 (fun i => rs 3 (fun j => jxw q * (s q i j * (v a i * dNdx q a j))))))).
  - rewrite rs_swap. apply rs_ext. intros q _. rewrite rs_swap, <- rs_scale. apply rs_ext. intros i _. rewrite rs_swap, <- rs_scale. apply rs_ext. intros j _.
    rewrite !rs_scale. unfold Layered_Model.grad_u. reflexivity.
  - intros a _. rewrite rs_swap. apply rs_ext. intros i _. rewrite <- rs_scale. apply rs_ext. intros q _. rewrite <- rs_scale. apply rs_ext. intros j _. ring.
Qed.
Lemma sym_contract s v q : (q < nq)%nat -> sym_stress s ->
  rs 3 (fun i => rs 3 (fun j => s q i j * grad_u v q i j)) = rs 3 (fun i => rs 3 (fun j => strain v q i j * s q i j)).
Proof using Type.
  intros Hq H. unfold Layered_Model.strain. assert (S1 : s q 1%nat 0%nat = s q 0%nat 1%nat) by (apply H; lia || exact Hq). assert (S2 : s q 2%nat 0%nat = s q 0%nat 2%nat) by (apply H; lia || exact Hq).
  assert (S3 : s q 2%nat 1%nat = s q 1%nat 2%nat) by (apply H; lia || exact Hq). cbn [rs]. rewrite S1, S2, S3. field.
Qed.
Definition all_minor (C : nat -> ten) : Prop := forall q, (q < nq)%nat -> minor_sym (C q).
Lemma stress_sym C eth u : all_minor C -> sym_stress (stress C eth u).
Proof using Type.
  intros H q i j Hq Hi Hj. unfold Layered_Model.stress, ddot. apply rs_ext. intros k Hk. apply rs_ext. intros l Hl. rewrite (proj1 (H q Hq i j k l Hi Hj Hk Hl)). reflexivity.
Qed.
Lemma strain_affine c A q i j : shapes_ok -> cell_ok -> (q < nq)%nat -> (i < 3)%nat -> (j < 3)%nat -> strain (affine c A) q i j = (A i j + A j i) / 2.
Proof using Type. intros. unfold Layered_Model.strain. rewrite !grad_affine by assumption. field. Qed.
Lemma ddot_ext C e f i j : (forall k l, (k < 3)%nat -> (l < 3)%nat -> e k l = f k l) -> ddot C e i j = ddot C f i j.
Proof using Type. intros H. unfold ddot. apply rs_ext. intros k Hk. apply rs_ext. intros l Hl. rewrite H by assumption. reflexivity. Qed.

(** Virtual work: nodal forces do the work that the stresses do through the strains; that is the quadrature of
    stress : strain over the cell. The element is symmetric and, without thermal strain, its energy is the strain energy. *)
Theorem C84_work C eth u v : all_minor C ->
  work nn v (residual C eth u) = rs nq (fun q => jxw q * rs 3 (fun i => rs 3 (fun j => strain v q i j * stress C eth u q i j))) /\
  ((forall q, (q < nq)%nat -> major_sym (C q)) -> work nn v (residual C None u) = work nn u (residual C None v)) /\
  ((forall q, (q < nq)%nat -> 0 <= jxw q) -> (forall q e, (q < nq)%nat -> sym2 e -> 0 <= energy (C q) e e) -> 0 <= work nn u (residual C None u)).
Proof using Type.
  intros Hm.
  assert (W : forall eth u v, work nn v (residual C eth u) = rs nq (fun q => jxw q * rs 3 (fun i => rs 3 (fun j => strain v q i j * stress C eth u q i j)))).
  { intros eth0 u0 v0. unfold Layered_Model.residual. rewrite work_residual_of. apply rs_ext. intros q Hq. rewrite sym_contract; [reflexivity|exact Hq|apply stress_sym; exact Hm]. }
  assert (En : forall u v q, rs 3 (fun i => rs 3 (fun j => strain v q i j * stress C None u q i j)) = energy (C q) (strain v q) (strain u q)).
  { intros u0 v0 q. unfold energy, Layered_Model.stress. apply rs_ext. intros i _. apply rs_ext. intros j _. f_equal. apply ddot_ext. intros. ring. }
  split; [apply W|]. split.
  - intros Hj. rewrite !W. apply rs_ext. intros q Hq. f_equal. rewrite !En. unfold energy, ddot.
    transitivity (rs 3 (fun i => rs 3 (fun j => rs 3 (fun k => rs 3 (fun l => strain v q i j * strain u q k l * C q i j k l))))).
    + apply rs_ext. intros i _. apply rs_ext. intros j _. rewrite <- rs_scale. apply rs_ext. intros k _. rewrite <- rs_scale. apply rs_ext. intros; ring.
    + transitivity (rs 3 (fun k => rs 3 (fun l => rs 3 (fun i => rs 3 (fun j => strain v q i j * strain u q k l * C q i j k l))))).
      * rewrite (rs_ext _ (fun i => rs 3 (fun j => rs 3 (fun k => rs 3 (fun l => strain v q i j * strain u q k l * C q i j k l)))) (fun i => rs 3 (fun k => rs 3 (fun j => rs 3 (fun l => strain v q i j * strain u q k l * C q i j k l))))) by (intros i _; apply rs_swap).
        rewrite rs_swap. apply rs_ext. intros k _.
        rewrite (rs_ext _ (fun i => rs 3 (fun j => rs 3 (fun l => strain v q i j * strain u q k l * C q i j k l))) (fun i => rs 3 (fun l => rs 3 (fun j => strain v q i j * strain u q k l * C q i j k l)))) by (intros i _; apply rs_swap).
        apply rs_swap.
      * apply rs_ext. intros k Hk. apply rs_ext. intros l Hl. rewrite <- rs_scale. apply rs_ext. intros i Hi. rewrite <- rs_scale. apply rs_ext. intros j Hj'.
        rewrite (Hj q Hq i j k l) by assumption. ring.
  - intros Hw Hp. rewrite W. apply rs_nonneg. intros q Hq. apply Rmult_le_pos; [apply Hw, Hq|]. rewrite En. apply Hp; [exact Hq|].
    intros i j _ _. unfold Layered_Model.strain. ring.
Qed.

(** Equilibrium: whatever the displacement and the temperature, the nodal forces of a cell have no resultant and no
    moment. *)
Theorem C84_balance C eth u : shapes_ok -> cell_ok -> all_minor C ->
  (forall i, (i < 3)%nat -> rs nn (fun a => residual C eth u a i) = 0) /\
  (forall i j, (i < 3)%nat -> (j < 3)%nat -> rs nn (fun a => X a i * residual C eth u a j) = rs nn (fun a => X a j * residual C eth u a i)).
Proof using Type.
  intros H1 H2 H3. unfold Layered_Model.residual, residual_of. set (s := stress C eth u). assert (Sy : sym_stress s) by (apply stress_sym; exact H3). split.
  - intros i Hi. rewrite rs_swap. apply rs_zero. intros q Hq. rewrite rs_swap. apply rs_zero. intros j Hj. rewrite rs_scale, dNdx_sum by assumption. ring.
  - assert (E : forall i j, (i < 3)%nat -> (j < 3)%nat -> rs nn (fun a => X a i * rs nq (fun q => rs 3 (fun k => jxw q * s q j k * dNdx q a k))) = rs nq (fun q => jxw q * s q j i)).
    { intros i j Hi Hj. rewrite (rs_ext _ _ (fun a => rs nq (fun q => rs 3 (fun k => jxw q * s q j k * (X a i * dNdx q a k))))).
      - rewrite rs_swap. apply rs_ext. intros q Hq. rewrite rs_swap.
        rewrite (rs_ext _ _ (fun k => (if Nat.eqb k i then 1 else 0) * (jxw q * s q j k))); [apply (rs_delta 3 i (fun k => jxw q * s q j k) Hi)|].
        intros k Hk. rewrite rs_scale, dNdx_coord by assumption. unfold kd. rewrite Nat.eqb_sym. ring.
      - intros a _. rewrite <- rs_scale. apply rs_ext. intros q _. rewrite <- rs_scale. apply rs_ext. intros; ring. }
    intros i j Hi Hj. rewrite !E by assumption. apply rs_ext. intros q Hq. rewrite (Sy q j i) by assumption. reflexivity.
Qed.

(** Uniform strain: an affine displacement has its own symmetric gradient as strain at every point, so rigid motions
    cause no stress and no forces. A thermal strain that the displacement follows leaves the cell free of stress. *)
Theorem C84_patch C c A : shapes_ok -> cell_ok ->
  (forall q i j, (q < nq)%nat -> (i < 3)%nat -> (j < 3)%nat -> strain (affine c A) q i j = (A i j + A j i) / 2 /\
     stress C None (affine c A) q i j = ddot (C q) (fun k l => (A k l + A l k) / 2) i j) /\
  ((forall i j, (i < 3)%nat -> (j < 3)%nat -> A i j = - A j i) -> forall a i, (i < 3)%nat -> residual C None (affine c A) a i = 0) /\
  (forall eth, (forall q i j, (q < nq)%nat -> (i < 3)%nat -> (j < 3)%nat -> eth q i j = (A i j + A j i) / 2) ->
     (forall q i j, (q < nq)%nat -> (i < 3)%nat -> (j < 3)%nat -> stress C (Some eth) (affine c A) q i j = 0) /\
     forall a i, (i < 3)%nat -> residual C (Some eth) (affine c A) a i = 0).
Proof using Type.
  intros H1 H2.
  assert (Z : forall s, (forall q i j, (q < nq)%nat -> (i < 3)%nat -> (j < 3)%nat -> s q i j = 0) -> forall a i, (i < 3)%nat -> residual_of nq nn dN w X s a i = 0).
  { intros s H a i Hi. unfold residual_of. apply rs_zero. intros q Hq. apply rs_zero. intros j Hj. rewrite H by assumption. ring. }
  assert (Zs : forall Cq e i j, (forall k l, (k < 3)%nat -> (l < 3)%nat -> e k l = 0) -> ddot Cq e i j = 0).
  { intros Cq e i j H. unfold ddot. apply rs_zero. intros k Hk. apply rs_zero. intros l Hl. rewrite H by assumption. ring. }
  split; [|split].
  - intros q i j Hq Hi Hj. split; [apply strain_affine; assumption|]. unfold Layered_Model.stress. apply ddot_ext. intros k l Hk Hl. rewrite strain_affine by assumption. ring.
  - intros Sk. apply Z. intros q i j Hq Hi Hj. unfold Layered_Model.stress. apply Zs. intros k l Hk Hl. rewrite strain_affine by assumption. rewrite (Sk k l) by assumption. field.
  - intros eth He. assert (S0 : forall q i j, (q < nq)%nat -> (i < 3)%nat -> (j < 3)%nat -> stress C (Some eth) (affine c A) q i j = 0).
    { intros q i j Hq Hi Hj. unfold Layered_Model.stress. apply Zs. intros k l Hk Hl. rewrite strain_affine, He by assumption. ring. }
    split; [exact S0|]. apply Z. exact S0.
Qed.

(** The thermal strain only adds a load that does not depend on the displacement; with none the thermal element is the
    mechanical one, and stiffness and load superpose. *)
Lemma strain_lin u v k q i j : strain (fun a i => u a i + k * v a i) q i j = strain u q i j + k * strain v q i j.
Proof using Type.
  assert (G : forall i j, grad_u (fun a i => u a i + k * v a i) q i j = grad_u u q i j + k * grad_u v q i j).
  { intros i' j'. unfold Layered_Model.grad_u. rewrite <- rs_scale, <- rs_plus. apply rs_ext. intros; ring. }
  unfold Layered_Model.strain. rewrite !G. ring.
Qed.
Lemma residual_split C eth u eth' v k (f : nat -> nat -> R) th a i :
  (forall q i j, (q < nq)%nat -> stress C th f q i j = stress C eth u q i j + k * stress C eth' v q i j) ->
  residual C th f a i = residual C eth u a i + k * residual C eth' v a i.
Proof using Type.
  intros H. unfold Layered_Model.residual, residual_of. rewrite <- rs_scale, <- rs_plus. apply rs_ext. intros q Hq. rewrite <- rs_scale, <- rs_plus. apply rs_ext. intros j _. rewrite H by exact Hq. ring.
Qed.
Theorem C84_thermal C u v eth k a i :
  residual C (Some (fun _ _ _ => 0)) u a i = residual C None u a i /\
  residual C None (fun b i => u b i + k * v b i) a i = residual C None u a i + k * residual C None v a i /\
  residual C (Some eth) u a i = residual C None u a i + residual C (Some eth) (fun _ _ => 0) a i /\
  residual C (Some (fun q i j => k * eth q i j)) (fun _ _ => 0) a i = k * residual C (Some eth) (fun _ _ => 0) a i.
Proof using Type.
  assert (Dl : forall Cq e f kk i j, ddot Cq (fun p l => e p l + kk * f p l) i j = ddot Cq e i j + kk * ddot Cq f i j).
  { intros Cq e f kk i' j'. unfold ddot. rewrite <- rs_scale, <- rs_plus. apply rs_ext. intros p _. rewrite <- rs_scale, <- rs_plus. apply rs_ext. intros; ring. }
  assert (S0 : forall q i j, strain (fun _ _ => 0) q i j = 0).
  { intros q i' j'. unfold Layered_Model.strain, Layered_Model.grad_u. rewrite !(rs_zero nn) by (intros; ring). ring. }
  split; [|split; [|split]].
  - unfold Layered_Model.residual, residual_of. apply rs_ext. intros q _. apply rs_ext. intros j _. reflexivity.
  - apply residual_split. intros q i' j' _. unfold Layered_Model.stress. rewrite <- Dl. apply ddot_ext. intros p l _ _. rewrite strain_lin. ring.
  - replace (residual C (Some eth) (fun _ _ => 0) a i) with (1 * residual C (Some eth) (fun _ _ => 0) a i) by ring. apply residual_split.
    intros q i' j' _. unfold Layered_Model.stress. rewrite <- Dl. apply ddot_ext. intros p l _ _. rewrite S0. ring.
  - replace (k * residual C (Some eth) (fun _ _ => 0) a i) with (residual C None (fun _ _ => 0) a i + k * residual C (Some eth) (fun _ _ => 0) a i).
    + apply residual_split. intros q i' j' _. unfold Layered_Model.stress. rewrite <- Dl. apply ddot_ext. intros p l _ _. rewrite S0. ring.
    + assert (Z : residual C None (fun _ _ => 0) a i = 0); [|rewrite Z; ring].
      unfold Layered_Model.residual, residual_of. apply rs_zero. intros q _. apply rs_zero. intros j _.
      assert (E : stress C None (fun _ _ => 0) q i j = 0); [|rewrite E; ring].
      unfold Layered_Model.stress, ddot. apply rs_zero. intros p _. apply rs_zero. intros l _. rewrite S0. ring.
Qed.

(** The geometric element is the derivative of the second-order work of the prestress. *)
Definition geo_energy (s0 : nat -> mat) (u : nat -> nat -> R) : R :=
  rs nq (fun q => jxw q * rs 3 (fun i => rs 3 (fun j => s0 q i j * (1 / 2 * rs 3 (fun c => grad_u u q c i * grad_u u q c j))))).
Lemma work_geo s0 u v : work nn v (geo s0 u) = rs nq (fun q => jxw q * rs 3 (fun i => rs 3 (fun j => s0 q i j * rs 3 (fun c => grad_u v q c i * grad_u u q c j)))).
Proof using Type.
  unfold work, geo_residual.
  transitivity (rs nn (fun a => rs nq (fun q => jxw q * rs 3 (fun c => rs 3 (fun i => (v a c * dNdx q a i) * rs 3 (fun j => s0 q i j * grad_u u q c j)))))).
  - apply rs_ext. intros a _. rewrite (rs_ext _ _ (fun c => rs nq (fun q => v a c * rs 3 (fun i => jxw q * dNdx q a i * rs 3 (fun j => s0 q i j * grad_u u q c j))))) by (intros; rewrite rs_scale; reflexivity).
    rewrite rs_swap. apply rs_ext. intros q _. rewrite <- rs_scale. apply rs_ext. intros c _. rewrite <- !rs_scale. apply rs_ext. intros; ring.
  - rewrite rs_swap. apply rs_ext. intros q _. rewrite rs_scale. f_equal. rewrite rs_swap.
    transitivity (rs 3 (fun c => rs 3 (fun i => grad_u v q c i * rs 3 (fun j => s0 q i j * grad_u u q c j)))).
    + apply rs_ext. intros c _. rewrite rs_swap. apply rs_ext. intros i _. rewrite rs_scale_r. reflexivity.
    + rewrite rs_swap. apply rs_ext. intros i _.
      transitivity (rs 3 (fun c => rs 3 (fun j => grad_u v q c i * (s0 q i j * grad_u u q c j)))); [apply rs_ext; intros; symmetry; apply rs_scale|].
      rewrite rs_swap. apply rs_ext. intros j _. rewrite <- rs_scale. apply rs_ext. intros; ring.
Qed.
Theorem C84_geometric s0 u v : sym_stress s0 ->
  geo_energy s0 u = 1 / 2 * work nn u (geo s0 u) /\
  work nn v (geo s0 u) = work nn u (geo s0 v) /\
  geo_energy s0 (fun a i => u a i + v a i) = geo_energy s0 u + work nn v (geo s0 u) + geo_energy s0 v /\
  (shapes_ok -> (forall a b i, u a i = u b i) -> forall a c, geo s0 u a c = 0) /\
  ((forall q, (q < nq)%nat -> 0 <= jxw q) -> (forall q x, (q < nq)%nat -> 0 <= rs 3 (fun i => rs 3 (fun j => s0 q i j * (x i * x j)))) -> 0 <= geo_energy s0 u).
Proof using Type.
  intros Sy.
  assert (E1 : forall u, geo_energy s0 u = 1 / 2 * work nn u (geo s0 u)).
  { intros u0. rewrite work_geo. unfold geo_energy. rewrite <- rs_scale. apply rs_ext. intros q _. cbn [rs]. field. }
  assert (E2 : work nn v (geo s0 u) = work nn u (geo s0 v)).
  { rewrite !work_geo. apply rs_ext. intros q Hq. f_equal. rewrite rs_swap. apply rs_ext. intros i Hi. apply rs_ext. intros j Hj.
    rewrite (Sy q j i) by assumption. f_equal. apply rs_ext. intros; ring. }
  split; [apply E1|]. split; [exact E2|]. split; [|split].
  - assert (G : forall q i j, grad_u (fun a i => u a i + v a i) q i j = grad_u u q i j + grad_u v q i j).
    { intros q i j. unfold Layered_Model.grad_u. rewrite <- rs_plus. apply rs_ext. intros; ring. }
    replace (work nn v (geo s0 u)) with (1 / 2 * work nn v (geo s0 u) + 1 / 2 * work nn u (geo s0 v)) by (rewrite E2; field).
    rewrite !E1, !work_geo, <- !rs_scale, <- !rs_plus. apply rs_ext. intros q _. cbn [rs]. rewrite !G. ring.
  - intros Sh Ht a c. unfold geo_residual. apply rs_zero. intros q Hq. apply rs_zero. intros i _.
    assert (G : forall c j, grad_u u q c j = 0).
    { intros c' j. unfold Layered_Model.grad_u. rewrite (rs_ext _ _ (fun a => u 0%nat c' * dNdx q a j)) by (intros b _; rewrite (Ht b 0%nat c'); reflexivity).
      rewrite rs_scale, dNdx_sum by assumption. ring. }
    rewrite (rs_zero 3 (fun j => s0 q i j * grad_u u q c j)) by (intros; rewrite G; ring). ring.
  - intros Hw Hp. unfold geo_energy. apply rs_nonneg. intros q Hq. apply Rmult_le_pos; [apply Hw, Hq|].
    apply Rle_trans with (1 / 2 * rs 3 (fun c => rs 3 (fun i => rs 3 (fun j => s0 q i j * (grad_u u q c i * grad_u u q c j))))).
    + apply Rmult_le_pos; [lra|]. apply rs_nonneg. intros c _. apply (Hp q (fun i => grad_u u q c i) Hq).
    + right. cbn [rs]. field.
Qed.
End Elem.
Print Assumptions C84_work.
Print Assumptions C84_balance.
Print Assumptions C84_patch.
Print Assumptions C84_thermal.
Print Assumptions C84_geometric.

(** ** One element through the laminate *)
Lemma rs_list n (l : list R) : length l = n -> rs n (fun i => nth i l 0) = rsuml l.
Proof.
  intros <-. induction l as [|x l IH] using rev_ind; [reflexivity|]. rewrite app_length. cbn [length]. rewrite Nat.add_1_r. cbn [rs].
  rewrite rsuml_app, app_nth2, Nat.sub_diag by lia. cbn [nth rsuml fold_right]. rewrite Rplus_0_r. f_equal. rewrite <- IH. apply rs_ext. intros i Hi. apply app_nth1. exact Hi.
Qed.
Definition q0 : qpoint := {| q_xi := 0; q_eta := 0; q_zeta := 0; q_w := 0; q_ply := 0 |}.
(** A cell with constant Jacobian (a box or a parallelepiped) under uniform strain stores the volume times the
    thickness-weighted mean of the ply energies, for any stacking: the in-plane laminate stiffness, exactly. *)
Theorem C84_laminate gi gz Di Dz thick Cply nn dN X J0 c A :
  let pts := layered_quadrature gi gz thick in let nq := length pts in
  let w := fun n => q_w (nth n pts q0) in let C := fun n => nth (q_ply (nth n pts q0)) Cply (fun _ _ _ _ => 0) in
  gauss_rule gi Di -> gauss_rule gz Dz -> shapes_ok nq nn dN -> (forall q, (q < nq)%nat -> det3 (jac nn dN X q) = J0) -> J0 <> 0 ->
  length Cply = length thick -> (forall k, (k < length thick)%nat -> minor_sym (nth k Cply (fun _ _ _ _ => 0))) ->
  let e := fun i j => (A i j + A j i) / 2 in
  work nn (affine X c A) (residual nq nn dN w X C None (affine X c A)) =
  J0 * rsuml (map (fun k => nth k thick 0 / rsuml thick * energy (nth k Cply (fun _ _ _ _ => 0)) e e) (seq 0 (length thick))).
Proof.
  intros pts nq w C Hi Hz Sh HJ HJ0 Lc Hm e.
  assert (Ck : cell_ok nq nn dN X) by (intros q Hq; rewrite HJ by exact Hq; exact HJ0).
  assert (Pl : forall n, (n < nq)%nat -> (q_ply (nth n pts q0) < length thick)%nat).
  { intros n Hn. pose proof (nth_In pts q0 Hn) as I. unfold pts, layered_quadrature in I. apply in_flat_map in I. destruct I as (k & Hk & I). apply in_seq in Hk.
    fold (layered_quadrature gi gz thick) in I. fold pts in I. rewrite (ply_of_points _ _ _ _ _ I). lia. }
  assert (Am : all_minor nq C) by (intros q Hq; apply Hm, Pl, Hq).
  destruct (C84_work nq nn dN w X C None (affine X c A) (affine X c A) Am) as (W & _). rewrite W. clear W.
  destruct (C84_patch nq nn dN w X C c A Sh Ck) as (Pt & _).
  set (En := fun k => energy (nth k Cply (fun _ _ _ _ => 0)) e e).
  transitivity (rs nq (fun q => J0 * (w q * En (q_ply (nth q pts q0))))).
  { apply rs_ext. intros q Hq. unfold jxw. rewrite (HJ q Hq). rewrite (Rmult_comm (w q)), Rmult_assoc. do 2 f_equal. unfold En, energy.
    apply rs_ext. intros i Hi'. apply rs_ext. intros j Hj'. destruct (Pt q i j Hq Hi' Hj') as (-> & ->). reflexivity. }
  rewrite rs_scale. f_equal.
  transitivity (qsum pts (fun q => En (q_ply q) * q_zeta q ^ 0)).
  { unfold qsum. rewrite <- (rs_list nq) by (rewrite map_length; reflexivity). apply rs_ext. intros n Hn.
    set (f := fun q => q_w q * (En (q_ply q) * q_zeta q ^ 0)). rewrite (nth_indep _ 0 (f q0)) by (rewrite map_length; exact Hn). rewrite map_nth. unfold f, w. cbn [pow]. ring. }
  unfold pts. rewrite (C84_moments gi gz Di Dz thick En 0 Hi Hz ltac:(lia)). apply rsuml_ext. intros k Hk. apply in_seq in Hk.
  fold (En k). cbn [Nat.add INR]. rewrite !pow_1, firstn_S_sum by lia. unfold Rdiv. rewrite Rinv_1. ring.
Qed.
Print Assumptions C84_laminate.

(** ** HEX8 *)
(** Trilinear shape gradients with the nodes in mesh order, on the unit cube. *)
Definition corner (a I : nat) : R :=
  nth I (nth a [[0; 0; 0]; [1; 0; 0]; [1; 1; 0]; [0; 1; 0]; [0; 0; 1]; [1; 0; 1]; [1; 1; 1]; [0; 1; 1]] []) 0.
Definition factor (a I : nat) (x : R) : R := corner a I * x + (1 - corner a I) * (1 - x).
Definition slope (a I : nat) : R := 2 * corner a I - 1.
Definition hex8_dN (pt : nat -> R) (a I : nat) : R :=
  match I with
  | 0%nat => slope a 0 * factor a 1 (pt 1%nat) * factor a 2 (pt 2%nat)
  | 1%nat => factor a 0 (pt 0%nat) * slope a 1 * factor a 2 (pt 2%nat)
  | _ => factor a 0 (pt 0%nat) * factor a 1 (pt 1%nat) * slope a 2
  end.
(** They meet the hypotheses at all points, and a box cell has the product of its sides as Jacobian. *)
Example C84_hex8 (pts : nat -> nat -> R) (sides : nat -> R) nq :
  let dN := fun q => hex8_dN (pts q) in let X := fun a i => sides i * corner a i in
  shapes_ok nq 8 dN /\ forall q, det3 (jac 8 dN X q) = sides 0%nat * sides 1%nat * sides 2%nat.
Proof.
  intros dN X. split.
  - intros q I Hq HI. unfold dN. idx I; unfold hex8_dN, factor, slope, corner; cbn [rs nth]; ring.
  - intros q. assert (J : forall i I, (i < 3)%nat -> (I < 3)%nat -> jac 8 dN X q i I = if Nat.eqb i I then sides i else 0).
    { intros i I Hi HI. unfold jac, dN, X. idx i; idx I; unfold hex8_dN, factor, slope, corner; cbn [rs nth Nat.eqb]; ring. }
    unfold det3. rewrite !J by lia. cbn [Nat.eqb]. ring.
Qed.
Print Assumptions C84_hex8.
