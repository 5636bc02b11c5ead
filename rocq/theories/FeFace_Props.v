(** Property C89: selected faces, surface weights, points, interpolation and derivatives. *)
From Coq Require Import Reals List Arith Bool Lia Lra.
From Verif Require Import Tmc_Model Tmc_Props Adaptive_Model Adaptive_Props FeFace_Model.
Import ListNotations.
Open Scope R_scope.

Lemma inv2_right A i k : det2 A <> 0 -> (i < 2)%nat -> (k < 2)%nat -> rs 2 (fun j => A i j * inv2 A j k) = if Nat.eqb i k then 1 else 0.
Proof. intros D Hi Hk. destruct i as [|[|i]]; try lia; destruct k as [|[|k]]; try lia; unfold inv2; cbn -[det2]; unfold det2 in *; field; exact D. Qed.
Lemma inv2_left A i k : det2 A <> 0 -> (i < 2)%nat -> (k < 2)%nat -> rs 2 (fun j => inv2 A i j * A j k) = if Nat.eqb i k then 1 else 0.
Proof. intros D Hi Hk. destruct i as [|[|i]]; try lia; destruct k as [|[|k]]; try lia; unfold inv2; cbn -[det2]; unfold det2 in *; field; exact D. Qed.
Definition dim_ok (dim : nat) : Prop := dim = 2%nat \/ dim = 3%nat.
Lemma invd_right dim A i k : dim_ok dim -> detd dim A <> 0 -> (i < dim)%nat -> (k < dim)%nat -> rs dim (fun j => A i j * invd dim A j k) = if Nat.eqb i k then 1 else 0.
Proof. intros [->| ->]; [apply inv2_right|apply inv3_right]. Qed.
Lemma invd_left dim A i k : dim_ok dim -> detd dim A <> 0 -> (i < dim)%nat -> (k < dim)%nat -> rs dim (fun j => invd dim A i j * A j k) = if Nat.eqb i k then 1 else 0.
Proof. intros [->| ->]; [apply inv2_left|apply inv3_left]. Qed.

(** ** Face selection *)
Definition holds_at {P} (d : P) (points : list P) (f : loc_fn P) (n : nat) : Prop :=
  match f with LF1 f => f (nth n points d) = true | LF2 f => f (nth n points d) n = true | LFbad => False end.
Fixpoint lex_sorted (l : list (nat * nat)) : Prop :=
  match l with [] => True | p :: l => (forall q, In q l -> (fst p < fst q)%nat \/ (fst p = fst q /\ (snd p < snd q)%nat)) /\ lex_sorted l end.
Lemma lex_filter f l : lex_sorted l -> lex_sorted (filter f l).
Proof. induction l as [|p l IH]; [exact (fun H => H)|]. intros [H1 H2]. cbn [filter]. destruct (f p); [|apply IH, H2]. split; [|apply IH, H2]. intros q Hq. apply H1. apply filter_In in Hq. apply Hq. Qed.
Lemma lex_prod n m : forall s, lex_sorted (list_prod (seq s n) (seq 0 m)).
Proof.
  induction n as [|n IH]; intros s; [exact I|]. cbn [seq list_prod].
  assert (G : forall t k l, (forall q, In q l -> (s < fst q)%nat) -> lex_sorted l -> lex_sorted (map (fun y => (s, y)) (seq t k) ++ l)).
  { intros t k. revert t. induction k as [|k IHk]; intros t l Hl Hs; [exact Hs|]. cbn [seq map app lex_sorted]. split; [|apply IHk; assumption].
    intros q Hq. apply in_app_or in Hq. destruct Hq as [Hq|Hq]; [|left; cbn; apply Hl, Hq]. apply in_map_iff in Hq. destruct Hq as (y & <- & Hy). apply in_seq in Hy. right. cbn. split; [reflexivity|lia]. }
  apply G; [|apply IH]. intros [a b] Hq. apply in_prod_iff in Hq. destruct Hq as [Ha _]. apply in_seq in Ha. cbn. lia.
Qed.
(** Each location function gets the list of exactly those (cell, local face) pairs all of whose corner nodes satisfy it, in
    order and without repetition; the call raises exactly when a function takes a wrong number of arguments. *)
Theorem C89_selection {P} (d : P) points cells face_inds (fns : option (list (loc_fn P))) :
  (get_boundary_conditions_inds d points cells face_inds fns = None <-> exists l, fns = Some l /\ In LFbad l) /\
  forall out, get_boundary_conditions_inds d points cells face_inds fns = Some out ->
    length out = match fns with None => 0%nat | Some l => length l end /\
    forall l i f, fns = Some l -> nth_error l i = Some f -> exists sel, nth_error out i = Some sel /\ lex_sorted sel /\
      forall c k, In (c, k) sel <-> (c < length cells)%nat /\ (k < length face_inds)%nat /\ forall a, In a (nth k face_inds []) -> holds_at d points f (nth a (nth c cells []) 0%nat).
Proof.
  assert (S : forall f c k, In (c, k) (boundary_inds d points cells face_inds f) <-> (c < length cells)%nat /\ (k < length face_inds)%nat /\ forall a, In a (nth k face_inds []) -> holds_at d points f (nth a (nth c cells []) 0%nat)).
  { intros f c k. unfold boundary_inds. rewrite filter_In, in_prod_iff, !in_seq, forallb_forall. unfold face_nodes. cbn [fst snd]. split.
    - intros [[H1 H2] H3]. split; [lia|]. split; [lia|]. intros a Ha. specialize (H3 (nth a (nth c cells []) 0%nat) ltac:(apply in_map_iff; eauto)). destruct f; cbn in *; [exact H3|exact H3|discriminate].
    - intros (H1 & H2 & H3). split; [lia|]. intros x Hx. apply in_map_iff in Hx. destruct Hx as (a & <- & Ha). specialize (H3 a Ha). destruct f; cbn in *; [exact H3|exact H3|contradiction]. }
  destruct fns as [l|]; cbn [get_boundary_conditions_inds].
  - assert (G : (boundary_list d points cells face_inds l = None <-> In LFbad l) /\ forall out, boundary_list d points cells face_inds l = Some out -> length out = length l /\
        forall i f, nth_error l i = Some f -> nth_error out i = Some (boundary_inds d points cells face_inds f)).
    { induction l as [|f l [IH1 IH2]]; cbn [boundary_list].
      - split; [split; [discriminate|intros []]|]. intros out [= <-]. split; [reflexivity|]. intros [|i] f H; discriminate.
      - destruct f as [f|f|]; [| |split; [split; [left; reflexivity|reflexivity]|discriminate]].
        + destruct (boundary_list d points cells face_inds l) as [o|] eqn:E.
          * split; [split; [discriminate|intros [H|H]; [discriminate|apply IH1 in H; discriminate]]|]. intros out [= <-]. destruct (IH2 o eq_refl) as [L H]. split; [cbn; lia|]. intros [|i] g Hg; cbn in *; [congruence|apply H, Hg].
          * split; [split; [intros _; right; apply IH1; reflexivity|reflexivity]|discriminate].
        + destruct (boundary_list d points cells face_inds l) as [o|] eqn:E.
          * split; [split; [discriminate|intros [H|H]; [discriminate|apply IH1 in H; discriminate]]|]. intros out [= <-]. destruct (IH2 o eq_refl) as [L H]. split; [cbn; lia|]. intros [|i] g Hg; cbn in *; [congruence|apply H, Hg].
          * split; [split; [intros _; right; apply IH1; reflexivity|reflexivity]|discriminate]. }
    destruct G as [G1 G2]. split.
    + rewrite G1. split; [intros H; exists l; split; [reflexivity|exact H]|intros (l' & [= <-] & H); exact H].
    + intros out H. destruct (G2 out H) as [L E]. split; [exact L|]. intros l' i f [= <-] Hf. eexists. split; [apply E, Hf|]. split; [apply lex_filter, lex_prod|apply S].
  - split; [split; [discriminate|intros (l & H & _); discriminate]|]. intros out [= <-]. split; [reflexivity|]. intros l i f H. discriminate.
Qed.
Print Assumptions C89_selection.
(** A face shared by two cells is selected from both or from neither: selection only looks at the face's nodes. So a location
    inside the body selects its faces twice, and a load given there acts twice. *)
Theorem C89_interior_twice {P} (d : P) points cells face_inds (f : loc_fn P) c k c' k' : (c < length cells)%nat -> (k < length face_inds)%nat -> (c' < length cells)%nat -> (k' < length face_inds)%nat ->
  (forall n, In n (map (fun a => nth a (nth c cells []) 0%nat) (nth k face_inds [])) <-> In n (map (fun a => nth a (nth c' cells []) 0%nat) (nth k' face_inds []))) ->
  (In (c, k) (boundary_inds d points cells face_inds f) <-> In (c', k') (boundary_inds d points cells face_inds f)).
Proof.
  assert (G : forall c k c' k', (c' < length cells)%nat -> (k' < length face_inds)%nat ->
     (forall n, In n (map (fun a => nth a (nth c' cells []) 0%nat) (nth k' face_inds [])) -> In n (map (fun a => nth a (nth c cells []) 0%nat) (nth k face_inds []))) ->
     In (c, k) (boundary_inds d points cells face_inds f) -> In (c', k') (boundary_inds d points cells face_inds f)).
  { intros a b a' b' H1 H2 H H3. unfold boundary_inds in *. apply filter_In in H3. destruct H3 as [_ H3]. apply filter_In. split; [apply in_prod_iff; split; apply in_seq; lia|].
    rewrite forallb_forall in *. intros n Hn. apply H3. apply H. exact Hn. }
  intros H1 H2 H3 H4 H. split; apply G; try assumption; intros n; apply H.
Qed.
Print Assumptions C89_interior_twice.

(** ** Surface weights *)
Lemma sqrt_sq_scale s x : 0 <= s -> 0 <= x -> sqrt (s * s * x) = s * sqrt x.
Proof. intros Hs Hx. rewrite sqrt_mult_alt by (apply Rmult_le_pos; assumption). rewrite sqrt_square by exact Hs. reflexivity. Qed.
Definition image (dim : nat) (J : nat -> nat -> R) (t : nat -> R) (i : nat) : R := rs dim (fun I => J i I * t I).
Definition sumsq (d : nat) (a : nat -> R) : R := rs d (fun i => a i * a i).
Lemma sumsq_nonneg d a : 0 <= sumsq d a.
Proof. apply rs_nonneg. intros i _. replace (a i * a i) with (Rsqr (a i)) by reflexivity. apply Rle_0_sqr. Qed.
(** In three dimensions the weight of a face point is the area element of the mapped facet times the rule's weight: with [t0], [t1] the
    columns of the facet Jacobian, it is [w |J t0 x J t1|], on cells with positive Jacobian. An inverted cell gives the opposite sign. *)
Theorem C89_area nn dN X t0 t1 n s w : let J := jacobian nn dN X in detd 3 J <> 0 -> norm 3 (cross t0 t1) <> 0 -> s = 1 \/ s = -1 ->
  (forall i, (i < 3)%nat -> n i = s * cross t0 t1 i / norm 3 (cross t0 t1)) ->
  nanson 3 nn dN X n (facet_weight3 t0 t1 w) = (if Rlt_dec 0 (detd 3 J) then 1 else -1) * (w * norm 3 (cross (image 3 J t0) (image 3 J t1))).
Proof.
  intros J D Z Hs Hn. unfold nanson. fold J. set (c := cross t0 t1) in *. set (l := norm 3 c) in *. set (dt := detd 3 J) in *.
  set (m := fun j => rs 3 (fun I => n I * invd 3 J I j)).
  assert (L : 0 < l) by (assert (L0 : 0 <= l) by apply sqrt_pos; lra).
  assert (Hm : forall j, (j < 3)%nat -> m j = s * / l * / dt * cross (image 3 J t0) (image 3 J t1) j).
  { intros j Hj. unfold m. rewrite (rs_ext 3 _ (fun I => s * / l * (c I * invd 3 J I j))) by (intros I HI; rewrite Hn by exact HI; field; lra). rewrite rs_scale. rewrite !Rmult_assoc. do 2 f_equal.
    unfold dt, c, invd, detd, image in *. cbn [Nat.eqb] in *. destruct j as [|[|[|j]]]; try lia; unfold inv3; cbn -[det3]; unfold det3 in *; cbn; field; exact D. }
  assert (E : rs 3 (fun j => m j * m j) = (/ l * / Rabs dt) * (/ l * / Rabs dt) * sumsq 3 (cross (image 3 J t0) (image 3 J t1))).
  { unfold sumsq. rewrite <- rs_scale. apply rs_ext. intros j Hj. rewrite Hm by exact Hj. assert (Ss : s * s = 1) by (destruct Hs; subst s; ring).
    assert (Sd : Rabs dt * Rabs dt = dt * dt) by (rewrite <- Rabs_mult; apply Rabs_pos_eq; apply Rle_0_sqr).
    assert (Id : / Rabs dt * / Rabs dt = / dt * / dt) by (rewrite <- !Rinv_mult, Sd; reflexivity).
    transitivity ((s * s) * (/ l * / l) * (/ dt * / dt) * (cross (image 3 J t0) (image 3 J t1) j * cross (image 3 J t0) (image 3 J t1) j)); [ring|]. rewrite Ss, <- Id. ring. }
  change (rs 3 (fun j => rs 3 (fun I => n I * invd 3 J I j) * rs 3 (fun I => n I * invd 3 J I j))) with (rs 3 (fun j => m j * m j)). rewrite E.
  assert (Ad : 0 < Rabs dt) by (apply Rabs_pos_lt; exact D).
  rewrite sqrt_sq_scale; [|apply Rmult_le_pos; apply Rlt_le, Rinv_0_lt_compat; assumption|apply sumsq_nonneg].
  change (sqrt (sumsq 3 (cross (image 3 J t0) (image 3 J t1)))) with (norm 3 (cross (image 3 J t0) (image 3 J t1))).
  unfold facet_weight3. fold c l. destruct (Rlt_dec 0 dt) as [Hp|Hp].
  - rewrite Rabs_pos_eq by lra. field. lra.
  - rewrite Rabs_left by lra. field. lra.
Qed.
Print Assumptions C89_area.
(** In two dimensions it is the length element of the mapped edge. *)
Theorem C89_length nn dN X t0 n s w : let J := jacobian nn dN X in detd 2 J <> 0 -> norm 2 t0 <> 0 -> s = 1 \/ s = -1 ->
  (forall i, (i < 2)%nat -> n i = s * turn t0 i / norm 2 t0) ->
  nanson 2 nn dN X n (facet_weight2 t0 w) = (if Rlt_dec 0 (detd 2 J) then 1 else -1) * (w * norm 2 (image 2 J t0)).
Proof.
  intros J D Z Hs Hn. unfold nanson. fold J. set (l := norm 2 t0) in *. set (dt := detd 2 J) in *.
  set (m := fun j => rs 2 (fun I => n I * invd 2 J I j)).
  assert (L : 0 < l) by (assert (L0 : 0 <= l) by apply sqrt_pos; lra).
  assert (Hm : forall j, (j < 2)%nat -> m j = s * / l * / dt * turn (image 2 J t0) j).
  { intros j Hj. unfold m. rewrite (rs_ext 2 _ (fun I => s * / l * (turn t0 I * invd 2 J I j))) by (intros I HI; rewrite Hn by exact HI; field; lra). rewrite rs_scale. rewrite !Rmult_assoc. do 2 f_equal.
    unfold dt, invd, detd, image in *. cbn [Nat.eqb] in *. destruct j as [|[|j]]; try lia; unfold inv2; cbn -[det2]; unfold det2 in *; cbn; field; exact D. }
  assert (E : rs 2 (fun j => m j * m j) = (/ l * / Rabs dt) * (/ l * / Rabs dt) * sumsq 2 (image 2 J t0)).
  { assert (Ss : s * s = 1) by (destruct Hs; subst s; ring). assert (Sd : Rabs dt * Rabs dt = dt * dt) by (rewrite <- Rabs_mult; apply Rabs_pos_eq; apply Rle_0_sqr).
    assert (Id : / Rabs dt * / Rabs dt = / dt * / dt) by (rewrite <- !Rinv_mult, Sd; reflexivity).
    unfold sumsq. cbn [rs]. rewrite !Hm by lia. cbn [turn]. set (p := image 2 J t0 0%nat). set (q := image 2 J t0 1%nat).
    transitivity ((s * s) * (/ l * / l) * (/ dt * / dt) * (p * p + q * q)); [ring|]. rewrite Ss, <- Id. ring. }
  change (rs 2 (fun j => rs 2 (fun I => n I * invd 2 J I j) * rs 2 (fun I => n I * invd 2 J I j))) with (rs 2 (fun j => m j * m j)). rewrite E.
  assert (Ad : 0 < Rabs dt) by (apply Rabs_pos_lt; exact D).
  rewrite sqrt_sq_scale; [|apply Rmult_le_pos; apply Rlt_le, Rinv_0_lt_compat; assumption|apply sumsq_nonneg].
  change (sqrt (sumsq 2 (image 2 J t0))) with (norm 2 (image 2 J t0)). unfold facet_weight2. fold l. destruct (Rlt_dec 0 dt) as [Hp|Hp].
  - rewrite Rabs_pos_eq by lra. field. lra.
  - rewrite Rabs_left by lra. field. lra.
Qed.
Print Assumptions C89_length.

(** ** Points, interpolation and derivatives *)
Section Fields.
Variables (dim nn : nat) (N : nat -> R) (dN : nat -> nat -> R) (X : nat -> nat -> R).
Notation J := (jacobian nn dN X).
Definition unity : Prop := rs nn N = 1.
Definition unity_grads : Prop := forall I, (I < dim)%nat -> rs nn (fun a => dN a I) = 0.
(** Affine fields are reproduced: the interpolated value is the field at the quadrature point and the computed gradient is the
    field's. Interpolation is linear and, where the shape functions are not negative, keeps bounds. *)
Theorem C89_affine (c : nat -> R) (A : nat -> nat -> R) v : unity -> let u := fun a v => c v + rs dim (fun k => A v k * X a k) in
  to_quad nn N u v = c v + rs dim (fun k => A v k * quad_point nn N X k) /\
  (dim_ok dim -> unity_grads -> detd dim J <> 0 -> forall j, (j < dim)%nat -> to_grad dim nn dN X u v j = A v j).
Proof using Type.
  intros U u. split.
  - unfold to_quad, u. rewrite (rs_ext nn _ (fun a => c v * N a + rs dim (fun k => A v k * (N a * X a k)))) by (intros a _; rewrite Rmult_plus_distr_r, <- rs_scale_r; f_equal; apply rs_ext; intros; ring).
    rewrite rs_plus, rs_scale, U, rs_swap. f_equal; [ring|]. apply rs_ext. intros k _. rewrite rs_scale. reflexivity.
  - intros Dm Ug D j Hj.
    assert (G0 : rs nn (fun a => grads dim nn dN X a j) = 0) by (unfold grads; rewrite rs_swap; apply rs_zero; intros I HI; rewrite rs_scale_r, Ug by exact HI; ring).
    assert (G1 : forall k, (k < dim)%nat -> rs nn (fun a => X a k * grads dim nn dN X a j) = if Nat.eqb k j then 1 else 0).
    { intros k Hk. rewrite <- (invd_right dim J k j Dm D Hk Hj). unfold grads.
      rewrite (rs_ext nn _ (fun a => rs dim (fun I => X a k * (dN a I * invd dim J I j)))) by (intros a _; rewrite rs_scale; reflexivity).
      rewrite rs_swap. apply rs_ext. intros I _. change (J k I) with (rs nn (fun a => X a k * dN a I)). rewrite <- rs_scale_r. apply rs_ext. intros; ring. }
    unfold to_grad, u. rewrite (rs_ext nn _ (fun a => c v * grads dim nn dN X a j + rs dim (fun k => A v k * (X a k * grads dim nn dN X a j)))) by (intros a _; rewrite Rmult_plus_distr_r, <- rs_scale_r; f_equal; apply rs_ext; intros; ring).
    rewrite rs_plus, rs_scale, G0, rs_swap. rewrite (rs_ext dim _ (fun k => (if Nat.eqb k j then 1 else 0) * A v k)) by (intros k Hk; rewrite rs_scale, G1 by exact Hk; ring).
    rewrite (rs_delta dim j (fun k => A v k) Hj). ring.
Qed.
Theorem C89_bounds (u : nat -> nat -> R) v lo hi : unity -> (forall a, (a < nn)%nat -> 0 <= N a) -> (forall a, (a < nn)%nat -> lo <= u a v <= hi) -> lo <= to_quad nn N u v <= hi.
Proof using Type.
  intros U P B. unfold to_quad. split.
  - replace lo with (rs nn (fun a => lo * N a)) by (rewrite rs_scale, U; ring). apply rs_le. intros a Ha. apply Rmult_le_compat_r; [apply P; exact Ha|apply B; exact Ha].
  - replace hi with (rs nn (fun a => hi * N a)) by (rewrite rs_scale, U; ring). apply rs_le. intros a Ha. apply Rmult_le_compat_r; [apply P; exact Ha|apply B; exact Ha].
Qed.
End Fields.
Print Assumptions C89_affine.
Print Assumptions C89_bounds.

(** ** Second derivatives *)
Section Hessian.
Variables (dim nn : nat) (dN : nat -> nat -> R) (d2N : nat -> nat -> nat -> R) (X r : nat -> nat -> R).
Notation J := (jacobian nn dN X).
(** Contract of the shape functions of a quadratic element with reference nodes [r]: first and second derivatives of linear and
    quadratic polynomials are exact (at the reference point considered). *)
Definition reproduces1 : Prop := (forall I, (I < dim)%nat -> rs nn (fun a => dN a I) = 0) /\ (forall K I, (K < dim)%nat -> (I < dim)%nat -> rs nn (fun a => r a K * dN a I) = delta K I).
Definition reproduces : Prop := reproduces1 /\
  (forall I L, (I < dim)%nat -> (L < dim)%nat -> rs nn (fun a => d2N a I L) = 0) /\
  (forall K I L, (K < dim)%nat -> (I < dim)%nat -> (L < dim)%nat -> rs nn (fun a => r a K * d2N a I L) = 0) /\
  (forall K M I L, (K < dim)%nat -> (M < dim)%nat -> (I < dim)%nat -> (L < dim)%nat -> rs nn (fun a => r a K * r a M * d2N a I L) = delta K I * delta M L + delta K L * delta M I).
(** The cell is an affine image of the reference cell. *)
Definition affine_cell (x0 : nat -> R) (F : nat -> nat -> R) : Prop := forall a i, (a < nn)%nat -> (i < dim)%nat -> X a i = x0 i + rs dim (fun K => F i K * r a K).
Lemma affine_jac x0 F i I : reproduces1 -> affine_cell x0 F -> (i < dim)%nat -> (I < dim)%nat -> J i I = F i I.
Proof using Type.
  intros (H0 & H1) HX Hi HI. unfold jacobian. rewrite (rs_ext nn _ (fun a => x0 i * dN a I + rs dim (fun K => F i K * (r a K * dN a I)))) by (intros a Ha; rewrite HX by assumption; rewrite Rmult_plus_distr_r, <- rs_scale_r; f_equal; apply rs_ext; intros; ring).
  rewrite rs_plus, rs_scale, H0, rs_swap by exact HI. rewrite (rs_ext dim _ (fun K => (if Nat.eqb K I then 1 else 0) * F i K)) by (intros K HK; rewrite rs_scale, H1 by assumption; unfold delta; ring). rewrite (rs_delta dim I (fun K => F i K) HI). ring.
Qed.
(** On an affine cell the computed second derivatives of every quadratic field are exact. *)
Theorem C89_hessian x0 F c (b : nat -> R) (H : nat -> nat -> R) k l : dim_ok dim -> reproduces -> affine_cell x0 F -> detd dim J <> 0 -> (k < dim)%nat -> (l < dim)%nat ->
  u_hessian dim nn dN d2N X (fun a _ => c + rs dim (fun i => b i * X a i) + 1 / 2 * rs dim (fun i => rs dim (fun j => H i j * X a i * X a j))) 0 k l = 1 / 2 * (H k l + H l k).
Proof using Type.
  intros Dm Rp HX D Hk Hl. pose proof Rp as ((H0 & H1) & H2 & H3 & H4). set (G := invd dim J).
  (* pull the field back to the reference cell *)
  set (c' := c + rs dim (fun i => b i * x0 i) + 1 / 2 * rs dim (fun i => rs dim (fun j => H i j * x0 i * x0 j))).
  set (b' := fun K => rs dim (fun i => b i * F i K) + 1 / 2 * rs dim (fun i => rs dim (fun j => H i j * (F i K * x0 j + x0 i * F j K)))).
  set (H' := fun K M => rs dim (fun i => rs dim (fun j => H i j * F i K * F j M))).
  assert (E : forall a, (a < nn)%nat -> c + rs dim (fun i => b i * X a i) + 1 / 2 * rs dim (fun i => rs dim (fun j => H i j * X a i * X a j)) =
              c' + rs dim (fun K => b' K * r a K) + 1 / 2 * rs dim (fun K => rs dim (fun M => H' K M * (r a K * r a M)))).
  { intros a Ha. assert (HXa : forall i, (i < dim)%nat -> X a i = x0 i + rs dim (fun K => F i K * r a K)) by (intros i Hi; apply HX; assumption). unfold c', b', H'. revert Dm HXa. clear. intros Dm HXa. destruct Dm as [E|E]; rewrite E in *.
    - cbn [rs] in *. rewrite !HXa by lia. ring.
    - cbn [rs] in *. rewrite !HXa by lia. ring. }
  assert (E2 : forall I L, (I < dim)%nat -> (L < dim)%nat -> rs nn (fun a => (c' + rs dim (fun K => b' K * r a K) + 1 / 2 * rs dim (fun K => rs dim (fun M => H' K M * (r a K * r a M)))) * d2N a I L) = 1 / 2 * (H' I L + H' L I)).
  { intros I L HI HL.
    rewrite (rs_ext nn _ (fun a => c' * d2N a I L + rs dim (fun K => b' K * (r a K * d2N a I L)) + 1 / 2 * rs dim (fun K => rs dim (fun M => H' K M * (r a K * r a M * d2N a I L))))).
    2: { intros a _. rewrite !Rmult_plus_distr_r, <- rs_scale_r, Rmult_assoc, <- rs_scale_r. f_equal; [f_equal; apply rs_ext; intros; ring|]. f_equal. apply rs_ext. intros K _. rewrite <- rs_scale_r. apply rs_ext. intros; ring. }
    rewrite rs_plus, rs_plus, !rs_scale, H2 by assumption. rewrite (rs_swap nn dim).
    rewrite (rs_zero dim (fun K => rs nn (fun a => b' K * (r a K * d2N a I L)))) by (intros K HK; rewrite rs_scale, H3 by assumption; ring).
    assert (Q : rs nn (fun a => rs dim (fun K => rs dim (fun M => H' K M * (r a K * r a M * d2N a I L)))) = rs dim (fun K => rs dim (fun M => H' K M * (delta K I * delta M L + delta K L * delta M I)))).
    { rewrite (rs_swap nn dim). apply rs_ext. intros K HK. rewrite (rs_swap nn dim). apply rs_ext. intros M HM. rewrite rs_scale, H4 by assumption. reflexivity. }
    rewrite Q. rewrite (rs_ext dim _ (fun K => (if Nat.eqb K I then 1 else 0) * H' K L + (if Nat.eqb K L then 1 else 0) * H' K I)).
    - rewrite rs_plus, (rs_delta dim I (fun K => H' K L) HI), (rs_delta dim L (fun K => H' K I) HL). ring.
    - intros K HK. rewrite (rs_ext dim _ (fun M => (if Nat.eqb M L then 1 else 0) * (delta K I * H' K M) + (if Nat.eqb M I then 1 else 0) * (delta K L * H' K M))) by (intros; unfold delta; ring).
      rewrite rs_plus, (rs_delta dim L (fun M => delta K I * H' K M) HL), (rs_delta dim I (fun M => delta K L * H' K M) HI). unfold delta. ring. }
  unfold u_hessian, hessian. fold G.
  transitivity (rs dim (fun I => rs dim (fun L => G I k * G L l * (1 / 2 * (H' I L + H' L I))))).
  - rewrite (rs_ext nn _ (fun a => rs dim (fun I => rs dim (fun L => G I k * G L l * ((c' + rs dim (fun K => b' K * r a K) + 1 / 2 * rs dim (fun K => rs dim (fun M => H' K M * (r a K * r a M)))) * d2N a I L))))).
    + rewrite (rs_swap nn dim). apply rs_ext. intros I HI. rewrite (rs_swap nn dim). apply rs_ext. intros L HL. rewrite rs_scale, E2 by assumption. reflexivity.
    + intros a Ha. rewrite E by exact Ha. rewrite <- rs_scale. apply rs_ext. intros I _. rewrite <- rs_scale. apply rs_ext. intros L _. ring.
  - (* F G = identity *)
    assert (FG : forall i m, (i < dim)%nat -> (m < dim)%nat -> rs dim (fun K => F i K * G K m) = if Nat.eqb i m then 1 else 0).
    { intros i m Hi Hm. rewrite <- (invd_right dim J i m Dm D Hi Hm). apply rs_ext. intros K HK. rewrite (affine_jac x0 F i K (proj1 Rp) HX Hi HK). reflexivity. }
    assert (P : forall p q, (p < dim)%nat -> (q < dim)%nat -> rs dim (fun I => rs dim (fun L => G I p * G L q * H' I L)) = H p q).
    { intros p q Hp Hq. transitivity (rs dim (fun i => rs dim (fun j => H i j * (rs dim (fun I => F i I * G I p) * rs dim (fun L => F j L * G L q))))).
      - unfold H'. clear. rewrite (rs_ext dim _ (fun I => rs dim (fun L => rs dim (fun i => rs dim (fun j => H i j * (F i I * G I p) * (F j L * G L q)))))).
        2: { intros I _. apply rs_ext. intros L _. rewrite <- rs_scale. apply rs_ext. intros i _. rewrite <- rs_scale. apply rs_ext. intros; ring. }
        rewrite (rs_ext dim _ (fun I => rs dim (fun i => rs dim (fun L => rs dim (fun j => H i j * (F i I * G I p) * (F j L * G L q)))))) by (intros I _; apply rs_swap).
        rewrite rs_swap. apply rs_ext. intros i _. rewrite (rs_ext dim _ (fun I => rs dim (fun j => rs dim (fun L => H i j * (F i I * G I p) * (F j L * G L q))))) by (intros I _; apply rs_swap).
        rewrite rs_swap. apply rs_ext. intros j _. rewrite (rs_ext dim _ (fun I => H i j * rs dim (fun L => F j L * G L q) * (F i I * G I p))) by (intros I _; rewrite rs_scale; ring). rewrite rs_scale. ring.
      - rewrite (rs_ext dim _ (fun i => (if Nat.eqb i p then 1 else 0) * H i q)); [apply (rs_delta dim p (fun i => H i q) Hp)|].
        intros i Hi. rewrite (rs_ext dim _ (fun j => (if Nat.eqb j q then 1 else 0) * ((if Nat.eqb i p then 1 else 0) * H i j))) by (intros j Hj; rewrite !FG by assumption; ring).
        apply (rs_delta dim q (fun j => (if Nat.eqb i p then 1 else 0) * H i j) Hq). }
    rewrite <- (P k l Hk Hl), <- (P l k Hl Hk).
    rewrite (rs_swap dim dim (fun I L => G I l * G L k * H' I L)). rewrite <- rs_plus, <- rs_scale. apply rs_ext. intros I _. rewrite <- rs_plus, <- rs_scale. apply rs_ext. intros L _. ring.
Qed.
End Hessian.
Print Assumptions C89_hessian.

(** The second derivatives are symmetric, and read from the tabulation at the index basix gives to the derivative [d^2 / dr_i dr_j]
    ([basix.index]: in two dimensions [(p + q)(p + q + 1) / 2 + q], in three [(p + q + r)(p + q + r + 1)(p + q + r + 2) / 6 + (q + r)(q + r + 1) / 2 + r]). *)
Definition order (i j k : nat) : nat := (if Nat.eqb i k then 1 else 0) + (if Nat.eqb j k then 1 else 0).
Definition basix_index (dim i j : nat) : nat :=
  let p := order i j 0 in let q := order i j 1 in let r := order i j 2 in
  if Nat.eqb dim 2 then ((p + q) * (p + q + 1) / 2 + q)%nat else ((p + q + r) * (p + q + r + 1) * (p + q + r + 2) / 6 + (q + r) * (q + r + 1) / 2 + r)%nat.
Theorem C89_tabulation dim (tab : nat -> R) i j : dim_ok dim -> (i < dim)%nat -> (j < dim)%nat -> hessians_ref dim tab i j = tab (basix_index dim i j).
Proof.
  intros [->| ->] Hi Hj.
  - destruct i as [|[|i]]; try lia; destruct j as [|[|j]]; try lia; reflexivity.
  - destruct i as [|[|[|i]]]; try lia; destruct j as [|[|[|j]]]; try lia; reflexivity.
Qed.
Print Assumptions C89_tabulation.
Theorem C89_symmetric dim nn dN (tab : nat -> nat -> R) X u v k l : dim_ok dim -> let d2N := fun a => hessians_ref dim (tab a) in
  u_hessian dim nn dN d2N X u v k l = u_hessian dim nn dN d2N X u v l k.
Proof.
  intros Dm d2N. unfold u_hessian. apply rs_ext. intros a _. f_equal. unfold hessian. rewrite (rs_swap dim dim). apply rs_ext. intros p Hp. apply rs_ext. intros q Hq.
  assert (E : d2N a q p = d2N a p q). { unfold d2N. rewrite !C89_tabulation by assumption. f_equal. unfold basix_index, order. destruct (Nat.eqb dim 2); destruct (Nat.eqb p 0), (Nat.eqb q 0), (Nat.eqb p 1), (Nat.eqb q 1), (Nat.eqb p 2), (Nat.eqb q 2); reflexivity. }
  rewrite E. ring.
Qed.
Print Assumptions C89_symmetric.

(** On an affine cell with positive Jacobian the weights of a face add up to its area: the sum of the rule's weights (1/2 for a triangle,
    1 for a parallelogram) times [|(x1 - x0) x (x2 - x0)|], with [x0], [x1], [x2] the cell's nodes at three corners of the face. *)
Theorem C89_face_area nn nq (dN : nat -> nat -> nat -> R) X r x0 F (n : nat -> R) s (w : nat -> R) v0 v1 v2 :
  (forall q, (q < nq)%nat -> reproduces1 3 nn (dN q) r) -> affine_cell 3 nn X r x0 F -> 0 < det3 F -> (v0 < nn)%nat -> (v1 < nn)%nat -> (v2 < nn)%nat ->
  let t0 := fun i => r v1 i - r v0 i in let t1 := fun i => r v2 i - r v0 i in
  norm 3 (cross t0 t1) <> 0 -> s = 1 \/ s = -1 -> (forall i, (i < 3)%nat -> n i = s * cross t0 t1 i / norm 3 (cross t0 t1)) ->
  rs nq (fun q => nanson 3 nn (dN q) X n (facet_weight3 t0 t1 (w q))) = rs nq w * norm 3 (cross (fun i => X v1 i - X v0 i) (fun i => X v2 i - X v0 i)).
Proof.
  intros Rp HX D H0 H1 H2 t0 t1 Z Hs Hn. rewrite <- rs_scale_r. apply rs_ext. intros q Hq.
  assert (EJ : forall i I, (i < 3)%nat -> (I < 3)%nat -> jacobian nn (dN q) X i I = F i I) by (intros i I Hi HI; apply (affine_jac 3 nn (dN q) X r x0 F i I (Rp q Hq) HX Hi HI)).
  assert (ED : detd 3 (jacobian nn (dN q) X) = det3 F) by (unfold detd; cbn [Nat.eqb]; unfold det3; rewrite !EJ by lia; reflexivity).
  rewrite (C89_area nn (dN q) X t0 t1 n s (w q)); [|rewrite ED; lra|exact Z|exact Hs|exact Hn].
  destruct (Rlt_dec 0 (detd 3 (jacobian nn (dN q) X))) as [_|A]; [|rewrite ED in A; contradiction]. rewrite Rmult_1_l. f_equal.
  assert (EI : forall v i, (v < nn)%nat -> (i < 3)%nat -> image 3 (jacobian nn (dN q) X) (fun K => r v K - r v0 K) i = X v i - X v0 i).
  { intros v i Hv Hi. unfold image. rewrite (HX v i Hv Hi), (HX v0 i H0 Hi). rewrite (rs_ext 3 _ (fun K => F i K * r v K - F i K * r v0 K)) by (intros K HK; rewrite EJ by assumption; ring). rewrite rs_minus. ring. }
  unfold norm. f_equal. unfold t0, t1. cbn [rs cross]. rewrite !EI by (assumption || lia). reflexivity.
Qed.
Print Assumptions C89_face_area.
(** In two dimensions: the sum of the rule's weights (1) times the length of the edge. *)
Theorem C89_edge_length nn nq (dN : nat -> nat -> nat -> R) X r x0 F (n : nat -> R) s (w : nat -> R) v0 v1 :
  (forall q, (q < nq)%nat -> reproduces1 2 nn (dN q) r) -> affine_cell 2 nn X r x0 F -> 0 < det2 F -> (v0 < nn)%nat -> (v1 < nn)%nat ->
  let t0 := fun i => r v1 i - r v0 i in norm 2 t0 <> 0 -> s = 1 \/ s = -1 -> (forall i, (i < 2)%nat -> n i = s * turn t0 i / norm 2 t0) ->
  rs nq (fun q => nanson 2 nn (dN q) X n (facet_weight2 t0 (w q))) = rs nq w * norm 2 (fun i => X v1 i - X v0 i).
Proof.
  intros Rp HX D H0 H1 t0 Z Hs Hn. rewrite <- rs_scale_r. apply rs_ext. intros q Hq.
  assert (EJ : forall i I, (i < 2)%nat -> (I < 2)%nat -> jacobian nn (dN q) X i I = F i I) by (intros i I Hi HI; apply (affine_jac 2 nn (dN q) X r x0 F i I (Rp q Hq) HX Hi HI)).
  assert (ED : detd 2 (jacobian nn (dN q) X) = det2 F) by (unfold detd; cbn [Nat.eqb]; unfold det2; rewrite !EJ by lia; reflexivity).
  rewrite (C89_length nn (dN q) X t0 n s (w q)); [|rewrite ED; lra|exact Z|exact Hs|exact Hn].
  destruct (Rlt_dec 0 (detd 2 (jacobian nn (dN q) X))) as [_|A]; [|rewrite ED in A; contradiction]. rewrite Rmult_1_l. f_equal.
  assert (EI : forall v i, (v < nn)%nat -> (i < 2)%nat -> image 2 (jacobian nn (dN q) X) (fun K => r v K - r v0 K) i = X v i - X v0 i).
  { intros v i Hv Hi. unfold image. rewrite (HX v i Hv Hi), (HX v0 i H0 Hi). rewrite (rs_ext 2 _ (fun K => F i K * r v K - F i K * r v0 K)) by (intros K HK; rewrite EJ by assumption; ring). rewrite rs_minus. ring. }
  unfold norm. f_equal. apply rs_ext. intros i Hi. unfold t0. rewrite !EI by assumption. reflexivity.
Qed.
Print Assumptions C89_edge_length.

(** ** Concrete cases *)
(** A stretched 6-node triangle at the reference point (0, 0). *)
Definition tri_r (a i : nat) : R := match a, i with 1%nat, 0%nat => 1 | 2%nat, 1%nat => 1 | 3%nat, 0%nat => 1 / 2 | 4%nat, _ => 1 / 2 | 5%nat, 1%nat => 1 / 2 | _, _ => 0 end.
Definition tri_dN (a i : nat) : R := match a, i with 0%nat, _ => -3 | 1%nat, 0%nat => -1 | 2%nat, 1%nat => -1 | 3%nat, 0%nat => 4 | 5%nat, 1%nat => 4 | _, _ => 0 end.
Definition tri_tab (a s : nat) : R :=
  match a, s with
  | 0%nat, _ => 4 | 1%nat, 3%nat => 4 | 2%nat, 5%nat => 4 | 3%nat, 3%nat => -8 | 3%nat, 4%nat => -4 | 4%nat, 4%nat => 4 | 5%nat, 4%nat => -4 | 5%nat, 5%nat => -8 | _, _ => 0
  end.
Definition tri_X (a i : nat) : R := match i with 0%nat => 2 * tri_r a 0%nat + tri_r a 1%nat | _ => 3 * tri_r a 1%nat end.
Definition tri_F (i j : nat) : R := match i, j with 0%nat, 0%nat => 2 | 0%nat, _ => 1 | _, 0%nat => 0 | _, _ => 3 end.
Example C89_example : dim_ok 2 /\ reproduces 2 6 tri_dN (fun a => hessians_ref 2 (tri_tab a)) tri_r /\ affine_cell 2 6 tri_X tri_r (fun _ => 0) tri_F /\ detd 2 (jacobian 6 tri_dN tri_X) = 6 /\ 0 < det2 tri_F.
Proof.
  split; [left; reflexivity|]. split; [|split; [|split]].
  - repeat split.
    + intros I H. destruct I as [|[|I]]; try lia; cbn; lra.
    + intros K I H1 H2. destruct K as [|[|K]]; try lia; destruct I as [|[|I]]; try lia; unfold delta; cbn; lra.
    + intros I L H1 H2. destruct I as [|[|I]]; try lia; destruct L as [|[|L]]; try lia; cbn; lra.
    + intros K I L H1 H2 H3. destruct K as [|[|K]]; try lia; destruct I as [|[|I]]; try lia; destruct L as [|[|L]]; try lia; cbn; lra.
    + intros K M I L H1 H2 H3 H4. destruct K as [|[|K]]; try lia; destruct M as [|[|M]]; try lia; destruct I as [|[|I]]; try lia; destruct L as [|[|L]]; try lia; unfold delta; cbn; lra.
  - intros a i Ha Hi. destruct i as [|[|i]]; try lia; unfold tri_X, tri_F; cbn [rs]; lra.
  - unfold detd, det2, jacobian. cbn. lra.
  - unfold det2. cbn. lra.
Qed.
(** The second derivatives are not exact on a cell that is no affine image of the reference cell: on a distorted quadrilateral
    (reference point (0, 0), corner 2 moved to (2, 2)) the linear field [u = x] gets a non-zero mixed second derivative. *)
Definition quad_dN (a i : nat) : R := match a, i with 0%nat, _ => -1 | 1%nat, 0%nat => 1 | 3%nat, 1%nat => 1 | _, _ => 0 end.
Definition quad_tab (a s : nat) : R := match s with 4%nat => match a with 0%nat => 1 | 1%nat => -1 | 2%nat => 1 | _ => -1 end | _ => 0 end.
Definition quad_X (a i : nat) : R := match a, i with 1%nat, 0%nat => 1 | 2%nat, _ => 2 | 3%nat, 1%nat => 1 | _, _ => 0 end.
Theorem C89_curved_refuted : 0 < detd 2 (jacobian 4 quad_dN quad_X) /\ u_hessian 2 4 quad_dN (fun a => hessians_ref 2 (quad_tab a)) quad_X (fun a _ => quad_X a 0%nat) 0 0 1 = 1.
Proof.
  assert (J0 : forall i j, (i < 2)%nat -> (j < 2)%nat -> jacobian 4 quad_dN quad_X i j = delta i j) by (intros i j Hi Hj; destruct i as [|[|i]]; try lia; destruct j as [|[|j]]; try lia; unfold jacobian, delta; cbn; lra).
  assert (D : det2 (jacobian 4 quad_dN quad_X) = 1) by (unfold det2; rewrite !J0 by lia; unfold delta; cbn; lra).
  split; [unfold detd; cbn [Nat.eqb]; lra|]. unfold u_hessian, hessian, invd, inv2. cbn [rs Nat.eqb]. rewrite D, !J0 by lia. unfold delta. cbn. field.
Qed.
Print Assumptions C89_curved_refuted.
(** Two unit squares side by side; a line between them is selected from both cells. *)
Definition two_cells : list (list nat) := [[0; 1; 4; 3]; [1; 2; 5; 4]]%nat.
Definition quad_faces : list (list nat) := [[0; 1]; [1; 2]; [2; 3]; [3; 0]]%nat.
Definition two_points : list (nat * nat) := [(0, 0); (1, 0); (2, 0); (0, 1); (1, 1); (2, 1)]%nat.
Example C89_faces : get_boundary_conditions_inds (0, 0)%nat two_points two_cells quad_faces (Some [LF1 (fun p => Nat.eqb (fst p) 1); LF2 (fun p n => Nat.eqb (snd p) 0 && negb (Nat.eqb n 2))])
  = Some [[(0, 1); (1, 3)]; [(0, 0)]]%nat /\ get_boundary_conditions_inds (0, 0)%nat two_points two_cells quad_faces (Some [LF1 (fun _ => true); LFbad]) = None.
Proof. split; reflexivity. Qed.
(** A tetrahedron: face 0 with nodes 1, 2, 3 has area [sqrt 3 / 2] and gets that weight. *)
Definition tet_dN (a i : nat) : R := match a, i with 0%nat, _ => -1 | 1%nat, 0%nat => 1 | 2%nat, 1%nat => 1 | 3%nat, 2%nat => 1 | _, _ => 0 end.
Definition tet_r (a i : nat) : R := match a, i with 1%nat, 0%nat => 1 | 2%nat, 1%nat => 1 | 3%nat, 2%nat => 1 | _, _ => 0 end.
Example C89_tet : reproduces1 3 4 tet_dN tet_r /\ affine_cell 3 4 tet_r tet_r (fun _ => 0) delta /\ 0 < det3 delta /\
  norm 3 (cross (fun i => tet_r 2 i - tet_r 1 i) (fun i => tet_r 3 i - tet_r 1 i)) = sqrt 3.
Proof.
  split; [|split; [|split]].
  - split.
    + intros I H. destruct I as [|[|[|I]]]; try lia; cbn; lra.
    + intros K I H1 H2. destruct K as [|[|[|K]]]; try lia; destruct I as [|[|[|I]]]; try lia; unfold delta; cbn; lra.
  - intros a i Ha Hi. destruct i as [|[|[|i]]]; try lia; unfold delta; cbn [rs Nat.eqb]; lra.
  - unfold det3, delta. cbn. lra.
  - unfold norm. f_equal. cbn. lra.
Qed.
