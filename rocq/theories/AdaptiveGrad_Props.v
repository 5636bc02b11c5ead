(** C77: the refinement field and the size callback (feax/gene/adaptive.py). *)
From Coq Require Import Reals List Arith Bool Lia Lra Psatz.
From Verif Require Import Tmc_Model Tmc_Props Adaptive_Model Adaptive_Props.
Import ListNotations.
Open Scope R_scope.

(** ** Lists *)
Lemma max1_ge l : forall x y, In y (x :: l) -> y <= max1 x l.
Proof.
  induction l as [|z l IH]; intros x y Hy; unfold max1; cbn [fold_left].
  - destruct Hy as [->|[]]. lra.
  - change (y <= max1 (Rmax x z) l). destruct Hy as [->|[->|Hy]].
    + eapply Rle_trans; [|apply IH; left; reflexivity]. apply Rmax_l.
    + eapply Rle_trans; [|apply IH; left; reflexivity]. apply Rmax_r.
    + apply IH. right. exact Hy.
Qed.
Lemma max1_in l : forall x, In (max1 x l) (x :: l).
Proof.
  induction l as [|z l IH]; intros x; [left; reflexivity|]. change (In (max1 (Rmax x z) l) (x :: z :: l)).
  destruct (IH (Rmax x z)) as [E|H]; [|right; right; exact H]. rewrite <- E. unfold Rmax. destruct (Rle_dec x z); cbn; auto.
Qed.
Lemma max1_scale c l : 0 <= c -> forall x, max1 (c * x) (map (Rmult c) l) = c * max1 x l.
Proof.
  intros Hc. induction l as [|z l IH]; intros x; [reflexivity|]. cbn [map]. change (max1 (Rmax (c * x) (c * z)) (map (Rmult c) l) = c * max1 (Rmax x z) l).
  rewrite <- IH. f_equal. rewrite RmaxRmult by exact Hc. reflexivity.
Qed.

Section Mesh.
Variable points : list pt.
Variable cells : list (list nat).
Lemma scatter_nonneg f n : (forall e, (e < length cells)%nat -> 0 <= f e) -> 0 <= scatter cells f n.
Proof using Type.
  intros H. unfold scatter. apply rs_nonneg. intros i Hi. apply rs_nonneg. intros e He. destruct (Nat.eqb _ n); [apply H; exact He|lra].
Qed.
Lemma scatter_ext f g n : (forall e, (e < length cells)%nat -> f e = g e) -> scatter cells f n = scatter cells g n.
Proof using Type. intros H. unfold scatter. apply rs_ext. intros i Hi. apply rs_ext. intros e He. rewrite (H e He). reflexivity. Qed.
Lemma scatter_scale c f n : scatter cells (fun e => c * f e) n = c * scatter cells f n.
Proof using Type.
  unfold scatter. rewrite <- rs_scale. apply rs_ext. intros i Hi. rewrite <- rs_scale. apply rs_ext. intros e He. destruct (Nat.eqb _ n); ring.
Qed.
Lemma node_avg_nonneg f n : (forall e, (e < length cells)%nat -> 0 <= f e) -> 0 <= node_avg cells f n.
Proof using Type.
  intros H. unfold node_avg. apply Rmult_le_pos; [apply scatter_nonneg; exact H|]. left. apply Rinv_0_lt_compat.
  eapply Rlt_le_trans; [apply Rlt_0_1|apply Rmax_r].
Qed.
Lemma node_avg_ext f g n : (forall e, (e < length cells)%nat -> f e = g e) -> node_avg cells f n = node_avg cells g n.
Proof using Type. intros H. unfold node_avg. rewrite (scatter_ext f g n H). reflexivity. Qed.
Lemma node_avg_scale c f n : node_avg cells (fun e => c * f e) n = c * node_avg cells f n.
Proof using Type. unfold node_avg. rewrite scatter_scale. unfold Rdiv. ring. Qed.
Lemma grad_mag_nonneg rho e : 0 <= grad_mag points cells rho e.
Proof using Type. apply sqrt_pos. Qed.

Definition raw (rho : list R) : list R := map (node_avg cells (grad_mag points cells rho)) (seq 0 (length points)).
Definition gmax (rho : list R) : R := match raw rho with [] => 0 | x :: l => max1 x l end.
Lemma raw_nonneg rho y : In y (raw rho) -> 0 <= y.
Proof using Type. intros H. apply in_map_iff in H. destruct H as (n & <- & _). apply node_avg_nonneg. intros e He. apply grad_mag_nonneg. Qed.
Lemma raw_le rho y : In y (raw rho) -> y <= gmax rho.
Proof using Type. unfold gmax. destruct (raw rho) as [|x l]; [intros []|]. apply max1_ge. Qed.
Lemma gr_cases rho out : gradient_refinement points cells rho = Some out ->
  points <> [] /\ (forall e, (e < length cells)%nat -> det3 (Jmat points cells e) <> 0) /\ In (gmax rho) (raw rho) /\
  ((/ 1000000000000 < gmax rho /\ out = map (fun y => y / gmax rho) (raw rho)) \/ (gmax rho <= / 1000000000000 /\ out = raw rho)).
Proof using Type.
  unfold gradient_refinement, gmax. fold (raw rho). destruct (negb _); [discriminate|]. destruct (existsb _ _) eqn:Es; [discriminate|].
  assert (D : forall e, (e < length cells)%nat -> det3 (Jmat points cells e) <> 0).
  { intros e He Z. assert (existsb (fun e => singular (Jmat points cells e)) (seq 0 (length cells)) = true); [|congruence].
    apply existsb_exists. exists e. split; [apply in_seq; lia|]. unfold singular. destruct (Req_EM_T _ 0); [reflexivity|contradiction]. }
  destruct (raw rho) as [|x l] eqn:Er; [discriminate|]. intros H. split; [intros Z; unfold raw in Er; rewrite Z in Er; discriminate Er|]. split; [exact D|]. split; [apply max1_in|].
  destruct (Rlt_dec _ _) as [L|L]; injection H as <-; [left|right]; (split; [lra|reflexivity]).
Qed.
End Mesh.

(** One value per node, all in [0, 1]; some node has the value 1 unless all values are below 1e-12. *)
Theorem C77_range points cells rho out : gradient_refinement points cells rho = Some out ->
  length out = length points /\ Forall (fun v => 0 <= v <= 1) out /\ (In 1 out \/ Forall (fun v => v <= / 1000000000000) out).
Proof.
  intros E. destruct (gr_cases _ _ _ _ E) as (_ & _ & Gin & [(G & ->)|(G & ->)]).
  - split; [unfold raw; now rewrite !map_length, seq_length|]. split.
    + apply Forall_forall. intros v Hv. apply in_map_iff in Hv. destruct Hv as (y & <- & Hy). pose proof (raw_nonneg _ _ _ _ Hy). pose proof (raw_le _ _ _ _ Hy).
      assert (0 < gmax points cells rho) by lra. split; [apply Rmult_le_pos; [assumption|left; apply Rinv_0_lt_compat; assumption]|].
      apply (Rmult_le_reg_r (gmax points cells rho)); [assumption|]. unfold Rdiv. rewrite Rmult_assoc, Rinv_l by lra. lra.
    + left. apply in_map_iff. exists (gmax points cells rho). split; [field; lra|exact Gin].
  - split; [unfold raw; now rewrite map_length, seq_length|]. split.
    + apply Forall_forall. intros v Hv. pose proof (raw_nonneg _ _ _ _ Hv). pose proof (raw_le _ _ _ _ Hv). lra.
    + right. apply Forall_forall. intros v Hv. pose proof (raw_le _ _ _ _ Hv). lra.
Qed.
Print Assumptions C77_range.

Lemma grad_zero points cells rho e : valid_mesh points cells -> (e < length cells)%nat -> (forall n n', (n < length points)%nat -> (n' < length points)%nat -> nth n rho 0 = nth n' rho 0) ->
  grad_mag points cells rho e = 0.
Proof.
  intros V He H. unfold grad_mag. rewrite (rs_zero 3); [apply sqrt_0|]. intros i Hi.
  assert (Z : grad_rho points cells rho e i = 0); [|rewrite Z; ring]. unfold grad_rho. apply rs_zero. intros j Hj. unfold drho_ref, cell_of.
  rewrite (H (nth (S j) (nth e cells []) 0%nat) (nth 0 (nth e cells []) 0%nat)) by (apply V; [exact He|lia]). ring.
Qed.
(** A constant field asks for no refinement. *)
Theorem C77_constant points cells rho out : gradient_refinement points cells rho = Some out -> valid_mesh points cells ->
  (forall n n', (n < length points)%nat -> (n' < length points)%nat -> nth n rho 0 = nth n' rho 0) -> Forall (fun v => v = 0) out.
Proof.
  intros E V H. assert (Z : Forall (fun v => v = 0) (raw points cells rho)).
  { apply Forall_forall. intros v Hv. apply in_map_iff in Hv. destruct Hv as (n & <- & _). rewrite (node_avg_ext cells _ (fun _ => 0 * 0)).
    - rewrite (node_avg_scale cells 0 (fun _ => 0)). ring.
    - intros e He. rewrite (grad_zero points cells rho e V He H). ring. }
  destruct (gr_cases _ _ _ _ E) as (_ & _ & Gin & [(G & ->)|(G & ->)]); [|exact Z].
  rewrite Forall_forall in Z. rewrite (Z _ Gin) in G. lra.
Qed.
Print Assumptions C77_constant.

Lemma grad_affine points cells c b rho rho' e : valid_mesh points cells -> (e < length cells)%nat ->
  (forall n, (n < length points)%nat -> nth n rho' 0 = c * nth n rho 0 + b) -> grad_mag points cells rho' e = Rabs c * grad_mag points cells rho e.
Proof.
  intros V He H. unfold grad_mag.
  assert (G : forall i, grad_rho points cells rho' e i = c * grad_rho points cells rho e i).
  { intros i. unfold grad_rho. rewrite <- rs_scale. apply rs_ext. intros j Hj. unfold drho_ref, cell_of. rewrite !H by (apply V; [exact He|lia]). ring. }
  rewrite (rs_ext 3 _ (fun i => Rsqr c * (grad_rho points cells rho e i * grad_rho points cells rho e i))).
  - rewrite rs_scale, sqrt_mult_alt by apply Rle_0_sqr. rewrite sqrt_Rsqr_abs. reflexivity.
  - intros i Hi. rewrite !G. unfold Rsqr. ring.
Qed.
(** The normalised field does not depend on the scale, sign or offset of the density. *)
Theorem C77_scale points cells c b rho rho' out out' : valid_mesh points cells ->
  (forall n, (n < length points)%nat -> nth n rho' 0 = c * nth n rho 0 + b) ->
  gradient_refinement points cells rho = Some out -> gradient_refinement points cells rho' = Some out' ->
  In 1 out -> In 1 out' -> out' = out.
Proof.
  intros V H E E' I1 I1'.
  assert (Rw : raw points cells rho' = map (Rmult (Rabs c)) (raw points cells rho)).
  { unfold raw. rewrite map_map. apply map_ext_in. intros n Hn. rewrite <- node_avg_scale. apply node_avg_ext. intros e He. apply (grad_affine points cells c b); assumption. }
  assert (Gm : gmax points cells rho' = Rabs c * gmax points cells rho).
  { unfold gmax. rewrite Rw. destruct (raw points cells rho) as [|x l]; [cbn; ring|]. cbn [map]. apply max1_scale, Rabs_pos. }
  destruct (gr_cases _ _ _ _ E) as (_ & _ & Gin & [(G & ->)|(G & ->)]).
  2:{ pose proof (raw_le _ _ _ _ I1). lra. }
  destruct (gr_cases _ _ _ _ E') as (_ & _ & Gin' & [(G' & ->)|(G' & ->)]).
  2:{ pose proof (raw_le _ _ _ _ I1'). lra. }
  rewrite Rw, map_map. apply map_ext. intros y. rewrite Gm. rewrite Gm in G'.
  assert (Rabs c <> 0) by (intros Z; rewrite Z, Rmult_0_l in G'; lra). field. split; [lra|assumption].
Qed.
Print Assumptions C77_scale.

(** On elements whose edge matrix is symmetric, an affine density has the same refinement value, 1, at every
    node of the mesh. *)
Lemma inv3_sym A i j : (forall p q, (p < 3)%nat -> (q < 3)%nat -> A p q = A q p) -> (i < 3)%nat -> (j < 3)%nat -> inv3 A j i = inv3 A i j.
Proof.
  intros S Hi Hj. unfold inv3. f_equal.
  assert (B : forall k, (Nat.modulo k 3 < 3)%nat) by (intros k; apply Nat.mod_upper_bound; lia).
  rewrite (S (Nat.modulo (i + 1) 3) (Nat.modulo (j + 1) 3)), (S (Nat.modulo (i + 2) 3) (Nat.modulo (j + 2) 3)), (S (Nat.modulo (i + 1) 3) (Nat.modulo (j + 2) 3)), (S (Nat.modulo (i + 2) 3) (Nat.modulo (j + 1) 3)) by apply B. ring.
Qed.
Theorem C77_linear_symmetric points cells b a rho out n : gradient_refinement points cells rho = Some out -> valid_mesh points cells -> samples points rho (affine b a) ->
  (forall e i c, (e < length cells)%nat -> (i < 3)%nat -> (c < 3)%nat -> Jmat points cells e i c = Jmat points cells e c i) ->
  / 1000000000000 < sqrt (rs 3 (fun i => a i * a i)) -> (n < length points)%nat ->
  nth n out 0 = if existsb (existsb (Nat.eqb n)) (map (firstn 4) cells) then 1 else 0.
Proof.
  intros E V S Sym A Hn. set (g := sqrt (rs 3 (fun i => a i * a i))) in *.
  assert (Gm : forall e, (e < length cells)%nat -> grad_mag points cells rho e = g).
  { intros e He. unfold grad_mag, g. f_equal. apply rs_ext. intros i Hi. destruct (gr_cases _ _ _ _ E) as (_ & D & _).
    assert (X : grad_rho points cells rho e i = a i); [|rewrite X; reflexivity]. unfold grad_rho.
    rewrite (rs_ext 3 _ (fun j => rs 3 (fun c => a c * (inv3 (Jmat points cells e) i j * Jmat points cells e j c)))).
    - rewrite rs_swap. rewrite (rs_ext 3 _ (fun c => (if Nat.eqb c i then 1 else 0) * a c)).
      + apply (rs_delta 3 i a Hi).
      + intros c Hc. rewrite rs_scale, inv3_left by (auto || lia). rewrite (Nat.eqb_sym i c). ring.
    - intros j Hj. rewrite (inv3_sym (Jmat points cells e) i j) by (auto; intros; apply Sym; assumption).
      rewrite (rs_ext 3 (fun c => a c * _) (fun c => inv3 (Jmat points cells e) i j * (a c * Jmat points cells e j c))) by (intros; ring).
      rewrite rs_scale. f_equal. unfold drho_ref, cell_of. rewrite !S by (apply V; [exact He|lia]). unfold affine, Jmat, vert, cell_of. cbn [rs]. ring. }
  assert (Av : forall m, node_avg cells (grad_mag points cells rho) m = g * node_avg cells (fun _ => 1) m).
  { intros m. rewrite <- node_avg_scale. apply node_avg_ext. intros e He. rewrite (Gm e He). ring. }
  set (used := fun m => existsb (existsb (Nat.eqb m)) (map (firstn 4) cells)).
  assert (L4 : forall c, In c cells -> length c = 4%nat).
  { unfold gradient_refinement in E. destruct (forallb _ cells) eqn:F; [|discriminate E]. rewrite forallb_forall in F. intros c Hc. apply Nat.eqb_eq, F, Hc. }
  assert (Sc : forall m, if used m then 1 <= scatter cells (fun _ => 1) m else scatter cells (fun _ => 1) m = 0).
  { intros m. destruct (used m) eqn:U; unfold used in U.
    - apply existsb_exists in U. destruct U as (c' & Hc' & Hm). apply in_map_iff in Hc'. destruct Hc' as (c & <- & Hc). rewrite firstn_all2 in Hm by (rewrite (L4 c Hc); lia).
      apply existsb_exists in Hm. destruct Hm as (m' & Hm & Em). apply Nat.eqb_eq in Em. subst m'.
      apply (In_nth _ _ []) in Hc. destruct Hc as (e & He & Ec). apply (In_nth _ _ 0%nat) in Hm. destruct Hm as (i & Hi & Ei). rewrite <- Ec, (L4 (nth e cells [])) in Hi by (apply nth_In; exact He).
      unfold scatter. set (F := fun i e => if Nat.eqb (nth i (cell_of cells e) 0%nat) m then 1 else 0).
      assert (N : forall i e, 0 <= F i e) by (intros i' e'; unfold F; destruct (Nat.eqb _ m); lra).
      assert (P1 : forall k f j, (forall i, 0 <= f i) -> (j < k)%nat -> f j <= rs k f).
      { induction k as [|k IH]; intros f j Hf Hj; [lia|]. cbn [rs]. destruct (Nat.eq_dec j k) as [->|].
        - pose proof (rs_nonneg k f (fun i _ => Hf i)). lra.
        - pose proof (IH f j Hf ltac:(lia)). pose proof (Hf k). lra. }
      apply Rle_trans with (F i e).
      + unfold F, cell_of. rewrite Ec, Ei, Nat.eqb_refl. lra.
      + eapply Rle_trans; [apply (P1 (length cells) (fun e => F i e) e); [intros; apply N|exact He]|].
        apply (P1 4%nat (fun i => rs (length cells) (fun e => F i e)) i); [intros; apply rs_nonneg; intros; apply N|exact Hi].
    - unfold scatter. apply rs_zero. intros i Hi. apply rs_zero. intros e He. destruct (Nat.eqb _ m) eqn:Em; [|reflexivity]. exfalso.
      apply Nat.eqb_eq in Em. assert (existsb (existsb (Nat.eqb m)) (map (firstn 4) cells) = true); [|congruence].
      apply existsb_exists. exists (firstn 4 (nth e cells [])). split; [apply in_map, nth_In; exact He|]. apply existsb_exists. exists m. split; [|apply Nat.eqb_refl].
      assert (Le : length (nth e cells []) = 4%nat) by (apply L4, nth_In; exact He). rewrite firstn_all2 by lia. unfold cell_of in Em. rewrite <- Em. apply nth_In. lia. }
  assert (Nv : forall m, node_avg cells (grad_mag points cells rho) m = if used m then g else 0).
  { intros m. rewrite Av. unfold node_avg. specialize (Sc m). destruct (used m).
    - rewrite Rmax_left by exact Sc. field. lra.
    - rewrite Sc. unfold Rdiv. ring. }
  assert (Rn : forall m, (m < length points)%nat -> nth m (raw points cells rho) 0 = if used m then g else 0).
  { intros m Hm. unfold raw. rewrite (nth_indep _ 0 (node_avg cells (grad_mag points cells rho) 0%nat)) by (rewrite map_length, seq_length; exact Hm).
    rewrite (map_nth (node_avg cells (grad_mag points cells rho))), seq_nth by exact Hm. apply Nv. }
  fold (used n). destruct (gr_cases _ _ _ _ E) as (_ & _ & Gin & [(G & ->)|(G & ->)]).
  - assert (Gg : gmax points cells rho = g).
    { apply (In_nth _ _ 0) in Gin. destruct Gin as (m & Hm & Em). unfold raw in Hm. rewrite map_length, seq_length in Hm. rewrite (Rn m Hm) in Em. destruct (used m); [congruence|]. exfalso. lra. }
    rewrite (nth_indep _ 0 (0 / gmax points cells rho)) by (unfold raw; rewrite !map_length, seq_length; exact Hn).
    rewrite (map_nth (fun y => y / gmax points cells rho)), (Rn n Hn), Gg. destruct (used n); field; lra.
  - rewrite (Rn n Hn). destruct (used n) eqn:U; [|reflexivity]. exfalso.
    assert (In g (raw points cells rho)). { rewrite <- (Rn n Hn) at 1 || idtac. replace g with (nth n (raw points cells rho) 0) by (rewrite (Rn n Hn), U; reflexivity). apply nth_In. unfold raw. rewrite map_length, seq_length. exact Hn. }
    pose proof (raw_le _ _ _ _ H). lra.
Qed.
Print Assumptions C77_linear_symmetric.

(** FINDING: the code multiplies by the transposed inverse, so in general the value is not the gradient's
    magnitude: on a conforming mesh of two elements the density [y], of constant gradient, asks for different
    refinement at different nodes. *)
Definition two_pts : list pt := [[0; 0; 0]; [1; 0; 0]; [0; 1; 0]; [0; 0; 1]; [1; 1; 1]].
Definition two_cells : list (list nat) := [[0; 1; 2; 3]; [1; 2; 3; 4]]%nat.
Theorem C77_linear_refuted : exists points cells rho out, gradient_refinement points cells rho = Some out /\ valid_mesh points cells /\
  samples points rho (affine 0 (fun j => if Nat.eqb j 1 then 1 else 0)) /\ nth 0 out 0 = / sqrt 2 /\ nth 4 out 0 = 1.
Proof.
  set (rho := [0; 0; 1; 0; 1]). exists two_pts, two_cells, rho.
  assert (s2 : 1 < sqrt 2) by (rewrite <- sqrt_1 at 1; apply sqrt_lt_1_alt; lra).
  assert (D0 : det3 (Jmat two_pts two_cells 0) = 1) by (unfold det3, Jmat, vert, cell_of, co; cbn; ring).
  assert (D1 : det3 (Jmat two_pts two_cells 1) = 2) by (unfold det3, Jmat, vert, cell_of, co; cbn; ring).
  assert (G0 : grad_mag two_pts two_cells rho 0 = 1).
  { unfold grad_mag. transitivity (sqrt 1); [|apply sqrt_1]. f_equal. unfold grad_rho, inv3. rewrite D0. unfold Jmat, vert, cell_of, co, drho_ref, rho. cbn. field. }
  assert (G1 : grad_mag two_pts two_cells rho 1 = sqrt 2).
  { unfold grad_mag. f_equal. unfold grad_rho, inv3. rewrite D1. unfold Jmat, vert, cell_of, co, drho_ref, rho. cbn. field. }
  assert (M1 : forall x, 1 <= x -> Rmax x 1 = x) by (intros; apply Rmax_left; assumption).
  assert (Rw : raw two_pts two_cells rho = [1; (1 + sqrt 2) / 2; (1 + sqrt 2) / 2; (1 + sqrt 2) / 2; sqrt 2]).
  { unfold raw, node_avg, scatter. cbn -[grad_mag sqrt Rmax]. rewrite G0, G1. repeat rewrite M1 by lra. repeat (f_equal; try field). }
  assert (Gx : gmax two_pts two_cells rho = sqrt 2).
  { unfold gmax. rewrite Rw. apply Rle_antisym; [|apply max1_ge; cbn; tauto].
    match goal with |- max1 ?x ?l <= _ => pose proof (max1_in l x) as H; set (m := max1 x l) in *; clearbody m end. cbn [In] in H. decompose [or] H; try lra; contradiction. }
  destruct (gradient_refinement two_pts two_cells rho) as [out|] eqn:E.
  - exists out. split; [reflexivity|]. split; [|split].
    + intros e k He Hk. cbn in He. destruct e as [|[|e]]; try lia; destruct k as [|[|[|[|k]]]]; cbn; lia.
    + intros n Hn. cbn in Hn. destruct n as [|[|[|[|[|n]]]]]; try lia; unfold affine, co, rho; cbn; ring.
    + destruct (gr_cases _ _ _ _ E) as (_ & _ & _ & [(G & ->)|(G & _)]); [|rewrite Gx in G; lra]. rewrite Rw, Gx. cbn. split; field; lra.
  - exfalso. unfold gradient_refinement in E. cbn [two_cells forallb length Nat.eqb andb negb] in E. cbn [seq existsb] in E. unfold singular in E.
    change [[0; 1; 2; 3]; [1; 2; 3; 4]]%nat with two_cells in E. rewrite D0, D1 in E. destruct (Req_EM_T 1 0); [lra|]. destruct (Req_EM_T 2 0); [lra|]. cbn [orb] in E.
    fold (raw two_pts two_cells rho) in E. rewrite Rw in E. destruct (Rlt_dec _ _); discriminate.
Qed.
Print Assumptions C77_linear_refuted.

(** ** The size callback *)
Lemma clip01_range x : 0 <= clip01 x <= 1.
Proof. unfold clip01. split; [apply Rmin_glb; [apply Rmax_r|lra]|apply Rmin_r]. Qed.
Lemma clip01_mono x y : x <= y -> clip01 x <= clip01 y.
Proof. intros H. unfold clip01. apply Rle_min_compat_r, Rle_max_compat_r, H. Qed.
Lemma clip01_id x : 0 <= x <= 1 -> clip01 x = x.
Proof. intros H. unfold clip01. rewrite Rmax_left, Rmin_left; lra. Qed.
Lemma clip_nth f n : (n < length f)%nat -> nth n (map clip01 f) 0 = clip01 (nth n f 0).
Proof. intros H. rewrite (nth_indep _ 0 (clip01 0)) by (rewrite map_length; exact H). apply map_nth. Qed.
(** Sizes stay between [h_min] and [h_max]; unless the field is flagged uniform the size is affine in the
    clamped field at the nearest node, so more refinement never gives larger elements. *)
Theorem C77_size field near h_min h_max : h_min <= h_max ->
  let (cb, uniform) := make_size_callback (Some field) near h_min h_max in
  (forall p, (near p < length field)%nat -> h_min <= cb p <= h_max) /\
  (forall p q, (near p < length field)%nat -> (near q < length field)%nat -> nth (near p) field 0 <= nth (near q) field 0 -> cb q <= cb p) /\
  (uniform = false -> forall p, (near p < length field)%nat ->
     (nth (near p) field 0 <= 0 -> cb p = h_max) /\ (1 <= nth (near p) field 0 -> cb p = h_min) /\
     (0 <= nth (near p) field 0 <= 1 -> cb p = (1 - nth (near p) field 0) * h_max + nth (near p) field 0 * h_min)).
Proof.
  intros Hh. unfold make_size_callback. cbv zeta. destruct (Rlt_dec _ _) as [U|U]; (split; [|split]).
  - intros p Hp. lra.
  - intros. lra.
  - discriminate.
  - intros p Hp. rewrite clip_nth by exact Hp. pose proof (clip01_range (nth (near p) field 0)). nra.
  - intros p q Hp Hq L. rewrite !clip_nth by assumption. apply clip01_mono in L. nra.
  - intros _ p Hp. rewrite clip_nth by exact Hp. split; [|split]; intros V.
    + replace (clip01 (nth (near p) field 0)) with 0; [ring|]. unfold clip01. rewrite Rmax_right, Rmin_left; lra.
    + replace (clip01 (nth (near p) field 0)) with 1; [ring|]. unfold clip01. rewrite Rmax_left, Rmin_right; lra.
    + rewrite clip01_id by exact V. ring.
Qed.
Print Assumptions C77_size.
(** Without a field the mesh is coarse everywhere. *)
Theorem C77_size_none near h_min h_max p : fst (make_size_callback None near h_min h_max) p = h_max.
Proof. reflexivity. Qed.
Print Assumptions C77_size_none.
(** FINDING: a field equal to 1 everywhere ("refine everywhere") also gives the coarse size. *)
Theorem C77_size_uniform_refuted : exists field near h_min h_max, field <> [] /\ (forall v, In v field -> v = 1) /\ h_min < h_max /\
  forall p, fst (make_size_callback (Some field) near h_min h_max) p = h_max.
Proof.
  exists [1; 1], (fun _ => 0%nat), 1, 2. split; [discriminate|]. split; [intros v [<-|[<-|[]]]; reflexivity|]. split; [lra|].
  intros p. unfold make_size_callback. cbn [fst]. destruct (Rlt_dec _ _) as [U|U]; [reflexivity|]. exfalso. apply U.
  cbn. unfold clip01. rewrite (Rmax_left 1 0), (Rmin_left 1 1), (Rmax_left 1 1), (Rmin_left 1 1) by lra. lra.
Qed.
Print Assumptions C77_size_uniform_refuted.
(** The unit tetrahedron, whose edge matrix is the identity, meets the hypotheses of the positive theorems. *)
Example C77_example : exists out, gradient_refinement tet_pts tet_cells [2; 3; 5; 9] = Some out /\ out = [1; 1; 1; 1].
Proof.
  destruct (gradient_refinement tet_pts tet_cells [2; 3; 5; 9]) as [out|] eqn:E.
  - exists out. split; [reflexivity|].
    assert (L : length out = 4%nat) by (destruct (C77_range _ _ _ _ E) as [L _]; exact L).
    assert (V : forall n, (n < 4)%nat -> nth n out 0 = 1).
    { intros n Hn. rewrite (C77_linear_symmetric tet_pts tet_cells 2 (fun j => nth j [1; 3; 7] 0) [2; 3; 5; 9] out n E).
      - destruct n as [|[|[|[|n]]]]; try lia; reflexivity.
      - apply C76_example.
      - apply C76_example.
      - intros e i c He Hi Hc. cbn in He. destruct e; [|lia]. destruct i as [|[|[|i]]]; try lia; destruct c as [|[|[|c]]]; try lia; unfold Jmat, vert, cell_of, co; cbn; ring.
      - apply Rlt_le_trans with 1; [lra|]. apply Rle_trans with (sqrt 1); [rewrite sqrt_1; lra|]. apply sqrt_le_1_alt. cbn [rs nth]. lra.
      - exact Hn. }
    destruct out as [|a [|b [|c [|d [|? ?]]]]]; try discriminate L.
    pose proof (V 0%nat ltac:(lia)). pose proof (V 1%nat ltac:(lia)). pose proof (V 2%nat ltac:(lia)). pose proof (V 3%nat ltac:(lia)). cbn in *. congruence.
  - exfalso. unfold gradient_refinement in E. cbn [tet_cells forallb length Nat.eqb andb negb seq existsb] in E. unfold singular in E. change [[0; 1; 2; 3]]%nat with tet_cells in E.
    change (det3 (Jmat tet_pts tet_cells 0)) with (det3 (fun i c => Tmat tet_pts tet_cells 0 c i)) in E.
    replace (det3 (fun i c => Tmat tet_pts tet_cells 0 c i)) with 1 in E by (unfold det3, Tmat, vert, cell_of, co; cbn; ring). destruct (Req_EM_T 1 0); [lra|]. cbn [orb] in E.
    cbn [length tet_pts seq map] in E. destruct (Rlt_dec _ _); discriminate.
Qed.
