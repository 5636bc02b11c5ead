(** C92: the multigrid-preconditioned solve. *)
From Coq Require Import Reals List Arith Lia Lra Bool FunctionalExtensionality.
From Verif Require Import Tmc_Model Tmc_Props Adaptive_Model Adaptive_Props CmgSolve_Model CmgElem_Props.
Import ListNotations.
Local Open Scope R_scope.

(** Specification: the assembled stiffness and well-formed levels. *)
Definition ind (p : bool) : R := if p then 1 else 0.
Definition stiff (KE : nat -> nat -> R) (L : lev) (i j : nat) : R :=
  rs (CE L) (fun e => rs 24 (fun a => rs 24 (fun b => ind (edof L e a =? i)%nat * ind (edof L e b =? j)%nat * (Ev L e * KE a b)))).
Record wf (L : lev) : Prop := {
  wf_mask : forall i, free L i = 0 \/ free L i = 1;
  wf_out : forall i, (3 * CN L <= i)%nat -> free L i = 0;
  wf_dof : forall e a, (e < CE L)%nat -> (a < 24)%nat -> (edof L e a < 3 * CN L)%nat }.
Definition masked (L : lev) (x : vec) : Prop := forall i, free L i = 0 -> x i = 0.
Definition symmetric (KE : nat -> nat -> R) : Prop := forall a b, (a < 24)%nat -> (b < 24)%nat -> KE a b = KE b a.

Lemma ind_mul (p : bool) x : (if p then x else 0) = ind p * x.
Proof. destruct p; unfold ind; ring. Qed.
Lemma rs_ind n j f : (j < n)%nat -> rs n (fun i => ind (j =? i)%nat * f i) = f j.
Proof. intros H. rewrite <- (rs_delta n j f H). apply rs_ext. intros i _. rewrite Nat.eqb_sym. reflexivity. Qed.
Lemma rs_trunc n m f : (n <= m)%nat -> (forall k, (n <= k)%nat -> f k = 0) -> rs m f = rs n f.
Proof. intros H Z. induction H as [|m H IH]; [reflexivity|]. cbn [rs]. rewrite IH, Z by lia. ring. Qed.

Section Op.
Variable KE : nat -> nat -> R.
Variable L : lev.
Hypothesis W : wf L.
Lemma fixed_or_free i : free L i * free L i = free L i.
Proof using W. destruct (wf_mask L W i) as [->| ->]; ring. Qed.
Lemma mv_masked u : masked L (mv KE L u).
Proof using Type. intros i H. unfold mv. rewrite H. ring. Qed.
(** The energy product of the operator, element by element. *)
Lemma vdot_mv x y : vdot (3 * CN L) x (mv KE L y) =
  rs (CE L) (fun e => Ev L e * rs 24 (fun a => rs 24 (fun b => x (edof L e a) * free L (edof L e a) * (y (edof L e b) * KE b a)))).
Proof using W.
  unfold vdot, mv, scat.
  rewrite (rs_ext _ _ (fun i => rs (CE L) (fun e => rs 24 (fun a => ind (edof L e a =? i)%nat * (x i * free L i * (Ev L e * rs 24 (fun b => y (edof L e b) * KE b a))))))).
  2:{ intros i _. rewrite (Rmult_comm (rs (CE L) _)), <- Rmult_assoc, <- rs_scale. apply rs_ext. intros e _. rewrite <- rs_scale. apply rs_ext. intros a _.
      rewrite ind_mul. ring. }
  rewrite rs_swap. apply rs_ext. intros e He. rewrite rs_swap, <- rs_scale. apply rs_ext. intros a Ha.
  rewrite (rs_ind _ _ (fun i => x i * free L i * (Ev L e * rs 24 (fun b => y (edof L e b) * KE b a)))) by (apply wf_dof; assumption).
  rewrite <- rs_scale, <- rs_scale, <- rs_scale. apply rs_ext. intros b _. ring.
Qed.
Lemma mv_stiff u i : symmetric KE -> mv KE L u i = rs (3 * CN L) (fun j => stiff KE L i j * u j) * free L i.
Proof using W.
  intros Sy. unfold mv, scat, stiff. f_equal.
  rewrite (rs_ext (3 * CN L) _ (fun j => rs (CE L) (fun e => rs 24 (fun a => rs 24 (fun b => ind (edof L e b =? j)%nat * (u j * (ind (edof L e a =? i)%nat * (Ev L e * KE a b)))))))).
  2:{ intros j _. rewrite <- rs_scale_r. apply rs_ext; intros e _. rewrite <- rs_scale_r. apply rs_ext; intros a _. rewrite <- rs_scale_r. apply rs_ext; intros b _. ring. }
  rewrite (rs_swap (3 * CN L)). apply rs_ext. intros e He. rewrite (rs_swap (3 * CN L)). apply rs_ext. intros a Ha. rewrite (rs_swap (3 * CN L)), ind_mul, <- rs_scale, <- rs_scale.
  apply rs_ext. intros b Hb. rewrite (rs_ind _ _ (fun j => u j * (ind (edof L e a =? i)%nat * (Ev L e * KE a b)))) by (apply wf_dof; assumption).
  rewrite (Sy b a Hb Ha). ring.
Qed.
Lemma mv_ext u v : (forall i, (i < 3 * CN L)%nat -> u i = v i) -> forall i, mv KE L u i = mv KE L v i.
Proof using W.
  intros H i. unfold mv, scat. f_equal. apply rs_ext; intros e He. apply rs_ext; intros a Ha. destruct (Nat.eqb _ _); [|reflexivity]. f_equal.
  apply rs_ext; intros b Hb. rewrite H by (apply wf_dof; assumption). reflexivity.
Qed.
Lemma mv_lin u v c i : mv KE L (fun k => u k + c * v k) i = mv KE L u i + c * mv KE L v i.
Proof using Type.
  unfold mv, scat. rewrite <- Rmult_assoc, <- Rmult_plus_distr_r. f_equal. rewrite <- rs_scale, <- rs_plus. apply rs_ext; intros e _.
  rewrite <- rs_scale, <- rs_plus. apply rs_ext; intros a _. destruct (Nat.eqb _ _); [|ring].
  rewrite (rs_ext 24 _ (fun b => u (edof L e b) * KE b a + c * (v (edof L e b) * KE b a))) by (intros; ring). rewrite rs_plus, rs_scale. ring.
Qed.
Lemma masked_free x i : masked L x -> x i * free L i = x i.
Proof using W. intros M. destruct (wf_mask L W i) as [E|E]; rewrite E; [rewrite (M i E)|]; ring. Qed.
End Op.

(** The matrix-free operator is the free part of the assembled stiffness: symmetric, and with no
    negative energy, on vectors that vanish on fixed dofs; it writes nothing on fixed dofs. *)
Theorem C92_operator : forall KE L, wf L -> symmetric KE ->
  (forall u i, free L i = 0 -> mv KE L u i = 0) /\
  (forall u i, free L i = 1 -> mv KE L u i = rs (3 * CN L) (fun j => stiff KE L i j * u j)) /\
  (forall x y, masked L x -> masked L y -> vdot (3 * CN L) x (mv KE L y) = vdot (3 * CN L) y (mv KE L x)) /\
  (forall x, masked L x -> (forall e, 0 <= Ev L e) -> (forall w : vec, 0 <= work KE w w) -> 0 <= vdot (3 * CN L) x (mv KE L x)).
Proof.
  intros KE L W Sy. split; [intros u i; apply mv_masked|]. split; [|split].
  - intros u i F. rewrite mv_stiff, F by assumption. ring.
  - intros x y X Y. rewrite !vdot_mv by assumption. apply rs_ext. intros e He. f_equal. rewrite rs_swap. apply rs_ext. intros a Ha. apply rs_ext. intros b Hb.
    rewrite (masked_free L W x _ X), (masked_free L W y _ Y), (Sy a b Ha Hb). ring.
  - intros x X E0 P. rewrite vdot_mv by assumption. apply rs_nonneg. intros e He. apply Rmult_le_pos; [apply E0|].
    specialize (P (fun a => x (edof L e a))). unfold work in P. rewrite rs_swap.
    erewrite rs_ext; [exact P|]. intros b Hb. apply rs_ext. intros a Ha. cbv beta. rewrite (masked_free L W x _ X). ring.
Qed.
Print Assumptions C92_operator.

(** ** Smoothing and the V-cycle *)
Lemma colour_masked KE L b c u : masked L (colour_step KE L b c u).
Proof. intros i H. unfold colour_step. rewrite H. ring. Qed.
Lemma sweep_masked KE L b u : masked L (sweep KE L b u).
Proof. unfold sweep. cbn [seq fold_left]. apply colour_masked. Qed.
Lemma smooth_masked KE L b k : forall u, masked L u -> masked L (smooth KE L b k u).
Proof. induction k as [|k IH]; intros u M; [exact M|]. cbn [smooth]. apply IH, sweep_masked. Qed.
Lemma vcycle_masked KE coarse pre post L rest b : masked L (vcycle KE coarse pre post (L :: rest) b).
Proof.
  destruct rest as [|C rest]; cbn [vcycle].
  - intros i H. unfold masked_coarse. rewrite H. ring.
  - apply smooth_masked. intros i H.
    assert (S := smooth_masked KE L b pre (fun _ => 0) (fun i _ => eq_refl) i H). cbv beta in S. rewrite S. unfold prolong. rewrite H. ring.
Qed.
(** A solution is a fixed point of the smoother; the correction of the V-cycle never touches fixed
    dofs, whatever the coarsest solve returns. *)
Theorem C92_smoother : forall KE coarse pre post L rest b, wf L ->
  (forall u, masked L u -> (forall i, free L i = 1 -> mv KE L u i = b i) -> forall k i, smooth KE L b k u i = u i) /\
  (forall i, free L i = 0 -> vcycle KE coarse pre post (L :: rest) b i = 0).
Proof.
  intros KE coarse pre post L rest b W. split; [|intros i; apply vcycle_masked].
  intros u M S.
  assert (R0 : forall v, (forall i, v i = u i) -> forall i, resid KE L b v i = 0).
  { intros v E i. unfold resid. rewrite (mv_ext KE L W v u) by (intros; apply E). destruct (wf_mask L W i) as [F|F]; rewrite F; [ring|]. rewrite (S i F). ring. }
  assert (C : forall v, (forall i, v i = u i) -> forall c i, colour_step KE L b c v i = u i).
  { intros v E c i. unfold colour_step. rewrite (rs_zero 3) by (intros; rewrite (R0 v E); ring). rewrite E. rewrite Rmult_0_r, Rplus_0_r. apply masked_free; assumption. }
  assert (K : forall k v, (forall i, v i = u i) -> forall i, smooth KE L b k v i = u i).
  { induction k as [|k IH]; intros v E i; [apply E|]. cbn [smooth]. apply IH. intros j. unfold sweep.
    assert (F : forall l w, (forall i, w i = u i) -> forall i, fold_left (fun v c => colour_step KE L b c v) l w i = u i).
    { induction l as [|c l IHl]; intros w Ew; [exact Ew|]. cbn [fold_left]. apply IHl, C, Ew. }
    apply F, E. }
  intros k i. apply K. reflexivity.
Qed.
Print Assumptions C92_smoother.

(** ** The conjugate gradient loop *)
Lemma maxabs_nonneg n r : 0 <= maxabs n r.
Proof. induction n as [|n IH]; cbn [maxabs]; [lra|]. eapply Rle_trans; [exact IH|apply Rmax_l]. Qed.
Lemma maxabs_ge n r i : (i < n)%nat -> Rabs (r i) <= maxabs n r.
Proof.
  induction n as [|n IH]; intros H; [lia|]. cbn [maxabs]. destruct (Nat.eq_dec i n) as [->|N]; [apply Rmax_r|].
  eapply Rle_trans; [apply IH; lia|apply Rmax_l].
Qed.
Lemma maxabs_ext n r s : (forall i, (i < n)%nat -> r i = s i) -> maxabs n r = maxabs n s.
Proof. induction n as [|n IH]; intros H; [reflexivity|]. cbn [maxabs]. rewrite IH, H by auto. reflexivity. Qed.
Lemma maxabs_le n r B : 0 <= B -> (forall i, (i < n)%nat -> Rabs (r i) <= B) -> maxabs n r <= B.
Proof. intros HB. induction n as [|n IH]; intros H; cbn [maxabs]; [exact HB|]. apply Rmax_lub; [apply IH; auto|apply H; lia]. Qed.

Section Loop.
Variables (KE : nat -> nat -> R) (coarse : vec -> vec) (pre post : nat) (L : lev) (rest : list lev) (b : vec).
Hypothesis W : wf L.
Definition inv (st : state) : Prop := let '(u, r, p, _, _) := st in
  masked L u /\ masked L p /\ forall i, r i = b i * free L i - mv KE L u i.
Lemma body_inv st : inv st -> inv (body KE coarse pre post (L :: rest) L st).
Proof using W.
  destruct st as [[[[u r] p] rz] k]. intros (U & P & R). unfold body. cbv zeta. cbn [inv].
  set (z := vcycle _ _ _ _ _ _). assert (Z : masked L z) by apply vcycle_masked. set (al := rz / _). set (be := vdot _ _ z / _).
  split; [|split].
  - intros i H. rewrite (U i H), (P i H). ring.
  - intros i H. rewrite (Z i H), (P i H). ring.
  - intros i. rewrite (mv_lin KE L u p al i), R. ring.
Qed.
Lemma loop_spec bound : forall fuel st, inv st ->
  let '(u, r, p, rz, k) := loop KE coarse pre post (L :: rest) L bound fuel st in
  inv (u, r, p, rz, k) /\ (exists j, (j <= fuel)%nat /\ k = (snd st + j)%nat /\ (j = fuel \/ maxabs (3 * CN L) r <= bound)).
Proof using W.
  induction fuel as [|f IH]; intros st I.
  - cbn [loop]. destruct st as [[[[u r] p] rz] k]. split; [exact I|]. exists 0%nat. cbn. repeat split; [lia|lia|left; reflexivity].
  - cbn [loop]. destruct st as [[[[u r] p] rz] k]. destruct (Rlt_dec bound (maxabs (3 * CN L) r)) as [H|H].
    + specialize (IH _ (body_inv _ I)).
      destruct (loop KE coarse pre post (L :: rest) L bound f (body KE coarse pre post (L :: rest) L (u, r, p, rz, k))) as [[[[u1 r1] p1] rz1] k1].
      destruct IH as (I1 & j & Hj & Hk & D). split; [exact I1|]. exists (S j). assert (SB : snd (body KE coarse pre post (L :: rest) L (u, r, p, rz, k)) = S k) by reflexivity. rewrite SB in Hk. cbn [snd]. split; [lia|]. split; [lia|]. destruct D as [->|D]; [left|right]; auto.
    + split; [exact I|]. exists 0%nat. cbn [snd]. split; [lia|]. split; [lia|]. right. lra.
Qed.
End Loop.

(** The residual the user is left with, from the assembled stiffness. *)
Definition left_over (KE : nat -> nat -> R) (L : lev) (b u : vec) (i : nat) : R := b i - rs (3 * CN L) (fun j => stiff KE L i j * u j).
(** The solve: fixed dofs stay zero; at most [maxit] iterations; the reported ratio is the true
    residual over the initial one; and it stops before the cap only when every free equation holds
    to the requested tolerance. This holds for every preconditioner (coarse solve, sweeps). *)
Theorem C92_solve : forall KE coarse pre post tol maxit L rest b u0 u k rel,
  wf L -> symmetric KE -> 0 <= tol ->
  solve_j KE coarse pre post tol maxit (L :: rest) L b u0 = (u, k, rel) ->
  (forall i, free L i = 0 -> u i = 0) /\ (k <= maxit)%nat /\
  exists r0, 0 < r0 /\
    (forall i, free L i = 1 -> Rabs (left_over KE L b (fun j => u0 j * free L j) i) <= r0 - tiny) /\
    (forall B, 0 <= B -> (forall i, free L i = 1 -> Rabs (left_over KE L b (fun j => u0 j * free L j) i) <= B) -> r0 <= B + tiny) /\
    (forall i, free L i = 1 -> Rabs (left_over KE L b u i) <= rel * r0) /\
    ((k < maxit)%nat -> rel <= tol).
Proof.
  intros KE coarse pre post tol maxit L rest b u0 u k rel W Sy T S. unfold solve_j in S. cbv zeta in S.
  set (u1 := fun i => u0 i * free L i) in S. set (r := fun i => b i * free L i - mv KE L u1 i) in S.
  set (r0 := maxabs (3 * CN L) r + tiny) in S. set (z := vcycle KE coarse pre post (L :: rest) r) in S.
  assert (TP : 0 < tiny) by (unfold tiny; apply Rinv_0_lt_compat, pow_lt; lra).
  assert (RP : 0 < r0) by (unfold r0; pose proof (maxabs_nonneg (3 * CN L) r); lra).
  assert (I0 : inv KE L b (u1, r, z, vdot (3 * CN L) r z, 0%nat)).
  { cbn [inv]. split; [intros i H; unfold u1; rewrite H; ring|]. split; [apply vcycle_masked|reflexivity]. }
  pose proof (loop_spec KE coarse pre post L rest b W (tol * r0) maxit _ I0) as LS.
  destruct (loop KE coarse pre post (L :: rest) L (tol * r0) maxit (u1, r, z, vdot (3 * CN L) r z, 0%nat)) as [[[[u2 r2] p2] rz2] k2].
  injection S as <- <- <-. change (CN L + (CN L + (CN L + 0)))%nat with (3 * CN L)%nat. destruct LS as ((U & P & R) & j & Hj & Hk & D). cbn in Hk. subst k2.
  assert (RO : forall v w i, (forall i, w i = b i * free L i - mv KE L v i) -> free L i = 1 -> w i = left_over KE L b v i).
  { intros v w i H F. rewrite H, mv_stiff, F by assumption. unfold left_over. ring. }
  assert (IN : forall i, free L i = 1 -> (i < 3 * CN L)%nat).
  { intros i F. destruct (Nat.lt_ge_cases i (3 * CN L)) as [H|H]; [exact H|]. rewrite (wf_out L W i H) in F. lra. }
  fold u1. split; [exact U|]. split; [exact Hj|]. exists r0. split; [exact RP|]. split; [|split; [|split]].
  - intros i F. rewrite <- (RO u1 r i) by (auto; reflexivity). unfold r0. pose proof (maxabs_ge (3 * CN L) r i (IN i F)). lra.
  - intros B HB H. unfold r0. apply Rplus_le_compat_r. apply maxabs_le; [exact HB|]. intros i _. destruct (wf_mask L W i) as [F|F].
    + unfold r. rewrite (mv_masked KE L u1 i F), F. replace (b i * 0 - 0) with 0 by ring. rewrite Rabs_R0. exact HB.
    + rewrite (RO u1 r i) by (auto; reflexivity). apply H, F.
  - intros i F. rewrite <- (RO u2 r2 i R F). replace (maxabs (3 * CN L) r2 / r0 * r0) with (maxabs (3 * CN L) r2) by (field; lra). apply maxabs_ge, IN, F.
  - intros Hlt. destruct D as [->|D]; [lia|]. apply (Rmult_le_reg_r r0); [exact RP|]. replace (maxabs (3 * CN L) r2 / r0 * r0) with (maxabs (3 * CN L) r2) by (field; lra). exact D.
Qed.
Print Assumptions C92_solve.
