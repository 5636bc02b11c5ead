(** C100: gradients through a chain of implicit time steps, with and without [pseudo_time]. *)
From Coq Require Import Reals List Arith Bool Lra Lia.
From Verif Require Import Base Tmc_Model Tmc_Props Eigen_Model Eigen_Props TimeGrad_Model.
Import ListNotations.
Open Scope R_scope.

(** ** Specification *)
(** product of an [n] by [p] matrix with a parameter vector *)
Definition mvp (p : nat) (B : mat) (x : vec) : vec := fun i => rs p (fun k => B i k * x k).
(** the tangents of a trajectory: [J du' + M du + B dtheta = 0] in every step *)
Inductive tangents (n p : nat) (dth : vec) : list stepd -> vec -> vec -> Prop :=
| tan_nil du : tangents n p dth [] du du
| tan_step steps s du0 du du' : tangents n p dth steps du0 du ->
    (forall i, (i < n)%nat -> mv n (dJ s) du' i + mv n (dM s) du i + mvp p (dB s) dth i = 0) ->
    tangents n p dth (steps ++ [s]) du0 du'.

(** ** Proofs *)
Lemma dot_tr n A x y : dotp n (mv n (tr A) x) y = dotp n x (mv n A y).
Proof. rewrite dot_mv. apply rs_ext; intros; ring. Qed.

Lemma dot_trp n p A x y : dotp p (mv n (tr A) x) y = dotp n x (mvp p A y).
Proof.
  unfold dotp, mv, mvp, tr. rewrite (rs_ext p _ (fun k => rs n (fun i => x i * (A i k * y k)))).
  - rewrite rs_swap. apply rs_ext; intros i Hi. rewrite rs_scale. reflexivity.
  - intros k Hk. rewrite <- rs_scale_r. apply rs_ext; intros; ring.
Qed.

Lemma snoc_inj {A} (l l' : list A) a b : l ++ [a] = l' ++ [b] -> l = l' /\ a = b.
Proof. apply app_inj_tail. Qed.

Lemma tangents_last n p dth steps s du0 du' : tangents n p dth (steps ++ [s]) du0 du' ->
  exists du, tangents n p dth steps du0 du /\ (forall i, (i < n)%nat -> mv n (dJ s) du' i + mv n (dM s) du i + mvp p (dB s) dth i = 0).
Proof.
  intros T. inversion T as [d E|st s' d0 d d' T' E' Eq]; subst.
  - destruct steps; discriminate.
  - apply snoc_inj in Eq. destruct Eq as [-> ->]. exists d. split; assumption.
Qed.
Lemma tangents_nil_inv n p dth du0 du : tangents n p dth [] du0 du -> du = du0.
Proof. intros T. inversion T as [d E|st s' d0 d d' T' E' Eq]; subst; [reflexivity|]. destruct st; discriminate. Qed.

Lemma dot_split n lam a b c : (forall i, (i < n)%nat -> a i + b i + c i = 0) -> dotp n lam a = - dotp n lam b - dotp n lam c.
Proof.
  intros E. assert (Z : dotp n lam a + dotp n lam b + dotp n lam c = 0).
  { unfold dotp. rewrite <- !rs_plus. apply rs_zero. intros i Hi. rewrite <- !Rmult_plus_distr_l, (E i Hi). ring. }
  lra.
Qed.

(** For every number of steps and every direction: the cotangents of the reverse pass applied to the tangents of the parameters
    and of the initial state give the change of [v . u_N]. *)
Theorem C100_adjoint n p dth steps v g v0 du0 duN :
  sweep n false steps v g v0 -> tangents n p dth steps du0 duN ->
  dotp n v duN = dotp p g dth + dotp n v0 du0.
Proof.
  intros S. revert duN. induction S as [v|steps s v lam g v0 Ad S IH]; intros duN T.
  - rewrite (tangents_nil_inv n p dth du0 duN T). replace (dotp p (fun _ => 0) dth) with 0; [ring|]. symmetry. apply rs_zero. intros; ring.
  - apply tangents_last in T. destruct T as [du [T E]]. specialize (IH du T).
    rewrite (dot_ext n v duN (mv n (tr (dJ s)) lam) duN) by (intros k Hk; first [reflexivity | symmetry; apply Ad; exact Hk]).
    rewrite dot_tr, (dot_split n lam _ _ _ E).
    replace (dotp p (fun k => g k - mv n (tr (dB s)) lam k) dth) with (dotp p g dth - dotp n lam (mvp p (dB s) dth)).
    2:{ rewrite <- dot_trp. unfold dotp. rewrite <- rs_minus. apply rs_ext; intros; ring. }
    replace (dotp n (fun i => - mv n (tr (dM s)) lam i) du) with (- dotp n lam (mv n (dM s) du)) in IH.
    2:{ rewrite <- dot_tr. unfold dotp. rewrite <- (Rmult_1_l (rs n _)), Ropp_mult_distr_l, <- rs_scale. apply rs_ext; intros; ring. }
    lra.
Qed.
Print Assumptions C100_adjoint.

(** what reaches the parameters when the cotangent of the state is zero: nothing, if the adjoint systems are regular *)
Lemma sweep_zero n p ps steps v g v0 : (forall s, In s steps -> forall lam, (forall i, (i < n)%nat -> mv n (tr (dJ s)) lam i = 0) -> forall i, (i < n)%nat -> lam i = 0) ->
  sweep n ps steps v g v0 -> (forall i, (i < n)%nat -> v i = 0) -> (forall k, (k < p)%nat -> g k = 0) /\ (forall i, (i < n)%nat -> v0 i = 0).
Proof.
  intros Reg S. induction S as [v|steps s v lam g v0 Ad S IH]; intros Z; [split; auto|].
  assert (L : forall i, (i < n)%nat -> lam i = 0).
  { apply (Reg s); [apply in_or_app; right; left; reflexivity|]. intros i Hi. rewrite (Ad i Hi). apply Z; exact Hi. }
  destruct IH as [G0 V0].
  - intros s' I. apply Reg. apply in_or_app; left; exact I.
  - intros i Hi. destruct ps; [reflexivity|]. replace (mv n (tr (dM s)) lam i) with 0; [ring|]. symmetry. apply rs_zero. intros k Hk. rewrite (L k Hk). ring.
  - split; [|exact V0]. intros k Hk. rewrite (G0 k Hk). replace (mv n (tr (dB s)) lam k) with 0; [ring|]. symmetry. apply rs_zero. intros q Hq. rewrite (L q Hq). ring.
Qed.

(** With [pseudo_time] only the last step's adjoint solve contributes, whatever the number of steps: the gradient is
    [- B' lam] with [J' lam = v]. *)
Theorem C100_last_step n p steps s v g v0 :
  (forall t, In t (steps ++ [s]) -> forall lam, (forall i, (i < n)%nat -> mv n (tr (dJ t)) lam i = 0) -> forall i, (i < n)%nat -> lam i = 0) ->
  sweep n true (steps ++ [s]) v g v0 ->
  exists lam, (forall i, (i < n)%nat -> mv n (tr (dJ s)) lam i = v i) /\ forall k, (k < p)%nat -> g k = - mv n (tr (dB s)) lam k.
Proof.
  intros Reg S. inversion S as [v' E|st s' v' lam g' v0' Ad S' E]; [destruct steps; discriminate|].
  apply snoc_inj in E. destruct E as [-> ->]. subst. exists lam. split; [exact Ad|]. intros k Hk.
  destruct (sweep_zero n p true steps (fun _ => 0) g' v0 (fun t I => Reg t (in_or_app _ _ _ (or_introl I))) S' (fun _ _ => eq_refl)) as [G0 _].
  rewrite (G0 k Hk). ring.
Qed.
Print Assumptions C100_last_step.

(** If no step's residual depends on the previous state - load stepping, where it is only a warm start - the [pseudo_time]
    gradient is the gradient. *)
Theorem C100_pseudo n p dth steps v g v0 du0 duN :
  (forall t, In t steps -> forall lam, (forall i, (i < n)%nat -> mv n (tr (dJ t)) lam i = 0) -> forall i, (i < n)%nat -> lam i = 0) ->
  (forall t, In t steps -> forall i j, (i < n)%nat -> (j < n)%nat -> dM t i j = 0) ->
  steps <> [] ->
  sweep n true steps v g v0 -> tangents n p dth steps du0 duN ->
  dotp n v duN = dotp p g dth.
Proof.
  intros Reg M0 Ne S T. destruct (exists_last Ne) as [st [s E]]. subst steps.
  destruct (C100_last_step n p st s v g v0 Reg S) as [lam [Ad G]].
  apply tangents_last in T. destruct T as [du [_ E]].
  rewrite (dot_ext n v duN (mv n (tr (dJ s)) lam) duN) by (intros k Hk; first [reflexivity | symmetry; apply Ad; exact Hk]).
  rewrite dot_tr, (dot_split n lam _ _ _ E).
  replace (dotp n lam (mv n (dM s) du)) with 0.
  2:{ symmetry. apply rs_zero. intros i Hi. replace (mv n (dM s) du i) with 0; [ring|]. symmetry. apply rs_zero. intros j Hj.
      rewrite (M0 s ltac:(apply in_or_app; right; left; reflexivity) i j Hi Hj). ring. }
  rewrite <- dot_trp. unfold dotp. rewrite (rs_ext p (fun k => g k * dth k) (fun k => (-1) * (mv n (tr (dB s)) lam k * dth k))) by (intros k Hk; rewrite (G k Hk); ring).
  rewrite rs_scale. ring.
Qed.
Print Assumptions C100_pseudo.

(** For a transient problem it is not: integrating [u' = theta] over [N + 1] unit steps the state changes by [N + 1] per unit of
    theta, the [pseudo_time] gradient is 1. *)
Definition integ : stepd := mkStep (fun _ _ => 1) (fun _ _ => -1) (fun _ _ => -1).
Lemma rep_snoc {A} (a : A) k : repeat a (S k) = repeat a k ++ [a].
Proof. induction k as [|k IH]; [reflexivity|]. cbn [repeat app] in *. rewrite IH at 1. reflexivity. Qed.

Theorem C100_transient_refuted N :
  tangents 1 1 (fun _ => 1) (repeat integ (S N)) (fun _ => 0) (fun _ => INR (S N)) /\
  (exists g v0, sweep 1 false (repeat integ (S N)) (fun _ => 1) g v0 /\ g 0%nat = INR (S N)) /\
  (exists g v0, sweep 1 true (repeat integ (S N)) (fun _ => 1) g v0) /\
  (forall g v0, sweep 1 true (repeat integ (S N)) (fun _ => 1) g v0 -> g 0%nat = 1).
Proof.
  split; [|split; [|split]].
  - assert (G : forall k, tangents 1 1 (fun _ => 1) (repeat integ k) (fun _ => 0) (fun _ => INR k)).
    { induction k as [|k IH]; [apply tan_nil|]. rewrite rep_snoc. apply (tan_step 1 1 _ _ integ _ (fun _ => INR k)); [exact IH|].
      intros i Hi. rewrite S_INR. unfold mv, mvp, integ; cbn [rs dJ dM dB]. ring. }
    apply G.
  - assert (G : forall k v, (forall i, (i < 1)%nat -> v i = 1) -> exists g v0, sweep 1 false (repeat integ k) v g v0 /\ g 0%nat = INR k).
    { induction k as [|k IH]; intros v Hv; [exists (fun _ => 0), v; split; [apply sweep_nil | reflexivity]|].
      destruct (IH (fun i => - mv 1 (tr (dM integ)) (fun _ => 1) i)) as [g [v0 [S E]]]; [intros i Hi; unfold mv, tr, integ; cbn [rs dM]; ring|].
      exists (fun q => g q - mv 1 (tr (dB integ)) (fun _ => 1) q), v0. split.
      - rewrite rep_snoc. apply sweep_step; [|exact S]. intros i Hi. rewrite (Hv i Hi). unfold mv, tr, integ; cbn [rs dJ]. ring.
      - rewrite E, S_INR. unfold mv, tr, integ; cbn [rs dB]. ring. }
    apply G. reflexivity.
  - assert (G : forall k v, (forall i, (i < 1)%nat -> v i = v 0%nat) -> exists g v0, sweep 1 true (repeat integ k) v g v0).
    { induction k as [|k IH]; intros v Hv; [exists (fun _ => 0), v; apply sweep_nil|].
      destruct (IH (fun _ => 0)) as [g [v0 S]]; [reflexivity|]. exists (fun q => g q - mv 1 (tr (dB integ)) (fun _ => v 0%nat) q), v0.
      rewrite rep_snoc. apply sweep_step; [|exact S]. intros i Hi. rewrite (Hv i Hi). unfold mv, tr, integ; cbn [rs dJ]. ring. }
    apply G. reflexivity.
  - intros g v0 S. rewrite rep_snoc in S.
    assert (Reg : forall t, In t (repeat integ N ++ [integ]) -> forall lam, (forall i, (i < 1)%nat -> mv 1 (tr (dJ t)) lam i = 0) -> forall i, (i < 1)%nat -> lam i = 0).
    { intros t I lam L i Hi. assert (t = integ) as ->.
      { apply in_app_or in I. destruct I as [I|[I|[]]]; [apply repeat_spec in I; exact I | congruence]. }
      specialize (L 0%nat ltac:(lia)). unfold mv, tr, integ in L; cbn [rs dJ] in L. replace i with 0%nat by lia. lra. }
    destruct (C100_last_step 1 1 (repeat integ N) integ _ g v0 Reg S) as [lam [A G]].
    specialize (A 0%nat ltac:(lia)). rewrite (G 0%nat ltac:(lia)). unfold mv, tr, integ in *; cbn [rs dJ dB] in *. lra.
Qed.
Print Assumptions C100_transient_refuted.

(** The tangents of the specification are the derivatives of a solved trajectory: along any path on which every step's residual
    stays zero and has the stated differential, the state derivatives satisfy the tangent equation. *)
Theorem C100_tangent n p (J M B : mat) (res : R -> nat -> R) (du' du dth : vec) t :
  (forall s i, (i < n)%nat -> res s i = 0) ->
  (forall i, (i < n)%nat -> derivable_pt_lim (fun s => res s i) t (mv n J du' i + mv n M du i + mvp p B dth i)) ->
  forall i, (i < n)%nat -> mv n J du' i + mv n M du i + mvp p B dth i = 0.
Proof.
  intros Z D i Hi. apply (uniqueness_limite (fun s => res s i) t); [apply D; exact Hi|].
  intros e He. exists (mkposreal 1 Rlt_0_1). intros h Hh _. rewrite !Z by exact Hi. unfold Rdiv.
  replace ((0 - 0) * / h - 0) with 0 by ring. rewrite Rabs_R0. exact He.
Qed.
Print Assumptions C100_tangent.

(** A case that meets the hypotheses: two steps with two unknowns and one parameter. *)
Example C100_example :
  let s := mkStep (fun i j => if i =? j then 2 else 0) (fun i j => if i =? j then -1 else 0) (fun i _ => if i =? 0 then -1 else 0) in
  exists g v0, sweep 2 false [s; s] (fun i => if i =? 0 then 1 else 0) g v0 /\ g 0%nat = 3 / 4 /\
    tangents 2 1 (fun _ => 1) [s; s] (fun _ => 0) (fun i => if i =? 0 then 3 / 4 else 0).
Proof.
  intros s.
  exists (fun k => ((fun _ => 0) k - mv 2 (tr (dB s)) (fun i => if i =? 0 then 1 / 4 else 0) k) - mv 2 (tr (dB s)) (fun i => if i =? 0 then 1 / 2 else 0) k).
  exists (fun i => - mv 2 (tr (dM s)) (fun i => if i =? 0 then 1 / 4 else 0) i). split; [|split].
  - change [s; s] with ([s] ++ [s]). apply (sweep_step 2 false [s] s).
    + intros i Hi. destruct i as [|[|i]]; [| |lia]; unfold mv, tr, s; cbn [rs dJ Nat.eqb]; field.
    + change [s] with ([] ++ [s]). apply (sweep_step 2 false [] s); [|apply sweep_nil].
      intros i Hi. destruct i as [|[|i]]; [| |lia]; unfold mv, tr, s; cbn [rs dJ dM Nat.eqb]; field.
  - unfold mv, tr, s; cbn [rs dB Nat.eqb]. field.
  - change [s; s] with ([s] ++ [s]). apply (tan_step 2 1 _ [s] s _ (fun i => if i =? 0 then 1 / 2 else 0)).
    + change [s] with ([] ++ [s]). apply (tan_step 2 1 _ [] s _ (fun _ => 0)); [apply tan_nil|].
      intros i Hi. destruct i as [|[|i]]; [| |lia]; unfold mv, mvp, s; cbn [rs dJ dM dB Nat.eqb]; field.
    + intros i Hi. destruct i as [|[|i]]; [| |lia]; unfold mv, mvp, s; cbn [rs dJ dM dB Nat.eqb]; field.
Qed.
