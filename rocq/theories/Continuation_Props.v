(** C42: the continuation schedule. *)
From Coq Require Import List Bool Arith ZArith QArith Qminmax Lia Lqa Zdiv Qround.
From Verif Require Import Base Optimizer_Model.
Import ListNotations.
Open Scope Z_scope.

(** ** Specification vocabulary *)
(** The step points from initial to final (a zero step always does; when the two are
    equal the step must not be negative). *)
Definition right_way (c : cont) : Prop :=
  (c_initial c <= c_final c /\ 0 <= c_step c)%Q \/ (c_final c < c_initial c /\ c_step c <= 0)%Q.
(** v lies between a and b, whichever is larger. *)
Definition between (a b v : Q) : Prop := (a <= v <= b)%Q \/ (b <= v <= a)%Q.
(** w is at least as close to the final value as v, on the same side. *)
Definition towards (c : cont) (v w : Q) : Prop := between v (c_final c) w.

(** ** Helpers *)
Lemma py_min_spec v w : (py_min v w == Qmin v w)%Q.
Proof.
  unfold py_min. destruct (Qle_bool v w) eqn:E.
  - apply Qle_bool_iff in E. symmetry. now apply Q.min_l.
  - symmetry. apply Q.min_r. apply Qlt_le_weak, Qnot_le_lt. intros H. apply Qle_bool_iff in H. congruence.
Qed.
Lemma py_max_spec v w : (py_max v w == Qmax v w)%Q.
Proof.
  unfold py_max. destruct (Qle_bool w v) eqn:E.
  - apply Qle_bool_iff in E. symmetry. now apply Q.max_l.
  - symmetry. apply Q.max_r. apply Qlt_le_weak, Qnot_le_lt. intros H. apply Qle_bool_iff in H. congruence.
Qed.
Lemma py_min_cases v w : (v <= w /\ py_min v w = v)%Q \/ (w < v /\ py_min v w = w)%Q.
Proof.
  unfold py_min. destruct (Qle_bool v w) eqn:E; [left|right]; (split; [|reflexivity]).
  - now apply Qle_bool_iff.
  - apply Qnot_le_lt. intros H. apply Qle_bool_iff in H. congruence.
Qed.
Lemma py_max_cases v w : (w <= v /\ py_max v w = v)%Q \/ (v < w /\ py_max v w = w)%Q.
Proof.
  unfold py_max. destruct (Qle_bool w v) eqn:E; [left|right]; (split; [|reflexivity]).
  - now apply Qle_bool_iff.
  - apply Qnot_le_lt. intros H. apply Qle_bool_iff in H. congruence.
Qed.

(** The value as a function of the phase number n. *)
Definition phase_value (c : cont) (n : Z) : Q :=
  let v := (c_initial c + c_step c * inject_Z n)%Q in
  if Qle_bool (c_initial c) (c_final c) then py_min v (c_final c) else py_max v (c_final c).
Definition phase (c : cont) (it : Z) : Z := Z.max 0 (it / c_every c).

Lemma value_at_phase c it : 1 <= c_every c -> value_at c it = Some (phase_value c (phase c it)).
Proof. intros H. unfold value_at. destruct (Z.eqb_spec (c_every c) 0); [lia|]. reflexivity. Qed.

Lemma phase_nonneg c it : 0 <= phase c it.
Proof. unfold phase. lia. Qed.
Lemma phase_mono c a b : 1 <= c_every c -> a <= b -> phase c a <= phase c b.
Proof. intros H L. unfold phase. pose proof (Z_div_le a b (c_every c) ltac:(lia) L). lia. Qed.
Lemma injZ_le a b : a <= b -> (inject_Z a <= inject_Z b)%Q.
Proof. intros. now rewrite <- Zle_Qle. Qed.

Lemma step_mono c a b : 0 <= a <= b ->
  ((0 <= c_step c)%Q -> (c_step c * inject_Z a <= c_step c * inject_Z b)%Q) /\
  ((c_step c <= 0)%Q -> (c_step c * inject_Z b <= c_step c * inject_Z a)%Q).
Proof.
  intros [H0 H]. apply injZ_le in H. split; intros S; nra.
Qed.
Lemma step_sign c a : 0 <= a ->
  ((0 <= c_step c)%Q -> (0 <= c_step c * inject_Z a)%Q) /\
  ((c_step c <= 0)%Q -> (c_step c * inject_Z a <= 0)%Q).
Proof.
  intros H. apply injZ_le in H. change (inject_Z 0) with 0%Q in H. split; intros S; nra.
Qed.

Lemma pv_up c n : (c_initial c <= c_final c)%Q ->
  ((c_initial c + c_step c * inject_Z n <= c_final c)%Q /\ phase_value c n = (c_initial c + c_step c * inject_Z n)%Q) \/
  ((c_final c < c_initial c + c_step c * inject_Z n)%Q /\ phase_value c n = c_final c).
Proof.
  intros H. unfold phase_value. rewrite (proj2 (Qle_bool_iff _ _) H). apply py_min_cases.
Qed.
Lemma pv_down c n : (c_final c < c_initial c)%Q ->
  ((c_final c <= c_initial c + c_step c * inject_Z n)%Q /\ phase_value c n = (c_initial c + c_step c * inject_Z n)%Q) \/
  ((c_initial c + c_step c * inject_Z n < c_final c)%Q /\ phase_value c n = c_final c).
Proof.
  intros H. unfold phase_value. destruct (Qle_bool _ _) eqn:E.
  - apply Qle_bool_iff in E. exfalso. revert H. now apply Qle_not_lt.
  - apply py_max_cases.
Qed.

Lemma pv_zero c : (phase_value c 0 == c_initial c)%Q.
Proof.
  assert (Z0 : (c_initial c + c_step c * inject_Z 0 == c_initial c)%Q) by (change (inject_Z 0) with 0%Q; ring).
  destruct (Qlt_le_dec (c_final c) (c_initial c)) as [L|L].
  - destruct (pv_down c 0 L) as [[H E]|[H E]]; rewrite E; lra.
  - destruct (pv_up c 0 L) as [[H E]|[H E]]; rewrite E; lra.
Qed.

(** ** C42 *)
(** Until the first update the value is the initial one. *)
Theorem C42_initial :
  forall c it, 1 <= c_every c -> it < c_every c ->
  exists v, value_at c it = Some v /\ (v == c_initial c)%Q.
Proof.
  intros c it H L. rewrite (value_at_phase c it H). eexists; split; [reflexivity|].
  replace (phase c it) with 0; [apply pv_zero|].
  unfold phase. assert (it / c_every c <= 0); [|lia].
  destruct (Z_lt_le_dec it 0) as [N|N].
  - pose proof (Z_div_le it 0 (c_every c) ltac:(lia) ltac:(lia)). rewrite Z.div_0_l in * by lia. lia.
  - rewrite Z.div_small; lia.
Qed.
Print Assumptions C42_initial.

(** The value changes only at positive multiples of the period. *)
Theorem C42_changes_at_multiples :
  forall c it, 1 <= c_every c -> value_at c it <> value_at c (it - 1) -> 0 < it /\ (c_every c | it).
Proof.
  intros c it H N. rewrite !(value_at_phase c) in N by exact H.
  assert (P : phase c it <> phase c (it - 1)) by congruence. unfold phase in P.
  set (e := c_every c) in *.
  pose proof (Z.div_mod it e ltac:(lia)) as D. pose proof (Z.mod_pos_bound it e ltac:(lia)) as B.
  destruct (Z.eq_dec (it mod e) 0) as [Z0|Z0].
  - split; [|apply Z.mod_divide; lia].
    destruct (Z_lt_le_dec 0 it) as [|G]; [assumption|exfalso]. apply P.
    assert (it / e <= 0) by (pose proof (Z_div_le it 0 e ltac:(lia) G); rewrite Z.div_0_l in *; lia).
    assert ((it - 1) / e <= 0) by (pose proof (Z_div_le (it - 1) 0 e ltac:(lia) ltac:(lia)); rewrite Z.div_0_l in *; lia).
    lia.
  - exfalso. apply P. assert ((it - 1) / e = it / e); [|congruence].
    symmetry. apply (Z.div_unique (it - 1) e (it / e) (it mod e - 1)); lia.
Qed.
Print Assumptions C42_changes_at_multiples.

(** With a step of the right sign: after n = it / every updates the value is
    initial + n * step as long as that has not passed final, and final afterwards. *)
Theorem C42_formula :
  forall c it, 1 <= c_every c -> 0 <= it -> right_way c ->
  let v := (c_initial c + c_step c * inject_Z (it / c_every c))%Q in
  exists w, value_at c it = Some w /\
  (between (c_initial c) (c_final c) v -> (w == v)%Q) /\
  (~ between (c_initial c) (c_final c) v -> (w == c_final c)%Q).
Proof.
  intros c it H P R v. rewrite (value_at_phase c it H). eexists; split; [reflexivity|].
  pose proof (phase_nonneg c it) as NN.
  assert (Ph : phase c it = it / c_every c) by (unfold phase; pose proof (Z.div_pos it (c_every c) P ltac:(lia)); lia).
  rewrite Ph in *. subst v. set (n := it / c_every c) in *. destruct (step_sign c n NN) as [S1 S2].
  unfold between.
  destruct (Qlt_le_dec (c_final c) (c_initial c)) as [L|L].
  - destruct R as [[R _]|[_ R]]; [exfalso; revert L; now apply Qle_not_lt|]. specialize (S2 R).
    destruct (pv_down c n L) as [[B E]|[B E]]; rewrite E; split; intros K; try reflexivity.
    + exfalso. apply K. right. lra.
    + exfalso. destruct K; lra.
  - destruct (pv_up c n L) as [[B E]|[B E]]; rewrite E; split; intros K; try reflexivity.
    + destruct R as [[_ R]|[R1 R2]]; [|exfalso; revert R1; now apply Qle_not_lt].
      specialize (S1 R). exfalso. apply K. left. lra.
    + destruct K; lra.
Qed.
Print Assumptions C42_formula.

(** Hence the value stays between initial and final ... *)
Theorem C42_clamped :
  forall c it, 1 <= c_every c -> right_way c ->
  exists v, value_at c it = Some v /\ between (c_initial c) (c_final c) v.
Proof.
  intros c it H R. rewrite (value_at_phase c it H). eexists; split; [reflexivity|].
  pose proof (phase_nonneg c it) as NN. set (n := phase c it) in *.
  destruct (step_sign c n NN) as [S1 S2]. unfold between.
  destruct R as [[L R]|[L R]].
  - left. specialize (S1 R). destruct (pv_up c n L) as [[B E]|[B E]]; rewrite E; lra.
  - right. specialize (S2 R). destruct (pv_down c n L) as [[B E]|[B E]]; rewrite E; lra.
Qed.
Print Assumptions C42_clamped.

(** ... moves monotonically towards final ... *)
Theorem C42_monotone :
  forall c it it', 1 <= c_every c -> right_way c -> it <= it' ->
  exists v w, value_at c it = Some v /\ value_at c it' = Some w /\ towards c v w.
Proof.
  intros c it it' H R Le. rewrite !(value_at_phase c) by exact H.
  do 2 eexists. split; [reflexivity|]. split; [reflexivity|].
  pose proof (phase_nonneg c it) as NN. pose proof (phase_mono c it it' H Le) as PM.
  set (n := phase c it) in *. set (m := phase c it') in *.
  destruct (step_mono c n m ltac:(lia)) as [S1 S2]. unfold towards, between.
  destruct R as [[L R]|[L R]].
  - left. specialize (S1 R).
    destruct (pv_up c n L) as [[B E]|[B E]], (pv_up c m L) as [[B' E']|[B' E']]; rewrite E, E'; lra.
  - right. specialize (S2 R).
    destruct (pv_down c n L) as [[B E]|[B E]], (pv_down c m L) as [[B' E']|[B' E']]; rewrite E, E'; lra.
Qed.
Print Assumptions C42_monotone.

(** ... and, unless the step is zero, reaches final and stays there. *)
Theorem C42_reaches_final :
  forall c, 1 <= c_every c -> right_way c -> ~ (c_step c == 0)%Q ->
  exists N, forall it, N <= it -> exists v, value_at c it = Some v /\ (v == c_final c)%Q.
Proof.
  intros c H R S0.
  set (q := ((c_final c - c_initial c) / c_step c)%Q).
  assert (Q0 : (q * c_step c == c_final c - c_initial c)%Q) by (unfold q; field; exact S0).
  set (K := Z.max 0 (Qceiling q)).
  assert (HK : (q <= inject_Z K)%Q).
  { apply Qle_trans with (inject_Z (Qceiling q)); [apply Qle_ceiling|apply injZ_le; unfold K; lia]. }
  exists (K * c_every c). intros it L. rewrite (value_at_phase c it H). eexists; split; [reflexivity|].
  assert (PK : K <= phase c it).
  { unfold phase. pose proof (Z_div_le (K * c_every c) it (c_every c) ltac:(lia) L).
    rewrite Z.div_mul in * by lia. lia. }
  apply injZ_le in PK. set (n := phase c it) in *.
  destruct R as [[Lf R]|[Lf R]].
  - destruct (pv_up c n Lf) as [[B E]|[B E]]; rewrite E; [|reflexivity]. nra.
  - destruct (pv_down c n Lf) as [[B E]|[B E]]; rewrite E; [|reflexivity]. nra.
Qed.
Print Assumptions C42_reaches_final.

(** The documentation says the value is always clamped between initial and final.  With
    a step of the wrong sign it is not: only the final side is clamped. *)
Theorem C42_wrong_sign_refuted :
  exists c it v, 1 <= c_every c /\ 0 <= it /\ value_at c it = Some v /\
  ~ between (c_initial c) (c_final c) v.
Proof.
  exists (Cont 1 3 10 (- (1)))%Q, 50. eexists. split; [cbn; lia|]. split; [lia|].
  split; [reflexivity|]. unfold between. cbn. intros [[A B]|[A B]]; revert A B; vm_compute; congruence.
Qed.
Print Assumptions C42_wrong_sign_refuted.

(** Even for a parameter meant to stay constant (initial = final). *)
Theorem C42_constant_drifts_refuted :
  exists c it v, 1 <= c_every c /\ 0 <= it /\ (c_initial c == c_final c)%Q /\
  value_at c it = Some v /\ ~ (v == c_initial c)%Q.
Proof.
  exists (Cont 2 2 5 (- (1)))%Q, 5. eexists. split; [cbn; lia|]. split; [lia|]. split; [reflexivity|].
  split; [reflexivity|]. vm_compute. congruence.
Qed.
Print Assumptions C42_constant_drifts_refuted.

(** In general, with a wrong-sign step the value is initial + n * step for every n. *)
Theorem C42_wrong_sign :
  forall c it, 1 <= c_every c -> 0 <= it ->
  ((c_initial c <= c_final c /\ c_step c <= 0) \/ (c_final c < c_initial c /\ 0 <= c_step c))%Q ->
  exists v, value_at c it = Some v /\ (v == c_initial c + c_step c * inject_Z (it / c_every c))%Q.
Proof.
  intros c it H P R. rewrite (value_at_phase c it H). eexists; split; [reflexivity|].
  assert (Ph : phase c it = it / c_every c) by (unfold phase; pose proof (Z.div_pos it (c_every c) P ltac:(lia)); lia).
  pose proof (phase_nonneg c it) as NN. rewrite Ph in *. set (n := it / c_every c) in *.
  destruct (step_sign c n NN) as [S1 S2].
  destruct R as [[L R]|[L R]].
  - specialize (S2 R). destruct (pv_up c n L) as [[B E]|[B E]]; rewrite E; lra.
  - specialize (S1 R). destruct (pv_down c n L) as [[B E]|[B E]]; rewrite E; lra.
Qed.
Print Assumptions C42_wrong_sign.

(** A zero period raises. *)
Theorem C42_zero_period : forall c it, c_every c = 0 -> value_at c it = None.
Proof. intros c it H. unfold value_at. now rewrite H. Qed.
Print Assumptions C42_zero_period.

(** The documented Heaviside example: 1 -> 8, +1 every 50 iterations. *)
Example C42_example :
  let c := Cont 1 8 50 1 in
  1 <= c_every c /\ right_way c /\ ~ (c_step c == 0)%Q /\
  value_at c 0 = Some (1 + 1 * 0)%Q /\ value_at c 49 = Some (1 + 1 * 0)%Q /\
  value_at c 50 = Some (1 + 1 * 1)%Q /\ value_at c 1000 = Some 8%Q.
Proof.
  cbv zeta. split; [cbn; lia|]. split; [left; cbn; split; vm_compute; congruence|].
  split; [vm_compute; congruence|]. vm_compute. auto.
Qed.

(** ** Facts used by the optimisation loop *)
(** If the value does not change at the next boundary it never changes again. *)
Lemma stall_forever c n m : 0 <= n -> n + 1 <= m ->
  (phase_value c n == phase_value c (n + 1))%Q -> (phase_value c n == phase_value c m)%Q.
Proof.
  intros N Le E.
  pose proof (injZ_le 0 n N) as I0. change (inject_Z 0) with 0%Q in I0.
  assert (I1 : (inject_Z (n + 1) == inject_Z n + 1)%Q) by (rewrite inject_Z_plus; reflexivity).
  apply injZ_le in Le.
  destruct (Qlt_le_dec (c_final c) (c_initial c)) as [L|L].
  - destruct (pv_down c n L) as [[B1 E1]|[B1 E1]], (pv_down c (n + 1) L) as [[B2 E2]|[B2 E2]],
      (pv_down c m L) as [[B3 E3]|[B3 E3]]; rewrite ?E1, ?E2, ?E3 in *; nra.
  - destruct (pv_up c n L) as [[B1 E1]|[B1 E1]], (pv_up c (n + 1) L) as [[B2 E2]|[B2 E2]],
      (pv_up c m L) as [[B3 E3]|[B3 E3]]; rewrite ?E1, ?E2, ?E3 in *; nra.
Qed.
