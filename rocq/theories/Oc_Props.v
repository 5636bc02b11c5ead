(** C43: the optimality-criteria update. *)
From Coq Require Import List Bool Arith ZArith QArith Qminmax Qabs Qround Lia Lqa.
From Verif Require Import Base ZArr Grid_Model Oc_Model.
Import ListNotations.
Open Scope Q_scope.

(** ** Specification vocabulary *)
(** Every entry lies in [a, b]. *)
Definition all_in (a b : Q) (x : list Q) : Prop := forall i, (i < length x)%nat -> a <= nth i x 0 <= b.
(** Every entry of y is within m of that of x. *)
Definition moved_at_most (m : Q) (x y : list Q) : Prop :=
  length y = length x /\ forall i, (i < length x)%nat -> Qabs (nth i y 0 - nth i x 0) <= m.
(** Weighted volume of a density. *)
Definition vol (dv x : list Q) : Q := fold_right Qplus 0 (map (fun p => fst p * snd p) (combine dv x)).

Lemma Qltb_lt x y : Qltb x y = true <-> x < y.
Proof.
  unfold Qltb. rewrite negb_true_iff. split; intros H.
  - apply Qnot_le_lt. intros L. apply Qle_bool_iff in L. congruence.
  - destruct (Qle_bool y x) eqn:E; [|reflexivity]. apply Qle_bool_iff in E. exfalso. revert H. now apply Qle_not_lt.
Qed.
Lemma Qltb_ge x y : Qltb x y = false <-> y <= x.
Proof. unfold Qltb. rewrite negb_false_iff. apply Qle_bool_iff. Qed.
Lemma tiny_pos : 0 < tiny.
Proof. reflexivity. Qed.

Lemma plus_tiny_pos a : 0 <= a -> 0 < a + tiny.
Proof. intros H. pose proof tiny_pos as T. revert T. generalize tiny. intros q T. lra. Qed.
Lemma div_le a b c : 0 < b -> a / b <= c -> a <= c * b.
Proof.
  intros P H. assert (N : ~ b == 0) by (intros Z; rewrite Z in P; now apply Qlt_irrefl in P).
  assert (E : a == a / b * b) by (field; exact N). rewrite E. apply Qmult_le_compat_r; [exact H|lra].
Qed.
Lemma div_lt a b c : 0 < b -> c < a / b -> c * b < a.
Proof.
  intros P H. assert (N : ~ b == 0) by (intros Z; rewrite Z in P; now apply Qlt_irrefl in P).
  assert (E : a == a / b * b) by (field; exact N). rewrite E. apply Qmult_lt_compat_r; [exact P|exact H].
Qed.
Lemma clip_range a lo hi : lo <= hi -> lo <= clip a lo hi <= hi.
Proof. intros H. unfold clip. split; [apply Q.min_glb; [apply Q.le_max_r|exact H]|apply Q.le_min_r]. Qed.
Lemma clip_inside a lo hi lo' hi' : lo <= hi -> lo' <= a <= hi' -> lo' <= hi -> lo <= hi' -> lo' <= clip a lo hi <= hi'.
Proof.
  intros H [A1 A2] B1 B2. unfold clip. split.
  - apply Q.min_glb; [|exact B1]. eapply Qle_trans; [exact A1|apply Q.le_max_l].
  - eapply Qle_trans; [apply Q.le_min_l|]. apply Q.max_lub; assumption.
Qed.
Lemma clip_mono a a' lo hi : a <= a' -> clip a lo hi <= clip a' lo hi.
Proof. intros H. unfold clip. apply Q.min_le_compat_r, Q.max_le_compat_r, H. Qed.

Lemma pow2_ge n : inject_Z (Z.of_nat n) <= inject_Z (2 ^ Z.of_nat n).
Proof. rewrite <- Zle_Qle. pose proof (Z.pow_gt_lin_r 2 (Z.of_nat n)). lia. Qed.

Section C43.
  Variable pw : Q -> Q.
  Variables (move xmin xmax tol : Q).
  Notation candidate := (candidate pw move xmin xmax).
  Notation bisect := (bisect pw move xmin xmax tol).
  Notation entry := (oc_entry pw move xmin xmax).

  Lemma candidate_nth ps lam i : (i < length ps)%nat -> nth i (candidate ps lam) 0 = entry lam (nth i ps (0, 0, 0)).
  Proof.
    intros H. unfold Oc_Model.candidate. rewrite (nth_indep _ 0 (entry lam (0, 0, 0))) by (rewrite map_length; exact H).
    apply map_nth.
  Qed.

  (** More fuel does not change the answer. *)
  Lemma bisect_fuel f k ps t l1 l2 x r : bisect f ps t l1 l2 x = Some r -> bisect (f + k) ps t l1 l2 x = Some r.
  Proof.
    revert l1 l2 x; induction f as [|f IH]; intros l1 l2 x H.
    - cbn in H. destruct (Qltb tol _) eqn:E; [discriminate|]. cbn [Nat.add]. destruct k; cbn; rewrite E; exact H.
    - cbn [Nat.add]. cbn in H |- *. destruct (Qltb tol _); [|exact H]. destruct (Qltb t _); apply IH; exact H.
  Qed.

  (** The bracket at the end of the loop, and the iterate returned. *)
  Lemma bisect_bracket f ps t l2i : forall l1 l2 x r a b,
    0 <= l1 <= l2 -> l2 <= l2i ->
    (l1 == 0 \/ t < volume ps (candidate ps l1)) -> (l2 = l2i \/ volume ps (candidate ps l2) <= t) ->
    bisect f ps t l1 l2 x = Some (r, (a, b)) ->
    0 <= a <= b /\ b <= l2i /\ b - a <= tol * (a + b + tiny) /\
    (a == 0 \/ t < volume ps (candidate ps a)) /\ (b = l2i \/ volume ps (candidate ps b) <= t) /\
    ((r = x /\ a = l1 /\ b = l2) \/ (r = candidate ps a \/ r = candidate ps b)).
  Proof.
    assert (STOP : forall l1 l2 x r a b, 0 <= l1 <= l2 -> l2 <= l2i ->
      (l1 == 0 \/ t < volume ps (candidate ps l1)) -> (l2 = l2i \/ volume ps (candidate ps l2) <= t) ->
      Qltb tol ((l2 - l1) / (l1 + l2 + tiny)) = false -> Some (x, (l1, l2)) = Some (r, (a, b)) ->
      0 <= a <= b /\ b <= l2i /\ b - a <= tol * (a + b + tiny) /\
      (a == 0 \/ t < volume ps (candidate ps a)) /\ (b = l2i \/ volume ps (candidate ps b) <= t) /\
      ((r = x /\ a = l1 /\ b = l2) \/ (r = candidate ps a \/ r = candidate ps b))).
    { intros l1 l2 x r a b L U A B E H. injection H as <- <- <-. apply Qltb_ge in E.
      split; [exact L|]. split; [exact U|]. split; [apply div_le; [apply plus_tiny_pos; lra|exact E]|].
      split; [exact A|]. split; [exact B|]. left. auto. }
    induction f as [|f IH]; intros l1 l2 x r a b L U A B H; cbn [Oc_Model.bisect] in H;
      destruct (Qltb tol _) eqn:E; try discriminate; try (eapply STOP; eassumption).
    set (m := (1 # 2) * (l1 + l2)) in *.
    assert (M : l1 <= m <= l2) by (unfold m; lra).
    destruct (Qltb t (volume ps (candidate ps m))) eqn:V.
    - apply Qltb_lt in V. assert (L' : 0 <= m <= l2) by (clearbody m; lra). destruct (IH _ _ _ _ _ _ L' U (or_intror V) B H) as (R1 & R2 & R3 & R4 & R5 & R6).
      repeat split; try tauto. right. destruct R6 as [(-> & -> & _)|R6]; [left; reflexivity|exact R6].
    - apply Qltb_ge in V. assert (U' : m <= l2i) by (clearbody m; lra). assert (L' : 0 <= l1 <= m) by (clearbody m; lra).
      destruct (IH _ _ _ _ _ _ L' U' A (or_intror V) H) as (R1 & R2 & R3 & R4 & R5 & R6).
      repeat split; try tauto. right. destruct R6 as [(-> & _ & ->)|R6]; [right; reflexivity|exact R6].
  Qed.

  (** The loop ends: the bracket halves at every step. *)
  Lemma bisect_ends n : forall ps t l1 l2 x, 0 < tol -> 0 <= l1 <= l2 ->
    l2 - l1 <= tol * tiny * inject_Z (2 ^ Z.of_nat n) -> exists r, bisect n ps t l1 l2 x = Some r.
  Proof.
    induction n as [|n IH]; intros ps t l1 l2 x T L W; cbn [Oc_Model.bisect].
    - destruct (Qltb tol _) eqn:E; [exfalso|eauto]. apply Qltb_lt in E.
      assert (P : 0 < l1 + l2 + tiny) by (apply plus_tiny_pos; lra).
      apply (div_lt _ _ _ P) in E.
      change (inject_Z (2 ^ Z.of_nat 0)) with 1 in W. clear P. pose proof tiny_pos as TP.
      revert E W TP. generalize tiny. intros q E W TP. nra.
    - destruct (Qltb tol _); [|eauto].
      assert (D : inject_Z (2 ^ Z.of_nat (S n)) == 2 * inject_Z (2 ^ Z.of_nat n)).
      { rewrite Nat2Z.inj_succ, Z.pow_succ_r, inject_Z_mult by lia. reflexivity. }
      rewrite D in W. set (m := (1 # 2) * (l1 + l2)). assert (M : m == (1 # 2) * (l1 + l2)) by reflexivity.
      destruct (Qltb t _); apply IH; try assumption; try (clearbody m; lra).
  Qed.
End C43.

Lemma oc_points_length rho dc dv : length dc = length rho -> length dv = length rho ->
  length (oc_points rho dc dv) = length rho.
Proof. intros A B. unfold oc_points. rewrite !combine_length. lia. Qed.
Lemma oc_points_nth rho dc dv i : length dc = length rho -> length dv = length rho -> (i < length rho)%nat ->
  nth i (oc_points rho dc dv) (0, 0, 0) = (nth i rho 0, nth i dc 0, nth i dv 0).
Proof. intros A B L. unfold oc_points. rewrite combine_nth by (rewrite combine_length; lia). now rewrite combine_nth by lia. Qed.
Lemma volume_vol rho dc dv x : length dc = length rho -> length dv = length rho -> length x = length rho ->
  volume (oc_points rho dc dv) x = vol dv x.
Proof.
  revert dc dv x; induction rho as [|r rho IH]; intros [|d dc] [|v dv] [|y x] A B C; cbn in *; try discriminate; [reflexivity|].
  unfold volume, vol in *. cbn [oc_points combine map fold_right fst snd]. f_equal. apply IH; lia.
Qed.

(** ** C43 *)
(** The bisection ends for every starting bracket and positive tolerance. *)
Theorem C43_terminates :
  forall pw move xmin xmax tol l2_init volfrac rho dc dv,
  0 < tol -> 0 <= l2_init ->
  exists fuel x, forall k, oc_update pw move xmin xmax tol (fuel + k) l2_init volfrac rho dc dv = Some x.
Proof.
  intros pw move xmin xmax tol l2i vf rho dc dv T L.
  assert (P : 0 < tol * tiny) by (apply Qmult_lt_0_compat; [exact T|exact tiny_pos]).
  set (n := Z.to_nat (Z.max 0 (Qceiling (l2i / (tol * tiny))))).
  destruct (bisect_ends pw move xmin xmax tol n (oc_points rho dc dv) (vf * fold_right Qplus 0 dv) 0 l2i rho T) as [[x b] R].
  { split; [apply Qle_refl|exact L]. }
  { assert (C : l2i / (tol * tiny) <= inject_Z (2 ^ Z.of_nat n)).
    { eapply Qle_trans; [apply Qle_ceiling|]. eapply Qle_trans; [|apply pow2_ge].
      rewrite <- Zle_Qle. unfold n. lia. }
    apply (div_le _ _ _ P) in C. rewrite (Qmult_comm (inject_Z _)) in C. lra. }
  exists n, x. intros k. unfold oc_update. now rewrite (bisect_fuel _ _ _ _ _ _ k _ _ _ _ _ _ R).
Qed.
Print Assumptions C43_terminates.

(** For densities in the box the result is in the box and no entry moves by more than
    the move limit -- whatever the sensitivities, weights, volume target and bracket. *)
Theorem C43_box_and_move :
  forall pw move xmin xmax tol fuel l2_init volfrac rho dc dv x,
  xmin <= xmax -> 0 <= move -> length dc = length rho -> length dv = length rho -> all_in xmin xmax rho ->
  oc_update pw move xmin xmax tol fuel l2_init volfrac rho dc dv = Some x ->
  all_in xmin xmax x /\ moved_at_most move rho x.
Proof.
  intros pw move xmin xmax tol fuel l2i vf rho dc dv x HX HM Ld Lv IN H. unfold oc_update in H.
  destruct (bisect _ _ _ _ _ _ _ _ _ _ _) as [[r b]|] eqn:B; [|discriminate]. injection H as <-.
  set (ps := oc_points rho dc dv) in *.
  assert (C : forall f t l1 l2 y r b, (y = rho \/ exists lam, y = candidate pw move xmin xmax ps lam) ->
    bisect pw move xmin xmax tol f ps t l1 l2 y = Some (r, b) ->
    r = rho \/ exists lam, r = candidate pw move xmin xmax ps lam).
  { clear. induction f as [|f IH]; intros t l1 l2 y r b Y H; cbn in H.
    - destruct (Qltb tol _); [discriminate|]. injection H as <- <-. exact Y.
    - destruct (Qltb tol _); [|injection H as <- <-; exact Y].
      destruct (Qltb t _); (eapply IH; [|exact H]); right; eauto. }
  assert (LP : length ps = length rho) by (apply oc_points_length; assumption).
  destruct (C _ _ _ _ _ _ _ (or_introl eq_refl) B) as [->|[lam ->]].
  - split; [exact IN|]. split; [reflexivity|]. intros i Hi.
    setoid_replace (nth i rho 0 - nth i rho 0) with 0 by ring. exact HM.
  - assert (E : forall i, (i < length rho)%nat -> xmin <= nth i (candidate pw move xmin xmax ps lam) 0 <= xmax /\
      nth i rho 0 - move <= nth i (candidate pw move xmin xmax ps lam) 0 <= nth i rho 0 + move).
    { intros i Hi. rewrite candidate_nth by (rewrite LP; exact Hi). unfold ps. rewrite oc_points_nth by assumption.
      specialize (IN i Hi). unfold oc_entry. split; [apply clip_range; exact HX|].
      apply clip_inside; [exact HX| |lra|lra]. apply clip_range. lra. }
    assert (LC : length (candidate pw move xmin xmax ps lam) = length rho) by (unfold candidate; rewrite map_length; exact LP).
    split.
    + intros i Hi. rewrite LC in Hi. apply E. exact Hi.
    + split; [exact LC|]. intros i Hi. apply Qabs_Qle_condition. destruct (E i Hi). lra.
Qed.
Print Assumptions C43_box_and_move.

(** When the loop runs at least once the result is in the box for every input density. *)
Theorem C43_box :
  forall pw move xmin xmax tol fuel l2_init volfrac rho dc dv x,
  xmin <= xmax -> length dc = length rho -> length dv = length rho ->
  tol < l2_init / (l2_init + tiny) ->
  oc_update pw move xmin xmax tol fuel l2_init volfrac rho dc dv = Some x ->
  length x = length rho /\ all_in xmin xmax x.
Proof.
  intros pw move xmin xmax tol fuel l2i vf rho dc dv x HX Ld Lv RUN H. unfold oc_update in H.
  destruct (bisect _ _ _ _ _ _ _ _ _ _ _) as [[r b]|] eqn:B; [|discriminate]. injection H as <-.
  set (ps := oc_points rho dc dv) in *.
  assert (C : forall f t l1 l2 y r b, (exists lam, y = candidate pw move xmin xmax ps lam) ->
    bisect pw move xmin xmax tol f ps t l1 l2 y = Some (r, b) -> exists lam, r = candidate pw move xmin xmax ps lam).
  { clear. induction f as [|f IH]; intros t l1 l2 y r b Y H; cbn in H.
    - destruct (Qltb tol _); [discriminate|]. injection H as <- <-. exact Y.
    - destruct (Qltb tol _); [|injection H as <- <-; exact Y].
      destruct (Qltb t _); (eapply IH; [|exact H]); eauto. }
  assert (R : exists lam, r = candidate pw move xmin xmax ps lam).
  { assert (E : Qltb tol ((l2i - 0) / (0 + l2i + tiny)) = true).
    { apply Qltb_lt. setoid_replace (l2i - 0) with l2i by ring. setoid_replace (0 + l2i + tiny) with (l2i + tiny) by ring. exact RUN. }
    destruct fuel as [|f]; cbn [bisect] in B; rewrite E in B; [discriminate|].
    destruct (Qltb _ _); (eapply C; [|exact B]); eauto. }
  destruct R as [lam ->]. assert (LP : length ps = length rho) by (apply oc_points_length; assumption).
  assert (LC : length (candidate pw move xmin xmax ps lam) = length rho) by (unfold candidate; rewrite map_length; exact LP).
  split; [exact LC|]. intros i Hi. rewrite candidate_nth by (rewrite LP, <- LC; exact Hi).
  destruct (nth i ps (0, 0, 0)) as [[a c] d]. cbn [oc_entry]. apply clip_range. exact HX.
Qed.
Print Assumptions C43_box.

(** Otherwise (bisect_tol too large, or an empty bracket) the input is returned as is,
    inside the box or not. *)
Theorem C43_unclipped_refuted :
  exists pw move xmin xmax tol l2_init volfrac rho dc dv x,
  xmin <= xmax /\ 0 <= move /\ 0 < tol /\ 0 <= l2_init /\
  (forall fuel, oc_update pw move xmin xmax tol fuel l2_init volfrac rho dc dv = Some x) /\ ~ all_in xmin xmax x.
Proof.
  exists (fun x => x), (1 # 5), (1 # 1000), 1, 1, 0, (1 # 2), [2], [- (1)], [1], [2].
  do 4 (split; [vm_compute; congruence|]). split; [intros [|f]; reflexivity|].
  intros H. specialize (H 0%nat ltac:(cbn; lia)). cbn in H. lra.
Qed.
Print Assumptions C43_unclipped_refuted.

(** ** The volume constraint *)
(** Monotonicity of the candidate in the multiplier, for a power that is monotone and
    non-negative on non-negative numbers, and non-negative densities and weights. *)
Lemma entry_mono pw move xmin xmax rho dc dv lam lam' :
  (forall a b, 0 <= a -> a <= b -> 0 <= pw a <= pw b) -> 0 <= rho -> 0 <= dv -> 0 <= lam -> lam <= lam' ->
  oc_entry pw move xmin xmax lam' (rho, dc, dv) <= oc_entry pw move xmin xmax lam (rho, dc, dv).
Proof.
  intros PW R V L LL. unfold oc_entry. apply clip_mono, clip_mono.
  assert (B : Qmax 0 (- dc / (dv * lam' + tiny)) <= Qmax 0 (- dc / (dv * lam + tiny))).
  { assert (VL : dv * lam <= dv * lam') by (rewrite !(Qmult_comm dv); apply Qmult_le_compat_r; assumption).
    assert (V0 : 0 <= dv * lam) by (apply Qmult_le_0_compat; assumption).
    assert (P1 : 0 < dv * lam + tiny) by (apply plus_tiny_pos; exact V0).
    assert (P2 : dv * lam + tiny <= dv * lam' + tiny) by (revert VL; generalize tiny; intros; lra).
    destruct (Qlt_le_dec dc 0) as [N|N].
    - apply Q.max_le_compat_l. unfold Qdiv. rewrite !(Qmult_comm (- dc)). apply Qmult_le_compat_r; [|lra].
      apply Qle_shift_inv_l; [exact P1|].
      apply (Qmult_le_r _ _ (dv * lam' + tiny)); [lra|].
      rewrite Qmult_1_l. rewrite <- Qmult_assoc, (Qmult_comm (dv * lam + tiny)), Qmult_assoc.
      rewrite (Qmult_comm (/ _)), Qmult_inv_r by lra. lra.
    - rewrite Q.max_l; [apply Q.le_max_l|]. apply Qle_shift_div_r; lra. }
  rewrite !(Qmult_comm rho). apply Qmult_le_compat_r; [|exact R].
  apply PW; [apply Q.le_max_l|exact B].
Qed.

(** The documented update rule for the multiplier lam. *)
Definition update_at (pw : Q -> Q) (move xmin xmax lam : Q) (rho dc dv x : list Q) : Prop :=
  length x = length rho /\
  forall i, (i < length rho)%nat ->
    nth i x 0 = clip (clip (nth i rho 0 * pw (Qmax 0 (- nth i dc 0 / (nth i dv 0 * lam + tiny))))
                       (nth i rho 0 - move) (nth i rho 0 + move)) xmin xmax.
Lemma candidate_update pw move xmin xmax lam rho dc dv : length dc = length rho -> length dv = length rho ->
  update_at pw move xmin xmax lam rho dc dv (candidate pw move xmin xmax (oc_points rho dc dv) lam).
Proof.
  intros A B. assert (L := oc_points_length rho dc dv A B). split; [unfold candidate; rewrite map_length; exact L|].
  intros i H. rewrite candidate_nth by (rewrite L; exact H). rewrite oc_points_nth by assumption. reflexivity.
Qed.

(** The result is the update for one end of a multiplier bracket of relative width
    bisect_tol: below it the volume exceeds the target (unless the end is 0), above it it
    does not (unless it is l2_init). *)
Theorem C43_bracket :
  forall pw move xmin xmax tol fuel l2_init volfrac rho dc dv x,
  length dc = length rho -> length dv = length rho -> 0 <= l2_init ->
  tol < l2_init / (l2_init + tiny) ->
  oc_update pw move xmin xmax tol fuel l2_init volfrac rho dc dv = Some x ->
  let target := volfrac * fold_right Qplus 0 dv in
  exists l1 l2 x1 x2, 0 <= l1 <= l2 /\ l2 <= l2_init /\ l2 - l1 <= tol * (l1 + l2 + tiny) /\
  update_at pw move xmin xmax l1 rho dc dv x1 /\ update_at pw move xmin xmax l2 rho dc dv x2 /\
  (x = x1 \/ x = x2) /\
  (l1 == 0 \/ target < vol dv x1) /\ (l2 = l2_init \/ vol dv x2 <= target).
Proof.
  intros pw move xmin xmax tol fuel l2i vf rho dc dv x A B L0 RUN H target. unfold oc_update in H.
  destruct (bisect _ _ _ _ _ _ _ _ _ _ _) as [[r [a b]]|] eqn:E; [|discriminate]. injection H as <-.
  set (ps := oc_points rho dc dv) in *. fold target in E.
  assert (LP : length ps = length rho) by (apply oc_points_length; assumption).
  assert (VV : forall lam, volume ps (candidate pw move xmin xmax ps lam) = vol dv (candidate pw move xmin xmax ps lam)).
  { intros lam. apply volume_vol; [assumption|assumption|]. unfold candidate. rewrite map_length. exact LP. }
  destruct (bisect_bracket pw move xmin xmax tol fuel ps target l2i 0 l2i rho r a b) as (R1 & R2 & R3 & R4 & R5 & R6);
    [split; [apply Qle_refl|exact L0]|apply Qle_refl|left; reflexivity|left; reflexivity|exact E|].
  exists a, b, (candidate pw move xmin xmax ps a), (candidate pw move xmin xmax ps b).
  rewrite VV in R4, R5. split; [exact R1|]. split; [exact R2|]. split; [exact R3|].
  split; [apply candidate_update; assumption|]. split; [apply candidate_update; assumption|].
  split; [|split; [exact R4|exact R5]].
  destruct R6 as [(_ & Ea & Eb)|R6]; [exfalso|exact R6]. subst.
  revert RUN. apply Qle_not_lt. assert (P : 0 < l2i + tiny) by (apply plus_tiny_pos; exact L0).
  apply Qle_shift_div_r; [exact P|].
  setoid_replace (l2i - 0) with l2i in R3 by ring. setoid_replace (0 + l2i + tiny) with (l2i + tiny) in R3 by ring. exact R3.
Qed.
Print Assumptions C43_bracket.

(** If the initial bracket [0, l2_init] contains the target, the volume returned differs
    from the target by at most the volume change across the final bracket. *)
Theorem C43_volume :
  forall pw move xmin xmax tol fuel l2_init volfrac rho dc dv x x_lo x_hi,
  length dc = length rho -> length dv = length rho -> 0 <= l2_init ->
  tol < l2_init / (l2_init + tiny) ->
  oc_update pw move xmin xmax tol fuel l2_init volfrac rho dc dv = Some x ->
  let target := volfrac * fold_right Qplus 0 dv in
  (forall a b, a == b -> pw a == pw b) ->
  update_at pw move xmin xmax 0 rho dc dv x_lo -> target < vol dv x_lo ->
  update_at pw move xmin xmax l2_init rho dc dv x_hi -> vol dv x_hi <= target ->
  exists l1 l2 x1 x2, 0 <= l1 <= l2 /\ l2 <= l2_init /\ l2 - l1 <= tol * (l1 + l2 + tiny) /\
  update_at pw move xmin xmax l1 rho dc dv x1 /\ update_at pw move xmin xmax l2 rho dc dv x2 /\
  vol dv x2 <= target < vol dv x1 /\ (x = x1 \/ x = x2) /\
  Qabs (vol dv x - target) <= vol dv x1 - vol dv x2.
Proof.
  intros pw move xmin xmax tol fuel l2i vf rho dc dv x xl xh A B L0 RUN H target PW U0 V0 U1 V1.
  destruct (C43_bracket pw move xmin xmax tol fuel l2i vf rho dc dv x A B L0 RUN H)
    as (l1 & l2 & x1 & x2 & R1 & R2 & R3 & R4 & R5 & R6 & R7 & R8).
  fold target in R7, R8.
  exists l1, l2, x1, x2. do 5 (split; [assumption|]).
  assert (W1 : target < vol dv x1).
  { destruct R7 as [Z|R7]; [|exact R7]. eapply Qlt_le_trans; [exact V0|].
    assert (E : vol dv x1 == vol dv xl); [|rewrite E; apply Qle_refl].
    destruct R4 as [La Ea], U0 as [Lb Eb]. unfold vol.
    assert (G : forall i, (i < length rho)%nat -> nth i x1 0 == nth i xl 0).
    { intros i Hi. rewrite (Ea i Hi), (Eb i Hi). unfold clip.
      rewrite (PW (Qmax 0 (- nth i dc 0 / (nth i dv 0 * l1 + tiny))) (Qmax 0 (- nth i dc 0 / (nth i dv 0 * 0 + tiny))));
        [reflexivity|]. rewrite Z. reflexivity. }
    clear -B La Lb G. rewrite <- B in La, Lb, G. clear B. revert x1 xl La Lb G.
    induction dv as [|d dv IH]; intros [|a x1] [|b xl] La Lb G; cbn in *; try discriminate; [reflexivity|].
    rewrite (G 0%nat ltac:(lia)). cbn. rewrite (IH x1 xl); [reflexivity|lia|lia|].
    intros i Hi. apply (G (S i)). lia. }
  assert (W2 : vol dv x2 <= target).
  { destruct R8 as [->|R8]; [|exact R8]. destruct R5 as [La Ea], U1 as [Lb Eb].
    assert (E : x2 = xh); [|rewrite E; exact V1].
    apply nth_ext with (d := 0) (d' := 0); [congruence|]. intros i Hi. rewrite La in Hi. rewrite (Ea i Hi), (Eb i Hi). reflexivity. }
  split; [split; assumption|]. split; [exact R6|].
  apply Qabs_Qle_condition. destruct R6 as [->| ->]; lra.
Qed.
Print Assumptions C43_volume.

(** A larger multiplier never gives a larger volume, so the bracket is meaningful. *)
Theorem C43_volume_monotone :
  forall pw move xmin xmax lam lam' rho dc dv x x',
  (forall a b, 0 <= a -> a <= b -> 0 <= pw a <= pw b) ->
  length dc = length rho -> length dv = length rho ->
  (forall i, (i < length rho)%nat -> 0 <= nth i rho 0 /\ 0 <= nth i dv 0) -> 0 <= lam -> lam <= lam' ->
  update_at pw move xmin xmax lam rho dc dv x -> update_at pw move xmin xmax lam' rho dc dv x' ->
  (forall i, (i < length rho)%nat -> nth i x' 0 <= nth i x 0) /\ vol dv x' <= vol dv x.
Proof.
  intros pw move xmin xmax lam lam' rho dc dv x x' PW A B P L LL [Lx Ex] [Lx' Ex'].
  assert (G : forall i, (i < length rho)%nat -> nth i x' 0 <= nth i x 0).
  { intros i Hi. rewrite (Ex i Hi), (Ex' i Hi). destruct (P i Hi).
    apply (entry_mono pw move xmin xmax (nth i rho 0) (nth i dc 0) (nth i dv 0) lam lam' PW); assumption. }
  split; [exact G|]. assert (P' : forall i, (i < length dv)%nat -> 0 <= nth i dv 0) by (intros i Hi; apply P; lia).
  rewrite <- B in G, Lx, Lx'. clear -G Lx Lx' P'. revert x x' Lx Lx' G P'.
  induction dv as [|d dv IH]; intros [|a x] [|b x'] Lx Lx' G P'; cbn in *; try discriminate.
  unfold vol. cbn [combine map fold_right fst snd]. apply Qplus_le_compat.
  - rewrite !(Qmult_comm d). apply Qmult_le_compat_r; [apply (G 0%nat); lia|apply (P' 0%nat); lia].
  - apply IH; [lia|lia|intros i Hi; apply (G (S i)); lia|intros i Hi; apply (P' (S i)); lia].
Qed.
Print Assumptions C43_volume_monotone.

Example C43_example :
  let rho := [1 # 2; 1 # 2; 1 # 2] in let dc := [- (1); - (2); 0] in let dv := [1; 1; 1] in
  let pw := fun x => x in
  all_in (1 # 1000) 1 rho /\ (1 # 2) < 4 / (4 + tiny) /\
  (forall a b, 0 <= a -> a <= b -> 0 <= pw a <= pw b) /\
  exists x, oc_update pw (1 # 5) (1 # 1000) 1 (1 # 2) 5 4 (1 # 2) rho dc dv = Some x /\
  all_in (3 # 10) (7 # 10) x.
Proof.
  cbv zeta. split; [intros [|[|[|i]]] H; cbn in *; try lia; split; vm_compute; congruence|].
  split; [vm_compute; congruence|]. split; [intros; lra|]. eexists. split; [vm_compute; reflexivity|].
  intros [|[|[|i]]] H; cbn in *; try lia; split; vm_compute; congruence.
Qed.
