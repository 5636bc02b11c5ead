(** C125: the time loop in floating-point arithmetic. *)
From Coq Require Import ZArith Reals List Bool Lra Lia Arith.
From Coq Require Import Floats.SpecFloat.
From Flocq Require Import Core Sterbenz.
From Verif Require Import TimeFloat_Model.
Import ListNotations.
Local Open Scope R_scope.

(** ** Specification *)
(** [x] is a binary64 number (of any size). *)
Definition f64 (x : R) : Prop := generic_format radix2 fexp64 x.
(** Distance to the next binary64 number. *)
Definition spacing (x : R) : R := ulp radix2 fexp64 x.

#[local] Instance prec53 : Prec_gt_0 53. Proof. reflexivity. Qed.
#[local] Instance vexp : Valid_exp fexp64. Proof. apply FLT_exp_valid. exact prec53. Qed.
#[local] Instance mexp : Monotone_exp fexp64. Proof. apply FLT_exp_monotone. Qed.
#[local] Instance nftz : Exp_not_FTZ fexp64. Proof. apply monotone_exp_not_FTZ; [exact vexp|exact mexp]. Qed.

Lemma rnd_le x y : x <= y -> rnd64 x <= rnd64 y.
Proof. intros H. apply round_le; [exact vexp|apply valid_rnd_N|exact H]. Qed.
Lemma rnd_f x : f64 x -> rnd64 x = x.
Proof. intros H. apply round_generic; [apply valid_rnd_N|exact H]. Qed.
Lemma f_rnd x : f64 (rnd64 x).
Proof. apply generic_format_round; [exact vexp|apply valid_rnd_N]. Qed.
Lemma f_0 : f64 0. Proof. apply generic_format_0. Qed.
Lemma f_spacing x : f64 (spacing x). Proof. apply generic_format_ulp; [exact vexp|exact nftz]. Qed.
Lemma next_float x y : f64 x -> f64 y -> 0 <= x -> x < y -> x + spacing x <= y.
Proof. intros Fx Fy Px H. unfold spacing. rewrite <- succ_eq_pos by exact Px. apply succ_le_lt; assumption || exact vexp. Qed.
Lemma f_next x : f64 x -> 0 <= x -> f64 (x + spacing x).
Proof. intros Fx Px. unfold spacing. rewrite <- succ_eq_pos by exact Px. apply generic_format_succ; [exact vexp|exact Fx]. Qed.
Lemma spacing_le x y : 0 <= x -> x <= y -> spacing x <= spacing y.
Proof. intros. apply ulp_le_pos; assumption || exact vexp || exact mexp. Qed.
Definition tiny : R := bpow radix2 (-1074).
Lemma tiny_pos : 0 < tiny. Proof. apply bpow_gt_0. Qed.
Lemma spacing_tiny x : tiny <= spacing x.
Proof. unfold tiny. rewrite <- (ulp_FLT_0 radix2 (-1074) 53). apply ulp_ge_ulp_0; [exact vexp|exact nftz]. Qed.

Section Run.
  Variables (slack t_end dt0 : R) (dts : nat -> R).
  Hypothesis (Fe : f64 t_end) (Ps : 0 <= slack) (Pd : 0 <= dt0).
  Local Notation on := (clock_on r64 slack t_end dt0).
  Local Notation eff := (clock_eff r64 t_end dts).
  Local Notation tick := (clock_tick r64 t_end dts).
  Local Notation run := (clock_run r64 slack t_end dt0 dts).
  Local Notation stop := (rnd64 (t_end - rnd64 (slack * dt0))).
  Lemma stop_le : stop <= t_end.
  Proof using Fe Ps Pd.
    rewrite <- (rnd_f t_end Fe) at 2. apply rnd_le.
    assert (0 <= rnd64 (slack * dt0)) by (rewrite <- (rnd_f 0 f_0); apply rnd_le; apply Rmult_le_pos; assumption). lra.
  Qed.
  Lemma on_true t : on t = true <-> t < stop.
  Proof using. unfold clock_on. cbn. destruct (Rlt_dec t stop); split; intros; try reflexivity; try assumption; try discriminate; contradiction. Qed.
  Lemma eff_cases k t : (eff k t = rnd64 (t_end - t) /\ rnd64 (t_end - t) < dts k) \/ (eff k t = dts k /\ dts k <= rnd64 (t_end - t)).
  Proof using. unfold clock_eff. cbn. destruct (Rlt_dec (rnd64 (t_end - t)) (dts k)) as [L|L]; [left|right]; (split; [reflexivity|lra]). Qed.
  Lemma tick_f k t : f64 (tick k t). Proof using. apply f_rnd. Qed.
  Lemma advances k t : f64 t -> 0 <= t -> on t = true -> spacing t_end <= dts k -> t + spacing t <= tick k t.
  Proof using Fe Ps Pd.
    intros Ft Pt Hon Hd. apply on_true in Hon. pose proof stop_le as S0. assert (L : t < t_end) by lra.
    unfold clock_tick. cbn. change (t + spacing t <= rnd64 (t + eff k t)). rewrite <- (rnd_f _ (f_next t Ft Pt)) at 1. apply rnd_le.
    assert (E : spacing t <= eff k t).
    { destruct (eff_cases k t) as [[-> _]|[-> _]].
      - rewrite <- (rnd_f _ (f_spacing t)). apply rnd_le. pose proof (next_float t t_end Ft Fe Pt L). lra.
      - eapply Rle_trans; [|exact Hd]. apply spacing_le; lra. }
    lra.
  Qed.
  Lemma late (k : nat) t : f64 t -> t_end / 2 <= t -> 0 <= t -> t <= t_end -> rnd64 (t_end - t) = t_end - t.
  Proof using Fe. intros Ft H Pt L. apply rnd_f. apply sterbenz; [exact vexp|exact mexp|exact Fe|exact Ft|]. lra. Qed.
  Lemma tick_bound k t : f64 t -> 0 <= t -> on t = true -> tick k t <= t_end + spacing t_end.
  Proof using Fe Ps Pd.
    intros Ft Pt Hon. apply on_true in Hon. pose proof stop_le as S0. assert (L : t < t_end) by lra.
    assert (E : eff k t <= rnd64 (t_end - t)) by (destruct (eff_cases k t) as [[-> _]|[-> H]]; lra).
    pose proof (error_le_half_ulp radix2 fexp64 (fun x => negb (Z.even x)) (t_end - t)) as ER. fold ZnearestE in ER. fold (rnd64 (t_end - t)) in ER.
    pose proof (spacing_le (t_end - t) t_end ltac:(lra) ltac:(lra)) as SL. unfold spacing in SL.
    assert (B : rnd64 (t_end - t) - (t_end - t) <= / 2 * ulp radix2 fexp64 (t_end - t)) by (eapply Rle_trans; [apply Rle_abs|exact ER]).
    assert (P0 : 0 < spacing t_end) by (pose proof (spacing_tiny t_end); pose proof tiny_pos; lra). unfold spacing in P0.
    unfold clock_tick. cbn. rewrite <- (rnd_f _ (f_next t_end Fe ltac:(lra))). apply rnd_le. unfold spacing. lra.
  Qed.
  (** The number of passes is bounded. *)
  Lemma terminates : (forall k, spacing t_end <= dts k) -> forall (n : nat) k t, f64 t -> 0 <= t -> t_end - t < INR n * tiny -> exists l tf, run n k t = Some (l, tf) /\ stop <= tf /\ tf <= Rmax t (t_end + spacing t_end).
  Proof using Fe Ps Pd.
    intros HD. induction n as [|n IH]; intros k t Ft Pt H; cbn [clock_run].
    - destruct (on t) eqn:E.
      + apply on_true in E. pose proof stop_le. cbn in H. lra.
      + exists [], t. split; [reflexivity|]. split; [|apply Rmax_l]. destruct (Rlt_le_dec t stop) as [L|L]; [|exact L]. apply on_true in L. congruence.
    - destruct (on t) eqn:E.
      + pose proof (advances k t Ft Pt E (HD k)) as AD. pose proof (spacing_tiny t) as TI. pose proof tiny_pos.
        destruct (IH (S k) (tick k t) (tick_f k t) ltac:(lra)) as (l & tf & -> & L1 & L2).
        { rewrite S_INR in H. lra. }
        exists (eff k t :: l), tf. split; [reflexivity|]. split; [exact L1|]. eapply Rle_trans; [exact L2|]. apply Rmax_lub; [|apply Rmax_r].
        eapply Rle_trans; [apply (tick_bound k t Ft Pt E)|apply Rmax_r].
      + exists [], t. split; [reflexivity|]. split; [|apply Rmax_l]. destruct (Rlt_le_dec t stop) as [L|L]; [|exact L]. apply on_true in L. congruence.
  Qed.
End Run.

(** ** Theorems *)
(** With non-negative times and steps no smaller than the spacing of the numbers near [t_end], every pass moves the clock forward, at
    least to the next number and never beyond the number after [t_end]. *)
Theorem C125_advances :
  forall slack t_end dt0 (dts : nat -> R) k t, f64 t_end -> 0 <= slack -> 0 <= dt0 -> f64 t -> 0 <= t ->
  clock_on r64 slack t_end dt0 t = true -> spacing t_end <= dts k ->
  t + spacing t <= clock_tick r64 t_end dts k t <= t_end + spacing t_end.
Proof. intros. split; [eapply (advances slack t_end dt0); eassumption|eapply (tick_bound slack t_end dt0); eassumption]. Qed.
Print Assumptions C125_advances.

(** What the passes do: the clock after [j] passes is the rounded running sum of the first [j] steps, step [j] is the smaller of the current
    step size and the rounded rest, it is taken because the stopping bound was not reached, and the loop stops once it is. *)
Definition clock_at (t : R) (l : list R) (j : nat) : R := fold_left (fun a d => rnd64 (a + d)) (firstn j l) t.
Theorem C125_passes :
  forall slack t_end dt0 (dts : nat -> R) n k t l tf, clock_run r64 slack t_end dt0 dts n k t = Some (l, tf) ->
  tf = clock_at t l (length l) /\ rnd64 (t_end - rnd64 (slack * dt0)) <= tf /\ (length l <= n)%nat /\
  forall j, (j < length l)%nat -> nth j l 0 = Rmin (dts (k + j)%nat) (rnd64 (t_end - clock_at t l j)) /\ clock_at t l j < rnd64 (t_end - rnd64 (slack * dt0)).
Proof.
  intros slack te dt0 dts. induction n as [|n IH]; intros k t l tf E; cbn [clock_run] in E.
  - destruct (clock_on r64 slack te dt0 t) eqn:EO; [discriminate|]. injection E as <- <-. cbn. split; [reflexivity|]. split; [|split; [lia|intros j Hj; exfalso; lia]].
    destruct (Rlt_le_dec t (rnd64 (te - rnd64 (slack * dt0)))) as [L|L]; [|exact L]. apply on_true in L. congruence.
  - destruct (clock_on r64 slack te dt0 t) eqn:EO.
    + destruct (clock_run r64 slack te dt0 dts n (S k) (clock_tick r64 te dts k t)) as [[l' tf']|] eqn:ER; [|discriminate]. injection E as <- <-.
      destruct (IH _ _ _ _ ER) as (A1 & A2 & A3 & A4). unfold clock_at in *. cbn [length firstn fold_left].
      split; [exact A1|]. split; [exact A2|]. split; [lia|]. intros [|j] Hj; cbn [nth firstn fold_left].
      * rewrite Nat.add_0_r. split; [|apply on_true; exact EO].
        destruct (eff_cases te dts k t) as [[-> X]|[-> X]]; [rewrite Rmin_right by lra|rewrite Rmin_left by lra]; reflexivity.
      * rewrite <- plus_n_Sm. destruct (A4 j ltac:(lia)) as [B1 B2]. split; [exact B1|exact B2].
    + injection E as <- <-. cbn. split; [reflexivity|]. split; [|split; [lia|intros j Hj; exfalso; lia]].
      destruct (Rlt_le_dec t (rnd64 (te - rnd64 (slack * dt0)))) as [L|L]; [|exact L]. apply on_true in L. congruence.
Qed.
Print Assumptions C125_passes.

(** So the loop ends, at the stopping bound or later and at most one number beyond [t_end]. *)
Theorem C125_ends :
  forall slack t_end dt0 (dts : nat -> R) t, f64 t_end -> 0 <= slack -> 0 <= dt0 -> f64 t -> 0 <= t -> t <= t_end -> (forall k, spacing t_end <= dts k) ->
  exists n l tf, clock_run r64 slack t_end dt0 dts n 0 t = Some (l, tf) /\ rnd64 (t_end - rnd64 (slack * dt0)) <= tf /\ tf <= t_end + spacing t_end.
Proof.
  intros slack t_end dt0 dts t Fe Ps Pd Ft Pt L HD. pose proof tiny_pos as TP.
  destruct (archimed_cor1 (tiny / (t_end - t + 1))) as (n & Hn & Pn).
  { apply Rdiv_lt_0_compat; lra. }
  assert (INR n > 0) by (apply lt_0_INR; exact Pn).
  destruct (terminates slack t_end dt0 dts Fe Ps Pd HD n 0%nat t Ft Pt) as (l & tf & E & L1 & L2).
  { apply Rmult_lt_reg_r with (/ INR n); [apply Rinv_0_lt_compat; lra|]. replace (INR n * tiny * / INR n) with tiny by (field; lra).
    apply Rle_lt_trans with ((t_end - t + 1) * / INR n).
    - apply Rmult_le_compat_r; [apply Rlt_le; apply Rinv_0_lt_compat; lra|lra].
    - apply Rmult_lt_reg_r with (/ (t_end - t + 1)); [apply Rinv_0_lt_compat; lra|].
      replace ((t_end - t + 1) * / INR n * / (t_end - t + 1)) with (/ INR n) by (field; lra). exact Hn. }
  exists n, l, tf. split; [exact E|]. split; [exact L1|]. pose proof (spacing_tiny t_end). rewrite Rmax_right in L2 by lra. exact L2.
Qed.
Print Assumptions C125_ends.

(** Adapted step sizes, whatever the pipeline proposes: they are never below both [dt_min] and the first one, and never above the largest of
    [dt_min], [dt_max] and the first one; so a run ends if [dt_min] and the first step size are at least the spacing at [t_end]. *)
Theorem C125_adapted :
  forall dt_min dt_max growth dt0 (proposals : nat -> R) lo hi, f64 dt_min -> f64 dt_max -> f64 dt0 -> (forall j, f64 (proposals j)) -> 1 <= growth ->
  0 <= lo -> lo <= dt_min -> lo <= dt0 -> dt_min <= hi -> dt_max <= hi -> dt0 <= hi ->
  forall k, lo <= adapted_dts r64 dt_min dt_max growth dt0 proposals k <= hi /\ f64 (adapted_dts r64 dt_min dt_max growth dt0 proposals k) /\
    adapted_dts r64 dt_min dt_max growth dt0 proposals (S k) <= rnd64 (adapted_dts r64 dt_min dt_max growth dt0 proposals k * growth).
Proof.
  intros dmin dmax g dt0 pr lo hi Fm FM F0 Fp Hg L0 L1 L2 H1 H2 H3.
  assert (ST : forall d p, f64 d -> f64 p -> lo <= d -> lo <= adapted r64 dmin dmax g d p <= hi /\ f64 (adapted r64 dmin dmax g d p) /\ adapted r64 dmin dmax g d p <= rnd64 (d * g)).
  { intros d p Fd Fpp Hd. assert (DG : d <= rnd64 (d * g)).
    { rewrite <- (rnd_f d Fd) at 1. apply rnd_le. rewrite <- (Rmult_1_r d) at 1. apply Rmult_le_compat_l; lra. }
    unfold adapted, py_min, py_max. cbn. pose proof (f_rnd (d * g)) as FG.
    destruct (Rlt_dec p dmax);
    match goal with |- context [Rlt_dec dmin ?z] => destruct (Rlt_dec dmin z) end;
    match goal with |- context [Rlt_dec (rnd64 (d * g)) ?z] => destruct (Rlt_dec (rnd64 (d * g)) z) end; (split; [lra|split; [assumption|lra]]). }
  assert (B : forall k, lo <= adapted_dts r64 dmin dmax g dt0 pr k <= hi /\ f64 (adapted_dts r64 dmin dmax g dt0 pr k)).
  { induction k as [|k [[A1 A2] A3]]; cbn [adapted_dts]; [split; [lra|assumption]|]. destruct (ST _ (pr k) A3 (Fp k) A1) as (X & Y & _). split; assumption. }
  intros k. destruct (B k) as [A1 A2]. split; [exact A1|]. split; [exact A2|]. cbn [adapted_dts]. apply (ST _ (pr k) A2 (Fp k)). lra.
Qed.
Print Assumptions C125_adapted.

Theorem C125_adaptive_ends :
  forall slack t_end dt_min dt_max growth dt0 (proposals : nat -> R) t, f64 t_end -> 0 <= slack -> f64 t -> 0 <= t -> t <= t_end ->
  f64 dt_min -> f64 dt_max -> f64 dt0 -> (forall j, f64 (proposals j)) -> 1 <= growth -> spacing t_end <= dt_min -> spacing t_end <= dt0 ->
  exists n l tf, clock_run r64 slack t_end dt0 (adapted_dts r64 dt_min dt_max growth dt0 proposals) n 0 t = Some (l, tf) /\ rnd64 (t_end - rnd64 (slack * dt0)) <= tf /\ tf <= t_end + spacing t_end.
Proof.
  intros slack te dmin dmax g dt0 pr t Fe Ps Ft Pt L Fm FM F0 Fp Hg Hm H0. pose proof (spacing_tiny te). pose proof tiny_pos.
  apply C125_ends; try assumption; [lra|].
  intros k. refine (proj1 (proj1 (C125_adapted dmin dmax g dt0 pr (spacing te) (Rmax dmin (Rmax dmax dt0)) Fm FM F0 Fp Hg _ Hm H0 _ _ _ k))); [lra|apply Rmax_l| |].
  - eapply Rle_trans; [apply Rmax_l|apply Rmax_r].
  - eapply Rle_trans; [apply Rmax_r|apply Rmax_r].
Qed.
Print Assumptions C125_adaptive_ends.

(** Fixed step size of at most half of [t_end]: every step but the last has exactly the configured size, the clock never passes [t_end], and
    a shortened last step lands on [t_end] exactly. *)
Theorem C125_fixed :
  forall slack t_end dt n k t l tf, f64 t_end -> f64 dt -> 0 <= slack -> f64 t -> 0 <= t -> t <= t_end -> 0 < dt -> dt <= t_end / 2 ->
  clock_run r64 slack t_end dt (fun _ => dt) n k t = Some (l, tf) ->
  tf <= t_end /\ (l = [] /\ tf = t \/ exists m d, l = repeat dt m ++ [d] /\ d <= dt /\ (d = dt \/ tf = t_end)).
Proof.
  intros slack t_end dt n k t l tf Fe Fd Ps. revert k t l tf. induction n as [|n IH]; intros k t l tf Ft Pt L Pd Hd E; cbn [clock_run] in E.
  - destruct (clock_on r64 slack t_end dt t); [discriminate|]. injection E as <- <-. split; [exact L|left; split; reflexivity].
  - destruct (clock_on r64 slack t_end dt t) eqn:EO; [|injection E as <- <-; split; [exact L|left; split; reflexivity]].
    pose proof (proj1 (on_true slack t_end dt t) EO) as Lt. pose proof (stop_le slack t_end dt Fe Ps ltac:(lra)) as S0.
    destruct (clock_run r64 slack t_end dt (fun _ => dt) n (S k) (clock_tick r64 t_end (fun _ => dt) k t)) as [[l' tf']|] eqn:ER; [|discriminate].
    injection E as <- <-.
    destruct (eff_cases t_end (fun _ => dt) k t) as [[EE LL]|[EE LL]].
    + (* shortened: the clock is past the half, the difference is exact *)
      assert (H2 : t_end / 2 <= t).
      { destruct (Rle_lt_dec (t_end / 2) t) as [X|X]; [exact X|exfalso].
        assert (dt <= rnd64 (t_end - t)) by (rewrite <- (rnd_f dt Fd); apply rnd_le; lra). lra. }
      assert (ET : clock_tick r64 t_end (fun _ => dt) k t = t_end).
      { unfold clock_tick. cbn. rewrite EE, (late t_end Fe k t Ft H2 Pt L). replace (t + (t_end - t)) with t_end by ring. apply rnd_f. exact Fe. }
      rewrite ET in ER. assert (OF : clock_on r64 slack t_end dt t_end = false).
      { destruct (clock_on r64 slack t_end dt t_end) eqn:X; [|reflexivity]. apply on_true in X. lra. }
      assert (ER' : Some (@nil R, t_end) = Some (l', tf')). { rewrite <- ER. destruct n; cbn [clock_run]; rewrite OF; reflexivity. }
      injection ER' as <- <-. split; [lra|]. right. exists 0%nat, (clock_eff r64 t_end (fun _ => dt) k t). split; [reflexivity|]. split; [lra|right; reflexivity].
    + assert (TL : clock_tick r64 t_end (fun _ => dt) k t <= t_end).
      { unfold clock_tick. cbn. rewrite EE. apply Rle_trans with (rnd64 t_end); [apply rnd_le|rewrite (rnd_f t_end Fe); lra].
        destruct (Rle_lt_dec (t_end / 2) t) as [X|X]; [rewrite (late t_end Fe k t Ft X Pt L) in LL; lra|lra]. }
      assert (TP : 0 <= clock_tick r64 t_end (fun _ => dt) k t).
      { unfold clock_tick. cbn. rewrite <- (rnd_f 0 f_0). apply rnd_le. rewrite EE. lra. }
      destruct (IH (S k) _ _ _ (tick_f t_end (fun _ => dt) k t) TP TL Pd Hd ER) as [B [[-> ->]|(m & d & -> & Ld & Cd)]].
      * split; [exact B|]. right. exists 0%nat, dt. rewrite EE. split; [reflexivity|]. split; [lra|left; reflexivity].
      * split; [exact B|]. right. exists (S m), d. rewrite EE. split; [reflexivity|]. split; [exact Ld|exact Cd].
Qed.
Print Assumptions C125_fixed.

(** If the grid [t0 + j dt] consists of binary64 numbers and [t_end] is its [n]-th point, the loop takes exactly [n] full steps, as in exact
    arithmetic, and every recorded time is the grid point. *)
Theorem C125_grid :
  forall slack dt n t0, 0 <= slack -> 0 < dt -> f64 dt -> 0 <= t0 -> (forall j, (j <= n)%nat -> f64 (t0 + INR j * dt)) ->
  rnd64 (slack * dt) < dt / 2 -> spacing (t0 + INR n * dt) <= dt ->
  forall k, clock_run r64 slack (t0 + INR n * dt) dt (fun _ => dt) n k t0 = Some (repeat dt n, t0 + INR n * dt).
Proof.
  intros slack dt n t0 Ps Pd Fd P0 G HS HU. set (te := t0 + INR n * dt) in *.
  assert (Fe : f64 te) by (apply (G n); lia).
  assert (GO : forall m k, (m <= n)%nat -> clock_run r64 slack te dt (fun _ => dt) m k (t0 + INR (n - m) * dt) = Some (repeat dt m, te)).
  { induction m as [|m IH]; intros k Hm; cbn [clock_run].
    - rewrite Nat.sub_0_r. fold te.
      assert (OF : clock_on r64 slack te dt te = false).
      { destruct (clock_on r64 slack te dt te) eqn:X; [|reflexivity]. apply on_true in X. pose proof (stop_le slack te dt Fe Ps ltac:(lra)). lra. }
      rewrite OF. reflexivity.
    - set (t := t0 + INR (n - S m) * dt).
      assert (E1 : INR (n - m) = INR (n - S m) + 1) by (replace (n - m)%nat with (S (n - S m)) by lia; apply S_INR).
      assert (E2 : INR n = INR (n - S m) + (INR m + 1)) by (rewrite <- S_INR, <- plus_INR; f_equal; lia).
      pose proof (pos_INR m) as PM. pose proof (pos_INR (n - S m)) as PN.
      assert (TE : te - t = INR m * dt + dt) by (unfold te, t; rewrite E2; ring).
      assert (MD : 0 <= INR m * dt) by (apply Rmult_le_pos; lra).
      assert (ND : 0 <= INR (n - S m) * dt) by (apply Rmult_le_pos; lra).
      assert (Pt : 0 <= t) by (unfold t; lra).
      assert (ON : clock_on r64 slack te dt t = true).
      { apply on_true. set (x := rnd64 (slack * dt)) in *.
        assert (X0 : 0 <= x) by (unfold x; rewrite <- (rnd_f 0 f_0); apply rnd_le; apply Rmult_le_pos; lra).
        pose proof (error_le_half_ulp radix2 fexp64 (fun z => negb (Z.even z)) (te - x)) as ER. fold ZnearestE in ER. fold (rnd64 (te - x)) in ER.
        pose proof (spacing_le (te - x) te ltac:(lra) ltac:(lra)) as SL. unfold spacing in SL. fold (spacing te) in SL.
        assert (B : te - x - rnd64 (te - x) <= / 2 * ulp radix2 fexp64 (te - x)).
        { eapply Rle_trans; [|exact ER]. rewrite <- Rabs_Ropp. eapply Rle_trans; [|apply Rle_abs]. lra. }
        lra. }
      assert (EF : clock_eff r64 te (fun _ => dt) k t = dt).
      { destruct (eff_cases te (fun _ => dt) k t) as [[_ X]|[X _]]; [|exact X]. exfalso.
        assert (dt <= rnd64 (te - t)) by (rewrite <- (rnd_f dt Fd) at 1; apply rnd_le; lra). lra. }
      assert (TK : clock_tick r64 te (fun _ => dt) k t = t0 + INR (n - m) * dt).
      { unfold clock_tick. rewrite EF. cbn. replace (t + dt) with (t0 + INR (n - m) * dt) by (unfold t; rewrite E1; ring). apply rnd_f. apply G. lia. }
      rewrite ON, TK, (IH (S k)) by lia. rewrite EF. reflexivity. }
  intros k. specialize (GO n k (Nat.le_refl n)). rewrite Nat.sub_diag in GO. replace (t0 + INR 0 * dt) with t0 in GO by (cbn; ring). exact GO.
Qed.
Print Assumptions C125_grid.

(** ** What rounding breaks *)
(** The numbers nearest to 1e-14, 1e-5, 1e-2, 1e-12, 1e5 and 1e5 + 1. *)
Definition f_1em14 : spec_float := S754_finite false 6338253001141147 (-99).
Definition f_1em5 : spec_float := S754_finite false 5902958103587057 (-69).
Definition f_1em2 : spec_float := S754_finite false 5764607523034235 (-59).
Definition f_1em12 : spec_float := S754_finite false 4951760157141521 (-92).
Definition f_1e5 : spec_float := S754_finite false 6871947673600000 (-36).
Definition f_1e5p1 : spec_float := S754_finite false 6872016393076736 (-36).
Definition f_zero : spec_float := S754_zero false.
(** The example of the module's documentation, [TimeConfig(dt=1e-5, t_end=1e-2)], takes 1001 steps, not 1000: the rounded sum of 1000
    steps is short of [t_end] by more than the slack, and the last step has size 2.39e-16. *)
Theorem C125_extra_step_refuted :
  (2 * Z.abs (10 ^ 14 * 6338253001141147 - 2 ^ 99) <= 10 ^ 14)%Z /\ (2 * Z.abs (10 ^ 5 * 5902958103587057 - 2 ^ 69) <= 10 ^ 5)%Z /\
  (2 * Z.abs (10 ^ 2 * 5764607523034235 - 2 ^ 59) <= 10 ^ 2)%Z /\
  exists l, clock_run sf64 f_1em14 f_1em2 f_1em5 (fun _ => f_1em5) 1001 0 f_zero = Some (l, f_1em2) /\
    length l = 1001%nat /\ firstn 1000 l = repeat f_1em5 1000 /\ nth 1000 l f_zero = S754_finite false 4855443348258816 (-104).
Proof.
  split; [vm_compute; discriminate|]. split; [vm_compute; discriminate|]. split; [vm_compute; discriminate|].
  eexists. split; [vm_compute; reflexivity|]. split; [vm_compute; reflexivity|]. split; vm_compute; reflexivity.
Qed.
Print Assumptions C125_extra_step_refuted.

(** With the default smallest adaptive step 1e-12 and a clock at 1e5, [t += dt] leaves the clock unchanged: the loop never ends, however
    many passes are allowed, although [t] is 1.0 short of [t_end]. *)
Theorem C125_stall_refuted :
  (2 * Z.abs (10 ^ 12 * 4951760157141521 - 2 ^ 92) <= 10 ^ 12)%Z /\ (6871947673600000 = 100000 * 2 ^ 36)%Z /\ (6872016393076736 = 100001 * 2 ^ 36)%Z /\
  forall n k, clock_run sf64 f_1em14 f_1e5p1 f_1em12 (fun _ => f_1em12) n k f_1e5 = None.
Proof.
  split; [vm_compute; discriminate|]. split; [reflexivity|]. split; [reflexivity|].
  induction n as [|n IH]; intros k; cbn [clock_run].
  - assert (E : clock_on sf64 f_1em14 f_1e5p1 f_1em12 f_1e5 = true) by (vm_compute; reflexivity). rewrite E. reflexivity.
  - assert (E : clock_on sf64 f_1em14 f_1e5p1 f_1em12 f_1e5 = true) by (vm_compute; reflexivity). rewrite E.
    assert (ET : clock_tick sf64 f_1e5p1 (fun _ => f_1em12) k f_1e5 = f_1e5) by (vm_compute; reflexivity). rewrite ET, IH. reflexivity.
Qed.
Print Assumptions C125_stall_refuted.

(** ** The hypotheses hold for [dt = 1/4], [t_end = 1]. *)
Lemma f_dyadic m e : (Z.abs m < 2 ^ 53)%Z -> (-1074 <= e)%Z -> f64 (IZR m * bpow radix2 e).
Proof.
  intros H1 H2. apply generic_format_FLT. apply (FLT_spec radix2 (-1074) 53 _ (Float radix2 m e)); [reflexivity|exact H1|exact H2].
Qed.
Lemma quarter : bpow radix2 (-2) = / 4. Proof. cbn. lra. Qed.
Lemma f_quarters m : (Z.abs m < 2 ^ 53)%Z -> f64 (IZR m * / 4).
Proof. intros H. rewrite <- quarter. apply f_dyadic; [exact H|lia]. Qed.
Lemma spacing_1 : spacing 1 <= / 4.
Proof.
  unfold spacing. replace 1 with (bpow radix2 0) by reflexivity. rewrite ulp_bpow, <- quarter. apply bpow_le. vm_compute. discriminate.
Qed.
Example C125_example_grid : clock_run r64 (/ 1024) 1 (/ 4) (fun _ => / 4) 4 0 0 = Some ([/ 4; / 4; / 4; / 4], 1).
Proof.
  assert (E : 0 + INR 4 * / 4 = 1) by (cbn; field).
  pose proof (C125_grid (/ 1024) (/ 4) 4 0) as H. rewrite E in H. apply H; try lra.
  - replace (/ 4) with (1 * / 4) by ring. apply (f_quarters 1). reflexivity.
  - intros j Hj. rewrite Rplus_0_l, INR_IZR_INZ. apply f_quarters. lia.
  - assert (rnd64 (/ 1024 * / 4) <= rnd64 (bpow radix2 (-4))) as L. { apply rnd_le. cbn. lra. }
    rewrite (rnd_f (bpow radix2 (-4))) in L. 2:{ replace (bpow radix2 (-4)) with (1 * bpow radix2 (-4)) by ring. apply (f_dyadic 1); [reflexivity|lia]. }
    cbn in L. lra.
  - exact spacing_1.
Qed.
Example C125_example : f64 1 /\ f64 (/ 4) /\ f64 0 /\ spacing 1 <= / 4 /\ / 4 <= 1 / 2.
Proof.
  split; [replace 1 with (4 * / 4) by field; apply (f_quarters 4); reflexivity|].
  split; [replace (/ 4) with (1 * / 4) by ring; apply (f_quarters 1); reflexivity|]. split; [exact f_0|]. split; [exact spacing_1|lra].
Qed.
