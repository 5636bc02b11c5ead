(** Lemmas about the time-stepping driver. *)
From Coq Require Import QArith Qminmax Bool List Arith Lia Lqa Qround.
From Verif Require Import Num_Model TimeRun_Model.
Import ListNotations.
Local Open Scope Q_scope.

Lemma qmin_spec a b : (qmin a b == a /\ a <= b) \/ (qmin a b == b /\ b < a).
Proof.
  unfold qmin. destruct (Qle_bool a b) eqn:E; cbn.
  - left. apply Qle_bool_iff in E. split; [reflexivity|exact E].
  - right. split; [reflexivity|]. apply Qnot_le_lt. intros H. apply Qle_bool_iff in H. congruence.
Qed.
Lemma qle_false a b : Qle_bool a b = false <-> b < a.
Proof.
  split.
  - intros E. apply Qnot_le_lt. intros H. apply Qle_bool_iff in H. congruence.
  - intros H. destruct (Qle_bool a b) eqn:E; [|reflexivity]. apply Qle_bool_iff in E. lra.
Qed.

(** The clamp always yields a finite number. *)
Lemma next_dt_cases a x dt :
  exists c, (c == a_min a \/ (a_min a < c /\ (c == a_max a \/ (c < a_max a /\ x = Fin c)))) /\
            ((next_dt a x dt == c /\ c <= dt * a_growth a) \/ (next_dt a x dt == dt * a_growth a /\ dt * a_growth a < c)).
Proof.
  assert (H : exists c, (c == a_min a \/ (a_min a < c /\ (c == a_max a \/ (c < a_max a /\ x = Fin c)))) /\
            pymax (Fin (a_min a)) (pymin (Fin (a_max a)) x) = Fin c).
  { unfold pymin, pymax.
    assert (HM : exists c, (c == a_min a \/ (a_min a < c /\ c == a_max a)) /\
               (if nlt (Fin (a_min a)) (Fin (a_max a)) then Fin (a_max a) else Fin (a_min a)) = Fin c).
    { destruct (nlt (Fin (a_min a)) (Fin (a_max a))) eqn:E.
      - apply nlt_Fin in E. exists (a_max a). split; [right; split; [exact E|reflexivity]|reflexivity].
      - exists (a_min a). split; [left; reflexivity|reflexivity]. }
    destruct x as [| | |q].
    - destruct HM as (c & H1 & H2). exists c. split; [tauto|exact H2].
    - cbn. exists (a_min a). split; [left; reflexivity|reflexivity].
    - destruct HM as (c & H1 & H2). exists c. split; [tauto|exact H2].
    - destruct (nlt (Fin q) (Fin (a_max a))) eqn:E1.
      + apply nlt_Fin in E1. destruct (nlt (Fin (a_min a)) (Fin q)) eqn:E2.
        * apply nlt_Fin in E2. exists q. split; [right; split; [exact E2|right; split; [exact E1|reflexivity]]|reflexivity].
        * exists (a_min a). split; [left; reflexivity|reflexivity].
      + destruct HM as (c & H1 & H2). exists c. split; [tauto|exact H2]. }
  destruct H as (c & Hc & E). exists c. split; [exact Hc|]. unfold next_dt. rewrite E. unfold pymin.
  destruct (nlt (Fin (dt * a_growth a)) (Fin c)) eqn:E2; cbn [fin].
  - apply nlt_Fin in E2. right. split; [reflexivity|exact E2].
  - left. split; [reflexivity|]. apply Qnot_lt_le. intros H. apply nlt_Fin in H. congruence.
Qed.

Section R.
  Variables (S V : Type).
  Variable p_step : S -> Q -> Q -> S.
  Variable p_monitor : S -> nat -> Q -> V.
  Variable p_init : S.
  Variable p_adapt : option (S -> nat -> Q -> Q -> num).
  Variable cfg : time_config.
  Variable adaptive : option adaptive_config.
  Variable output : bool.
  Variable cb_every : list nat.
  Local Notation advance := (advance S p_step p_adapt cfg adaptive).
  Local Notation goes_on := (goes_on S cfg).
  Local Notation start := (start S p_init cfg).
  Local Notation body_events := (body_events S V p_step p_monitor p_adapt cfg adaptive output cb_every).
  Local Notation while_loop := (while_loop S V p_step p_monitor p_adapt cfg adaptive output cb_every).
  Local Notation run := (run S V p_step p_monitor p_init p_adapt cfg adaptive output cb_every).
  Local Notation first_events := (first_events S V p_monitor p_init cfg output).

  (** The state after k passes. *)
  Definition traj (k : nat) : loop S := Nat.iter k advance start.
  Lemma traj_S k : traj (Datatypes.S k) = advance (traj k).
  Proof. reflexivity. Qed.
  Lemma traj_step k : l_step (traj k) = k.
  Proof. induction k; [reflexivity|]. rewrite traj_S. cbn. rewrite IHk. reflexivity. Qed.

  Definition trace (n : nat) : list (event S V) := first_events ++ flat_map (fun k => body_events (traj k)) (seq 0 n).

  (** Exactly n passes are made. *)
  Definition stops_at (n : nat) : Prop :=
    goes_on (traj n) = false /\ forall k, (k < n)%nat -> goes_on (traj k) = true.

  Lemma trace_S n : trace (Datatypes.S n) = trace n ++ body_events (traj n).
  Proof. unfold trace. rewrite seq_S, flat_map_app, app_assoc. cbn. rewrite app_nil_r. reflexivity. Qed.

  Lemma while_spec fuel k : (forall j, (j < k)%nat -> goes_on (traj j) = true) ->
    forall r log, while_loop fuel (traj k) (trace k) = (r, log) ->
    match r with
    | Done l => exists n, (k <= n < k + fuel)%nat /\ stops_at n /\ l = traj n /\ log = trace n /\
                          (0 < n - k -> body_ok cfg output cb_every = true)%nat
    | ZeroDivision => goes_on (traj k) = true /\ body_ok cfg output cb_every = false /\ log = trace k
    | OutOfFuel => forall j, (j < k + fuel)%nat -> goes_on (traj j) = true
    end.
  Proof.
    revert k. induction fuel as [|fuel IH]; intros k Hk r log H; cbn [TimeRun_Model.while_loop] in H.
    - inversion H. intros j Hj. apply Hk. lia.
    - destruct (goes_on (traj k)) eqn:G.
      + destruct (body_ok cfg output cb_every) eqn:B.
        * rewrite <- traj_S, <- trace_S in H.
          assert (Hk' : forall j, (j < Datatypes.S k)%nat -> goes_on (traj j) = true).
          { intros j Hj. destruct (Nat.eq_dec j k) as [->|]; [exact G|]. apply Hk. lia. }
          specialize (IH (Datatypes.S k) Hk' r log H). destruct r as [l| |].
          -- destruct IH as (n & Hn & H1 & H2 & H3 & H4). exists n. repeat split; auto; try lia; apply H1.
          -- destruct IH as (_ & X & _). congruence.
          -- intros j Hj. apply IH. lia.
        * inversion H. auto.
      + inversion H. exists k. repeat split; auto; try lia. 
  Qed.

  (** Outcome of a run. *)
  Lemma while_complete n : forall fuel, (n < fuel)%nat -> stops_at n -> (n <> 0%nat -> body_ok cfg output cb_every = true) ->
    while_loop fuel start first_events = (Done (traj n), trace n).
  Proof.
    intros fuel Hf [Hn Hlt] Hok.
    assert (E : trace 0 = first_events) by (unfold trace; apply app_nil_r). rewrite <- E.
    change start with (traj 0).
    destruct (while_loop fuel (traj 0) (trace 0)) as [r log] eqn:H.
    assert (H' := while_spec fuel 0 ltac:(intros; lia) r log H). destruct r as [l| |].
    - destruct H' as (m & Hm & [M1 M2] & -> & -> & _).
      destruct (Nat.lt_trichotomy n m) as [Hx|[->|Hx]]; [|reflexivity|].
      + rewrite (M2 n Hx) in Hn. discriminate.
      + rewrite (Hlt m Hx) in M1. discriminate.
    - destruct H' as (G & B & _). destruct n; [congruence|]. rewrite (Hok ltac:(lia)) in B. discriminate.
    - rewrite (H' n) in Hn by lia. discriminate.
  Qed.

  (** The final log. *)
  Definition full_trace (n : nat) : list (event S V) :=
    trace n ++ (if output && negb (due (c_save cfg) n)
                then [ESave (l_state (traj n)) n (l_t (traj n))] else []).

  Lemma run_done fuel l log : run fuel = (Done l, log) ->
    exists n, (n < fuel)%nat /\ stops_at n /\ l = traj n /\ log = full_trace n /\
      ((0 < n)%nat -> body_ok cfg output cb_every = true) /\ (output = true -> c_save cfg <> 0%nat).
  Proof.
    intros H. unfold TimeRun_Model.run in H.
    destruct (while_loop fuel start first_events) as [r log'] eqn:E.
    assert (E' : while_loop fuel (traj 0) (trace 0) = (r, log')).
    { unfold trace. cbn [seq flat_map]. rewrite app_nil_r. exact E. }
    apply while_spec in E'; [|intros; lia].
    destruct r as [l'| |]; try discriminate.
    destruct E' as (n & Hn & H1 & -> & -> & H4). exists n. unfold full_trace.
    assert (Hst := traj_step n). destruct output.
    - destruct (Nat.eqb_spec (c_save cfg) 0) as [|Hs]; [discriminate|]. rewrite Hst in H.
      destruct (due (c_save cfg) n); inversion H; cbn [andb negb]; rewrite ?app_nil_r;
        repeat split; auto; try lia; try apply H1; intros X; apply H4; lia.
    - inversion H. cbn [andb]. rewrite app_nil_r. repeat split; auto; try lia; try apply H1; try discriminate; intros X; apply H4; lia.
  Qed.

  Lemma run_terminates n : stops_at n -> (n <> 0%nat -> body_ok cfg output cb_every = true) ->
    (output = true -> c_save cfg <> 0%nat) -> forall fuel, (n < fuel)%nat -> run fuel = (Done (traj n), full_trace n).
  Proof.
    intros Hs Hok Hsave fuel Hf. unfold TimeRun_Model.run. rewrite (while_complete n fuel Hf Hs Hok).
    unfold full_trace. rewrite traj_step. destruct output; cbn [andb]; [|rewrite app_nil_r; reflexivity].
    destruct (Nat.eqb_spec (c_save cfg) 0) as [E|E]; [exfalso; apply (Hsave eq_refl E)|].
    destruct (due (c_save cfg) n); cbn [negb]; [rewrite app_nil_r; reflexivity|reflexivity].
  Qed.

  (** ** Times *)
  Lemma goes_on_iff l : goes_on l = true <-> l_t l < c_t_end cfg - slack * c_dt cfg.
  Proof. unfold TimeRun_Model.goes_on. rewrite negb_true_iff. apply qle_false. Qed.
  Lemma stops_iff l : goes_on l = false <-> c_t_end cfg - slack * c_dt cfg <= l_t l.
  Proof. unfold TimeRun_Model.goes_on. rewrite negb_false_iff. apply Qle_bool_iff. Qed.

  Hypothesis Hdt : 0 < c_dt cfg.
  Lemma slack_pos : 0 < slack * c_dt cfg.
  Proof. unfold slack. nra. Qed.

  Lemma advance_t l : l_t (advance l) = l_t l + dt_eff S cfg l.
  Proof. reflexivity. Qed.
  Lemma dt_eff_spec l : goes_on l = true -> 0 < l_dt l ->
    0 < dt_eff S cfg l /\ dt_eff S cfg l <= l_dt l /\ l_t l + dt_eff S cfg l <= c_t_end cfg /\
    (dt_eff S cfg l == l_dt l \/ l_t l + dt_eff S cfg l == c_t_end cfg).
  Proof.
    intros G P. apply goes_on_iff in G. assert (Hs := slack_pos). unfold dt_eff.
    destruct (qmin_spec (l_dt l) (c_t_end cfg - l_t l)) as [[E1 E2]|[E1 E2]]; rewrite E1; (split; [lra|]); (split; [lra|]); (split; [lra|]).
    - left. reflexivity.
    - right. lra.
  Qed.

  (** Adaptive step sizes stay positive (dt_min and the growth factor being positive). *)
  Definition adaptive_ok : Prop := forall a, adaptive = Some a -> 0 < a_min a /\ 0 < a_growth a.
  Hypothesis Hok : adaptive_ok.

  Lemma next_dt_pos a x dt : 0 < a_min a -> 0 < a_growth a -> 0 < dt -> 0 < next_dt a x dt.
  Proof.
    intros H1 H2 H3. destruct (next_dt_cases a x dt) as (c & Hc & Hn).
    assert (0 < c) by (destruct Hc as [Hc|[Hc _]]; lra).
    destruct Hn as [[E _]|[E _]]; rewrite E; nra.
  Qed.
  Lemma traj_dt_pos k : 0 < l_dt (traj k).
  Proof.
    induction k as [|k IH]; [exact Hdt|]. rewrite traj_S. cbn.
    destruct adaptive as [a|] eqn:A; [|exact IH]. destruct p_adapt as [f|]; [|exact IH].
    destruct (Hok a A) as [A1 A2]. apply next_dt_pos; assumption.
  Qed.
  Lemma traj_t_lt n k : stops_at n -> (k < n)%nat -> l_t (traj k) < l_t (traj (Datatypes.S k)).
  Proof.
    intros [_ Hs] Hk. rewrite traj_S, advance_t.
    destruct (dt_eff_spec (traj k) (Hs k Hk) (traj_dt_pos k)) as (H & _). lra.
  Qed.
  Lemma traj_t_mono n j k : stops_at n -> (j < k <= n)%nat -> l_t (traj j) < l_t (traj k).
  Proof.
    intros Hs [Hj Hk]. induction k as [|k IH]; [lia|].
    assert (X := traj_t_lt n k Hs ltac:(lia)).
    destruct (Nat.eq_dec j k) as [->|]; [exact X|]. specialize (IH ltac:(lia) ltac:(lia)). lra.
  Qed.
  Lemma traj_t_le n k : c_t_start cfg <= c_t_end cfg -> stops_at n -> (k <= n)%nat -> l_t (traj k) <= c_t_end cfg.
  Proof.
    intros H0 [_ Hs] Hk. destruct k as [|k]; [exact H0|]. rewrite traj_S, advance_t.
    destruct (dt_eff_spec (traj k) (Hs k ltac:(lia)) (traj_dt_pos k)) as (_ & _ & H & _). exact H.
  Qed.

  (** Before the last pass every pass uses the full dt. *)
  Lemma traj_full n k : stops_at n -> (Datatypes.S k < n)%nat -> dt_eff S cfg (traj k) == l_dt (traj k).
  Proof.
    intros [_ Hs] Hk. destruct (dt_eff_spec (traj k) (Hs k ltac:(lia)) (traj_dt_pos k)) as (_ & _ & _ & [H|H]); [exact H|].
    exfalso. assert (G := Hs (Datatypes.S k) ltac:(lia)). apply goes_on_iff in G. rewrite traj_S, advance_t in G.
    assert (X := slack_pos). lra.
  Qed.

  (** ** Termination *)
  Lemma find_stop m : (exists k, (k <= m)%nat /\ goes_on (traj k) = false) -> exists n, (n <= m)%nat /\ stops_at n.
  Proof.
    intros (k & Hk & G). revert Hk G. induction k as [k IH] using lt_wf_ind. intros Hk G.
    destruct (existsb (fun j => negb (goes_on (traj j))) (seq 0 k)) eqn:E.
    - apply existsb_exists in E. destruct E as (j & Hj & E). apply in_seq in Hj. apply negb_true_iff in E.
      apply (IH j); [lia|lia|exact E].
    - exists k. split; [exact Hk|]. split; [exact G|]. intros j Hj.
      destruct (goes_on (traj j)) eqn:Gj; [reflexivity|]. exfalso. apply Bool.not_true_iff_false in E. apply E.
      apply existsb_exists. exists j. split; [apply in_seq; lia|]. rewrite Gj. reflexivity.
  Qed.

  (** If no step size falls below m > 0, the loop ends. *)
  Lemma terminates_lower m : 0 < m -> (forall k, m <= l_dt (traj k)) -> exists n, stops_at n.
  Proof.
    intros Hm Hlow.
    assert (G : forall k, (forall j, (j < k)%nat -> goes_on (traj j) = true) ->
       c_t_start cfg + inject_Z (Z.of_nat k) * m <= l_t (traj k) \/ c_t_end cfg <= l_t (traj k)).
    { induction k as [|k IH]; intros Hj.
      - left. change (inject_Z (Z.of_nat 0)) with 0. change (l_t (traj 0)) with (c_t_start cfg). lra.
      - destruct IH as [IH|IH]; [intros j Hjk; apply Hj; lia| |].
        + rewrite traj_S, advance_t.
          destruct (dt_eff_spec (traj k) (Hj k ltac:(lia)) (traj_dt_pos k)) as (_ & _ & _ & [E|E]).
          * left. rewrite E. assert (L := Hlow k). rewrite Nat2Z.inj_succ. unfold Z.succ. rewrite inject_Z_plus. 
            change (inject_Z 1) with 1. nra.
          * right. lra.
        + exfalso. assert (X := Hj k ltac:(lia)). apply goes_on_iff in X. assert (Y := slack_pos). lra. }
    destruct (find_stop (Z.to_nat (Qceiling ((c_t_end cfg - c_t_start cfg) / m)))) as (n & _ & Hn); [|exists n; exact Hn].
    set (k := Z.to_nat (Qceiling ((c_t_end cfg - c_t_start cfg) / m))).
    destruct (existsb (fun j => negb (goes_on (traj j))) (seq 0 (Datatypes.S k))) eqn:E.
    - apply existsb_exists in E. destruct E as (j & Hj & E). apply in_seq in Hj. apply negb_true_iff in E.
      exists j. split; [lia|exact E].
    - assert (A : forall j, (j <= k)%nat -> goes_on (traj j) = true).
      { intros j Hj. destruct (goes_on (traj j)) eqn:Gj; [reflexivity|]. exfalso. apply Bool.not_true_iff_false in E. apply E.
        apply existsb_exists. exists j. split; [apply in_seq; lia|]. rewrite Gj. reflexivity. }
      exfalso. assert (Ak := A k (le_n k)). apply goes_on_iff in Ak. assert (Y := slack_pos).
      destruct (G k) as [X|X]; [intros j Hj; apply A; lia| |lra].
      assert (C : (c_t_end cfg - c_t_start cfg) / m <= inject_Z (Z.of_nat k)).
      { unfold k. eapply Qle_trans; [apply Qle_ceiling|]. rewrite <- Zle_Qle.
        destruct (Z.le_gt_cases 0 (Qceiling ((c_t_end cfg - c_t_start cfg) / m))); lia. }
      assert (D : c_t_end cfg - c_t_start cfg == (c_t_end cfg - c_t_start cfg) / m * m) by (field; lra).
      nra.
  Qed.
End R.
