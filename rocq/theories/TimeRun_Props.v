(** C29, C30, C31, C52: time stepping. *)
From Coq Require Import QArith Qminmax Bool List Arith Lia Lqa.
From Verif Require Import Num_Model TimeRun_Model TimeRun_Proofs.
Import ListNotations.
Local Open Scope Q_scope.

(** ** Specification *)
Section Spec.
  Variables (S V : Type).
  Definition steps (log : list (event S V)) : list (S * Q * Q) :=
    flat_map (fun e => match e with EStep s t d => [(s, t, d)] | _ => [] end) log.
  Definition saves (log : list (event S V)) : list (S * nat * Q) :=
    flat_map (fun e => match e with ESave s k t => [(s, k, t)] | _ => [] end) log.
  Definition history (log : list (event S V)) : list (nat * Q * V) :=
    flat_map (fun e => match e with EHist k t v => [(k, t, v)] | _ => [] end) log.
  Definition csv (log : list (event S V)) : list (nat * Q * V) :=
    flat_map (fun e => match e with ECsv k t v => [(k, t, v)] | _ => [] end) log.
  Definition calls (c : nat) (log : list (event S V)) : list (S * nat * Q) :=
    flat_map (fun e => match e with ECall c' s k t => if Nat.eqb c' c then [(s, k, t)] else [] | _ => [] end) log.

  Variable p_step : S -> Q -> Q -> S.
  (** The steps lead from (s, t) to (s', t'), each of positive size and none beyond t_end;
      each step's input is its predecessor's output. *)
  Fixpoint covers (t_end : Q) (s : S) (t : Q) (l : list (S * Q * Q)) (s' : S) (t' : Q) : Prop :=
    match l with
    | [] => s = s' /\ t = t'
    | (a, u, d) :: l => a = s /\ u = t /\ 0 < d /\ u + d <= t_end /\ covers t_end (p_step a u d) (u + d) l s' t'
    end.
  (** State and time before step k+1 (after step k). *)
  Definition at_step (l : list (S * Q * Q)) (final : loop S) (k : nat) : S * Q :=
    match nth_error l k with Some (s, t, _) => (s, t) | None => (l_state final, l_t final) end.
End Spec.
Arguments steps {S V}. Arguments saves {S V}. Arguments history {S V}. Arguments csv {S V}. Arguments calls {S V}.
Arguments covers {S}. Arguments at_step {S}.

Section Lemmas.
  Variables (S V : Type).
  Variable p_step : S -> Q -> Q -> S.
  Variable p_monitor : S -> nat -> Q -> V.
  Variable p_init : S.
  Variable p_adapt : option (S -> nat -> Q -> Q -> num).
  Variable cfg : time_config.
  Variable adaptive : option adaptive_config.
  Variable output : bool.
  Variable cb_every : list nat.
  Local Notation traj := (traj S p_step p_init p_adapt cfg adaptive).
  Local Notation trace := (trace S V p_step p_monitor p_init p_adapt cfg adaptive output cb_every).
  Local Notation full_trace := (full_trace S V p_step p_monitor p_init p_adapt cfg adaptive output cb_every).
  Local Notation stops_at := (stops_at S p_step p_init p_adapt cfg adaptive).
  Local Notation body_events := (body_events S V p_step p_monitor p_adapt cfg adaptive output cb_every).
  Local Notation run := (run S V p_step p_monitor p_init p_adapt cfg adaptive output cb_every).

  (** Projections of one body's events. *)
  Lemma callbacks_no f i es s k t :
    (forall c s k t, f (ECall (V := V) c s k t) = @nil (S * nat * Q)) -> flat_map f (callbacks S V i es s k t) = [].
  Proof.
    intros Hf. revert i. induction es as [|e es IH]; intros i; cbn; [reflexivity|].
    rewrite flat_map_app, IH. destruct (due e k); cbn; rewrite ?Hf; reflexivity.
  Qed.
  Lemma callbacks_no2 (X : Type) (f : event S V -> list X) i es s k t :
    (forall c s k t, f (ECall c s k t) = []) -> flat_map f (callbacks S V i es s k t) = [].
  Proof.
    intros Hf. revert i. induction es as [|e es IH]; intros i; cbn; [reflexivity|].
    rewrite flat_map_app, IH. destruct (due e k); cbn; rewrite ?Hf; reflexivity.
  Qed.
  Lemma callbacks_calls c i es s k t :
    calls c (callbacks S V i es s k t) =
    if (i <=? c)%nat then match nth_error es (c - i) with
                          | Some e => if due e k then [(s, k, t)] else []
                          | None => [] end else [].
  Proof.
    unfold calls. revert i. induction es as [|e es IH]; intros i; cbn.
    - destruct (i <=? c)%nat; [|reflexivity]. destruct (c - i)%nat; reflexivity.
    - rewrite flat_map_app, IH. destruct (Nat.leb_spec i c).
      + destruct (Nat.eq_dec i c) as [->|Hne].
        * rewrite Nat.sub_diag. cbn [nth_error]. destruct (Nat.leb_spec (Datatypes.S c) c); [lia|]. rewrite app_nil_r.
          destruct (due e k); cbn; [rewrite Nat.eqb_refl|]; reflexivity.
        * destruct (Nat.leb_spec (Datatypes.S i) c); [|lia]. replace (c - i)%nat with (Datatypes.S (c - Datatypes.S i)) by lia.
          cbn [nth_error]. destruct (due e k); cbn; [|reflexivity]. destruct (Nat.eqb_spec i c); [lia|reflexivity].
      + destruct (Nat.leb_spec (Datatypes.S i) c); [lia|]. rewrite app_nil_r.
        destruct (due e k); cbn; [|reflexivity]. destruct (Nat.eqb_spec i c); [lia|reflexivity].
  Qed.

  Lemma steps_trace n : steps (trace n) = map (fun k => (l_state (traj k), l_t (traj k), dt_eff S cfg (traj k))) (seq 0 n).
  Proof.
    induction n as [|n IH].
    - unfold TimeRun_Proofs.trace, first_events. cbn. destruct output; reflexivity.
    - rewrite trace_S. unfold steps in *. rewrite flat_map_app, IH, seq_S, map_app. f_equal. cbn.
      unfold TimeRun_Model.body_events. cbn [app flat_map]. f_equal. rewrite !flat_map_app.
      rewrite callbacks_no2 by reflexivity. destruct output; cbn; [|reflexivity].
      destruct (due _ _); reflexivity.
  Qed.
  Lemma saves_trace n : saves (trace n) = if output then
      (p_init, 0%nat, c_t_start cfg) :: map (fun k => (l_state (traj k), k, l_t (traj k))) (filter (due (c_save cfg)) (seq 1 n)) else [].
  Proof.
    induction n as [|n IH].
    - unfold TimeRun_Proofs.trace, first_events. cbn. destruct output; reflexivity.
    - rewrite trace_S. unfold saves in *. rewrite flat_map_app, IH, seq_S, filter_app, map_app. 
      unfold TimeRun_Model.body_events. cbn [app flat_map]. rewrite !flat_map_app.
      rewrite callbacks_no2 by reflexivity. rewrite <- traj_S, traj_step. destruct output; cbn [andb app flat_map filter map Nat.add].
      + destruct (due (c_save cfg) (Datatypes.S n)); cbn [map app flat_map]; rewrite ?app_nil_r; reflexivity.
      + reflexivity.
  Qed.
  Lemma history_trace n : history (trace n) =
      map (fun k => (k, l_t (traj k), p_monitor (l_state (traj k)) k (l_t (traj k)))) (seq 0 (Datatypes.S n)).
  Proof.
    induction n as [|n IH].
    - unfold TimeRun_Proofs.trace, first_events. cbn. destruct output; reflexivity.
    - rewrite trace_S. unfold history in *. rewrite flat_map_app, IH, (seq_S (Datatypes.S n)), map_app. f_equal.
      unfold TimeRun_Model.body_events. cbn [app flat_map]. rewrite !flat_map_app.
      rewrite callbacks_no2 by reflexivity. rewrite <- traj_S, traj_step. cbn [map Nat.add].
      destruct output; cbn [andb app flat_map]; [|reflexivity]. destruct (due _ _); reflexivity.
  Qed.
  Lemma csv_trace n : csv (trace n) = if output then
      map (fun k => (k, l_t (traj k), p_monitor (l_state (traj k)) k (l_t (traj k)))) (seq 1 n) else [].
  Proof.
    induction n as [|n IH].
    - unfold TimeRun_Proofs.trace, first_events. cbn. destruct output; reflexivity.
    - rewrite trace_S. unfold csv in *. rewrite flat_map_app, IH, seq_S, map_app.
      unfold TimeRun_Model.body_events. cbn [app flat_map]. rewrite !flat_map_app.
      rewrite callbacks_no2 by reflexivity. rewrite <- traj_S, traj_step. cbn [map Nat.add].
      destruct output; cbn [andb app flat_map]; [|reflexivity]. f_equal. destruct (due _ _); reflexivity.
  Qed.
  Lemma calls_trace c e n : nth_error cb_every c = Some e -> calls c (trace n) =
      map (fun k => (l_state (traj k), k, l_t (traj k))) (filter (due e) (seq 1 n)).
  Proof.
    intros He. induction n as [|n IH].
    - unfold TimeRun_Proofs.trace, first_events. cbn. destruct output; reflexivity.
    - rewrite trace_S. unfold calls in *. rewrite flat_map_app, IH, seq_S, filter_app, map_app. f_equal.
      unfold TimeRun_Model.body_events. cbn [app flat_map]. rewrite !flat_map_app.
      fold (calls c (callbacks S V 0 cb_every (l_state (TimeRun_Model.advance S p_step p_adapt cfg adaptive (traj n)))
             (l_step (TimeRun_Model.advance S p_step p_adapt cfg adaptive (traj n))) (l_t (TimeRun_Model.advance S p_step p_adapt cfg adaptive (traj n))))).
      rewrite callbacks_calls. cbn [Nat.leb]. rewrite Nat.sub_0_r, He. rewrite <- traj_S, traj_step. cbn [map Nat.add].
      destruct output; cbn [andb app flat_map filter].
      + destruct (due (c_save cfg) (Datatypes.S n)), (due e (Datatypes.S n)); reflexivity.
      + destruct (due e (Datatypes.S n)); reflexivity.
  Qed.

  Lemma full_flat X (f : event S V -> list X) n : (forall s k t, f (ESave s k t) = []) ->
    flat_map f (full_trace n) = flat_map f (trace n).
  Proof.
    intros Hf. unfold TimeRun_Proofs.full_trace. rewrite flat_map_app. destruct (output && _); cbn; rewrite ?Hf, ?app_nil_r; reflexivity.
  Qed.
  Lemma steps_full n : steps (full_trace n) = map (fun k => (l_state (traj k), l_t (traj k), dt_eff S cfg (traj k))) (seq 0 n).
  Proof. unfold steps. rewrite full_flat by reflexivity. apply steps_trace. Qed.

  Lemma at_step_traj n k : (k <= n)%nat ->
    at_step (steps (full_trace n)) (traj n) k = (l_state (traj k), l_t (traj k)).
  Proof.
    intros Hk. rewrite steps_full. unfold at_step.
    destruct (nth_error (map _ (seq 0 n)) k) as [[[s t] d]|] eqn:E.
    - assert (L : (k < n)%nat).
      { assert (X : nth_error (map (fun k => (l_state (traj k), l_t (traj k), dt_eff S cfg (traj k))) (seq 0 n)) k <> None) by congruence.
        apply nth_error_Some in X. rewrite map_length, seq_length in X. exact X. }
      rewrite nth_error_map in E. rewrite nth_error_nth' with (d := 0%nat) in E by (rewrite seq_length; exact L).
      rewrite seq_nth in E by exact L. cbn in E. inversion E. reflexivity.
    - apply nth_error_None in E. rewrite map_length, seq_length in E. replace k with n by lia. reflexivity.
  Qed.

  Lemma covers_traj n : 0 < c_dt cfg -> adaptive_ok adaptive -> stops_at n ->
    covers p_step (c_t_end cfg) p_init (c_t_start cfg) (steps (full_trace n)) (l_state (traj n)) (l_t (traj n)).
  Proof.
    intros Hdt Hok [_ Hs]. rewrite steps_full.
    assert (G : forall m j, (j + m = n)%nat ->
      covers p_step (c_t_end cfg) (l_state (traj j)) (l_t (traj j))
        (map (fun k => (l_state (traj k), l_t (traj k), dt_eff S cfg (traj k))) (seq j m)) (l_state (traj n)) (l_t (traj n))).
    { induction m as [|m IH]; intros j Hj.
      - cbn. replace j with n by lia. auto.
      - cbn [seq map covers].
        destruct (dt_eff_spec S cfg Hdt (traj j) (Hs j ltac:(lia)) (traj_dt_pos S p_step p_init p_adapt cfg adaptive Hdt Hok j))
          as (D1 & _ & D2 & _).
        repeat split; auto. apply (IH (Datatypes.S j)). lia. }
    apply (G n 0%nat). lia.
  Qed.
End Lemmas.

(** ** C29 *)
(** Every completed run, adaptive or not: the steps form a chain of positive steps from the
    initial state at t_start, never beyond t_end, ending within the slack of t_end. *)
Theorem C29_lands_on_t_end :
  forall (S V : Type) p_step p_monitor p_init p_adapt cfg adaptive output cb_every fuel l (log : list (event S V)),
    0 < c_dt cfg -> c_t_start cfg <= c_t_end cfg -> adaptive_ok adaptive ->
    run S V p_step p_monitor p_init p_adapt cfg adaptive output cb_every fuel = (Done l, log) ->
    covers p_step (c_t_end cfg) p_init (c_t_start cfg) (steps log) (l_state l) (l_t l) /\
    length (steps log) = l_step l /\
    c_t_end cfg - (1 # 100000000000000) * c_dt cfg <= l_t l <= c_t_end cfg.
Proof.
  intros S V p_step p_monitor p_init p_adapt cfg adaptive output cb_every fuel l log Hdt H0 Hok HR.
  apply run_done in HR. destruct HR as (n & _ & Hs & -> & -> & _).
  split; [apply covers_traj; assumption|]. split.
  - rewrite steps_full, map_length, seq_length, traj_step. reflexivity.
  - split.
    + destruct Hs as [Hs _]. apply stops_iff in Hs. exact Hs.
    + apply (traj_t_le S p_step p_init p_adapt cfg adaptive Hdt Hok n n H0 Hs (le_n n)).
Qed.
Print Assumptions C29_lands_on_t_end.

(** Visited times increase strictly. *)
Theorem C29_times_increase :
  forall (S V : Type) p_step p_monitor p_init p_adapt cfg adaptive output cb_every fuel l (log : list (event S V)) j k,
    0 < c_dt cfg -> adaptive_ok adaptive ->
    run S V p_step p_monitor p_init p_adapt cfg adaptive output cb_every fuel = (Done l, log) ->
    (j < k <= l_step l)%nat -> snd (at_step (steps log) l j) < snd (at_step (steps log) l k).
Proof.
  intros S V p_step p_monitor p_init p_adapt cfg adaptive output cb_every fuel l log j k Hdt Hok HR Hjk.
  apply run_done in HR. destruct HR as (n & _ & Hs & -> & -> & _). rewrite traj_step in Hjk.
  rewrite !at_step_traj by lia. apply (traj_t_mono S p_step p_init p_adapt cfg adaptive Hdt Hok n); assumption.
Qed.
Print Assumptions C29_times_increase.

Definition no_adaptation {S} (adaptive : option adaptive_config) (p_adapt : option (S -> nat -> Q -> Q -> num)) : Prop :=
  adaptive = None \/ p_adapt = None.

Lemma fixed_dt S p_step p_init p_adapt cfg adaptive k : no_adaptation adaptive p_adapt ->
  l_dt (traj S p_step p_init p_adapt cfg adaptive k) = c_dt cfg.
Proof.
  intros H. induction k as [|k IH]; [reflexivity|]. rewrite traj_S. cbn.
  destruct H as [H|H]; subst; [exact IH|]. destruct adaptive; exact IH.
Qed.
Lemma adaptive_none_ok : adaptive_ok None.
Proof. intros a H. discriminate. Qed.

Lemma fixed_time S p_step p_init p_adapt cfg adaptive n k : 0 < c_dt cfg -> c_t_start cfg <= c_t_end cfg ->
  no_adaptation adaptive p_adapt -> stops_at S p_step p_init p_adapt cfg adaptive n -> (k <= n)%nat ->
  (l_t (traj S p_step p_init p_adapt cfg adaptive k) == c_t_start cfg + inject_Z (Z.of_nat k) * c_dt cfg /\
   c_t_start cfg + inject_Z (Z.of_nat k) * c_dt cfg <= c_t_end cfg) \/
  (k = n /\ l_t (traj S p_step p_init p_adapt cfg adaptive k) == c_t_end cfg /\
   c_t_end cfg < c_t_start cfg + inject_Z (Z.of_nat k) * c_dt cfg).
Proof.
  intros Hdt H0 Hna Hs. induction k as [|k IH]; intros Hk.
  - left. change (inject_Z (Z.of_nat 0)) with 0. cbn [l_t traj Nat.iter TimeRun_Model.start]. 
    change (l_t (traj S p_step p_init p_adapt cfg adaptive 0)) with (c_t_start cfg). split; lra.
  - destruct IH as [[E B]|(E & _)]; [lia| |lia].
    assert (P : 0 < l_dt (traj S p_step p_init p_adapt cfg adaptive k)) by (rewrite fixed_dt by exact Hna; exact Hdt).
    assert (G := proj2 Hs k ltac:(lia)).
    rewrite traj_S, advance_t. rewrite Nat2Z.inj_succ. unfold Z.succ. rewrite inject_Z_plus. change (inject_Z 1) with 1.
    apply goes_on_iff in G. assert (X := slack_pos cfg Hdt).
    unfold dt_eff. rewrite (fixed_dt S p_step p_init p_adapt cfg adaptive k Hna).
    destruct (qmin_spec (c_dt cfg) (c_t_end cfg - l_t (traj S p_step p_init p_adapt cfg adaptive k))) as [[E1 E2]|[E1 E2]]; rewrite E1.
    + left. split; lra.
    + right. split; [|split; lra].
      destruct (Nat.eq_dec (Datatypes.S k) n) as [|Hne]; [assumption|]. exfalso.
      assert (G2 := proj2 Hs (Datatypes.S k) ltac:(lia)). apply goes_on_iff in G2. rewrite traj_S, advance_t in G2.
      unfold dt_eff in G2. rewrite (fixed_dt S p_step p_init p_adapt cfg adaptive k Hna) in G2. rewrite E1 in G2. lra.
Qed.

(** Without adaptation the run ends, after the least number n of steps with
    t_end - t_start <= (n + 1e-14) dt; all steps but the last have size dt. *)
Theorem C29_fixed_steps :
  forall (S V : Type) p_step p_monitor p_init p_adapt cfg adaptive output cb_every,
    0 < c_dt cfg -> c_t_start cfg <= c_t_end cfg -> no_adaptation adaptive p_adapt ->
    body_ok cfg output cb_every = true ->
    exists n l (log : list (event S V)),
      (forall fuel, (n < fuel)%nat ->
         run S V p_step p_monitor p_init p_adapt cfg adaptive output cb_every fuel = (Done l, log)) /\
      l_step l = n /\
      c_t_end cfg - c_t_start cfg <= (inject_Z (Z.of_nat n) + (1 # 100000000000000)) * c_dt cfg /\
      (forall m, (m < n)%nat -> (inject_Z (Z.of_nat m) + (1 # 100000000000000)) * c_dt cfg < c_t_end cfg - c_t_start cfg) /\
      (forall k s t d, (Datatypes.S k < n)%nat -> nth_error (steps log) k = Some (s, t, d) ->
         d == c_dt cfg /\ t == c_t_start cfg + inject_Z (Z.of_nat k) * c_dt cfg).
Proof.
  intros S V p_step p_monitor p_init p_adapt cfg adaptive output cb_every Hdt H0 Hna Hb.
  assert (NoOk : adaptive_ok None) by apply adaptive_none_ok.
  assert (Hpos : forall k, 0 < l_dt (traj S p_step p_init p_adapt cfg adaptive k)) by (intros k; rewrite fixed_dt by exact Hna; exact Hdt).
  assert (Hst : exists n, stops_at S p_step p_init p_adapt cfg adaptive n).
  { destruct Hna as [Hna|Hna]; subst.
    - apply (terminates_lower S p_step p_init p_adapt cfg None Hdt adaptive_none_ok (c_dt cfg) Hdt).
      intros k. rewrite fixed_dt by (left; reflexivity). lra.
    - assert (E : forall k, traj S p_step p_init None cfg adaptive k = traj S p_step p_init None cfg None k).
      { induction k as [|k IH]; [reflexivity|]. rewrite !traj_S, IH. unfold advance. destruct adaptive; reflexivity. }
      destruct (terminates_lower S p_step p_init None cfg None Hdt adaptive_none_ok (c_dt cfg) Hdt) as [n [A B]].
      + intros k. rewrite fixed_dt by (left; reflexivity). lra.
      + exists n. split; [rewrite E; exact A|]. intros k Hk. rewrite E. apply B. exact Hk. }
  destruct Hst as [n Hs].
  assert (Hsave : output = true -> c_save cfg <> 0%nat).
  { intros Ho Hz. unfold body_ok in Hb. rewrite Ho, Hz in Hb. cbn in Hb. rewrite andb_false_r in Hb. discriminate. }
  exists n, (traj S p_step p_init p_adapt cfg adaptive n),
    (full_trace S V p_step p_monitor p_init p_adapt cfg adaptive output cb_every n).
  split; [|split; [|split; [|split]]].
  - intros fuel Hf. apply run_terminates; auto.
  - apply traj_step.
  - destruct Hs as [Hn Hlt]. assert (Hn' := Hn). apply stops_iff in Hn'. unfold slack in Hn'.
    destruct (fixed_time S p_step p_init p_adapt cfg adaptive n n Hdt H0 Hna (conj Hn Hlt) (le_n n)) as [[E B]|(_ & E & B)].
    + rewrite E in Hn'. lra.
    + nra.
  - intros m Hm. assert (G := proj2 Hs m Hm). apply goes_on_iff in G. unfold slack in G.
    destruct (fixed_time S p_step p_init p_adapt cfg adaptive n m Hdt H0 Hna Hs ltac:(lia)) as [[E B]|(E & _)]; [|lia].
    rewrite E in G. lra.
  - intros k s t d Hk E. rewrite steps_full in E. rewrite nth_error_map in E.
    rewrite nth_error_nth' with (d := 0%nat) in E by (rewrite seq_length; lia). rewrite seq_nth in E by lia. cbn [option_map Nat.add] in E.
    assert (E1 : l_t (traj S p_step p_init p_adapt cfg adaptive k) = t) by congruence.
    assert (E2 : dt_eff S cfg (traj S p_step p_init p_adapt cfg adaptive k) = d) by congruence. subst t d. split.
    + destruct (dt_eff_spec S cfg Hdt (traj S p_step p_init p_adapt cfg adaptive k) (proj2 Hs k ltac:(lia)) (Hpos k)) as (_ & _ & _ & [E1|E1]).
      * rewrite E1, fixed_dt by exact Hna. reflexivity.
      * exfalso. assert (G := proj2 Hs (Datatypes.S k) Hk). apply goes_on_iff in G. rewrite traj_S, advance_t in G.
        assert (X := slack_pos cfg Hdt). lra.
    + destruct (fixed_time S p_step p_init p_adapt cfg adaptive n k Hdt H0 Hna Hs ltac:(lia)) as [[E1 B]|(E1 & _)]; [exact E1|lia].
Qed.
Print Assumptions C29_fixed_steps.

(** With adaptation the run ends if dt_min > 0 and the growth factor is at least 1. *)
Theorem C29_adaptive_terminates :
  forall (S V : Type) p_step p_monitor p_init p_adapt cfg a output cb_every,
    0 < c_dt cfg -> 0 < a_min a -> 1 <= a_growth a -> body_ok cfg output cb_every = true ->
    exists n l (log : list (event S V)), forall fuel, (n < fuel)%nat ->
      run S V p_step p_monitor p_init p_adapt cfg (Some a) output cb_every fuel = (Done l, log).
Proof.
  intros S V p_step p_monitor p_init p_adapt cfg a output cb_every Hdt Hm Hg Hb.
  assert (Hok : adaptive_ok (Some a)) by (intros b E; inversion E; subst; split; [exact Hm|lra]).
  destruct (qmin_spec (c_dt cfg) (a_min a)) as [[Eq Hq]|[Eq Hq]].
  - destruct (terminates_lower S p_step p_init p_adapt cfg (Some a) Hdt Hok (c_dt cfg) Hdt) as [n Hs].
    + induction k as [|k IH]; [apply Qle_refl|]. rewrite traj_S. cbn. destruct p_adapt as [f|]; [|exact IH].
      match goal with |- _ <= next_dt a ?x ?d => destruct (next_dt_cases a x d) as (c & Hc & Hn) end.
      assert (a_min a <= c) by (destruct Hc as [Hc|[Hc _]]; lra).
      destruct Hn as [[E _]|[E _]]; rewrite E; [lra|]. nra.
    + eexists n, _, _. intros fuel Hf. apply run_terminates with (n := n); auto.
      intros Ho Hz. unfold body_ok in Hb. rewrite Ho, Hz in Hb. cbn in Hb. rewrite andb_false_r in Hb. discriminate.
  - destruct (terminates_lower S p_step p_init p_adapt cfg (Some a) Hdt Hok (a_min a) Hm) as [n Hs].
    + induction k as [|k IH]; [cbn; lra|]. rewrite traj_S. cbn. destruct p_adapt as [f|]; [|exact IH].
      match goal with |- _ <= next_dt a ?x ?d => destruct (next_dt_cases a x d) as (c & Hc & Hn) end.
      assert (a_min a <= c) by (destruct Hc as [Hc|[Hc _]]; lra).
      destruct Hn as [[E _]|[E _]]; rewrite E; [lra|]. nra.
    + eexists n, _, _. intros fuel Hf. apply run_terminates with (n := n); auto.
      intros Ho Hz. unfold body_ok in Hb. rewrite Ho, Hz in Hb. cbn in Hb. rewrite andb_false_r in Hb. discriminate.
Qed.
Print Assumptions C29_adaptive_terminates.

(** ** C30 *)
(** One adaptation, for every proposal including NaN and infinities. *)
Theorem C30_next_dt :
  forall a (proposal : num) dt, a_min a <= a_max a ->
    next_dt a proposal dt <= a_max a /\ next_dt a proposal dt <= dt * a_growth a /\
    (a_min a <= next_dt a proposal dt \/ next_dt a proposal dt == dt * a_growth a) /\
    (forall q, proposal = Fin q -> a_min a <= q <= a_max a -> q <= dt * a_growth a -> next_dt a proposal dt == q).
Proof.
  intros a x dt Hm. destruct (next_dt_cases a x dt) as (c & Hc & Hn).
  assert (C1 : a_min a <= c <= a_max a).
  { destruct Hc as [Hc|[Hc [H|[H _]]]]; split; lra. }
  split; [destruct Hn as [[E _]|[E ?]]; rewrite E; lra|].
  split; [destruct Hn as [[E ?]|[E ?]]; rewrite E; lra|].
  split; [destruct Hn as [[E _]|[E ?]]; [left; rewrite E; lra|right; exact E]|].
  intros q -> Hq Hg. unfold next_dt, pymin, pymax.
  destruct (nlt (Fin q) (Fin (a_max a))) eqn:E1.
  - destruct (nlt (Fin (a_min a)) (Fin q)) eqn:E2.
    + destruct (nlt (Fin (dt * a_growth a)) (Fin q)) eqn:E3; cbn [fin]; [apply nlt_Fin in E3; lra|reflexivity].
    + assert (q == a_min a). { assert (~ a_min a < q) by (intros H; apply nlt_Fin in H; congruence). lra. }
      destruct (nlt (Fin (dt * a_growth a)) (Fin (a_min a))) eqn:E3; cbn [fin]; [apply nlt_Fin in E3; lra|lra].
  - assert (EQ : q == a_max a). { assert (~ q < a_max a) by (intros H; apply nlt_Fin in H; congruence). lra. }
    destruct (nlt (Fin (a_min a)) (Fin (a_max a))) eqn:E2.
    + destruct (nlt (Fin (dt * a_growth a)) (Fin (a_max a))) eqn:E3; cbn [fin]; [apply nlt_Fin in E3; lra|lra].
    + assert (a_max a == a_min a). { assert (~ a_min a < a_max a) by (intros H; apply nlt_Fin in H; congruence). lra. }
      destruct (nlt (Fin (dt * a_growth a)) (Fin (a_min a))) eqn:E3; cbn [fin]; [apply nlt_Fin in E3; lra|lra].
Qed.
Print Assumptions C30_next_dt.

(** Every step of a completed run, if the initial dt lies within the bounds and the growth
    factor is at least 1: at most dt_max, at least dt_min except possibly the last, and at
    most growth_factor times the step before. *)
Theorem C30_run :
  forall (S V : Type) p_step p_monitor p_init p_adapt cfg a output cb_every fuel l (log : list (event S V)),
    0 < a_min a -> a_min a <= c_dt cfg <= a_max a -> 1 <= a_growth a ->
    run S V p_step p_monitor p_init p_adapt cfg (Some a) output cb_every fuel = (Done l, log) ->
    (forall k s t d, nth_error (steps log) k = Some (s, t, d) ->
       d <= a_max a /\ ((Datatypes.S k < length (steps log))%nat -> a_min a <= d)) /\
    (forall k s t d s' t' d', nth_error (steps log) k = Some (s, t, d) ->
       nth_error (steps log) (Datatypes.S k) = Some (s', t', d') -> d' <= a_growth a * d).
Proof.
  intros S V p_step p_monitor p_init p_adapt cfg a output cb_every fuel l log Hm Hd Hg HR.
  assert (Hdt : 0 < c_dt cfg) by lra.
  assert (Hok : adaptive_ok (Some a)) by (intros b E; inversion E; subst; split; [exact Hm|lra]).
  apply run_done in HR. destruct HR as (n & _ & Hs & -> & -> & _).
  set (T := traj S p_step p_init p_adapt cfg (Some a)) in *.
  assert (B : forall k, a_min a <= l_dt (T k) <= a_max a /\ l_dt (T (Datatypes.S k)) <= a_growth a * l_dt (T k)).
  { assert (B1 : forall k, a_min a <= l_dt (T k) <= a_max a ->
      a_min a <= l_dt (T (Datatypes.S k)) <= a_max a /\ l_dt (T (Datatypes.S k)) <= a_growth a * l_dt (T k)).
    { intros k Hk. unfold T. rewrite traj_S. cbn. destruct p_adapt as [f|].
      - match goal with |- context [next_dt a ?x ?d] => destruct (next_dt_cases a x d) as (c & Hc & Hn) end.
        fold T in Hn. fold T.
        assert (C1 : a_min a <= c <= a_max a) by (destruct Hc as [Hc|[Hc [H|[H _]]]]; split; lra).
        destruct Hn as [[E ?]|[E ?]]; rewrite E; split; try split; nra.
      - fold T. split; [exact Hk|]. nra. }
    intros k. assert (Hk : a_min a <= l_dt (T k) <= a_max a).
    { induction k as [|k IH]; [exact Hd|]. apply (B1 k IH). }
    split; [exact Hk|]. apply B1. exact Hk. }
  rewrite steps_full. fold T.
  assert (N : forall k s t d, nth_error (map (fun k => (l_state (T k), l_t (T k), dt_eff S cfg (T k))) (seq 0 n)) k = Some (s, t, d) ->
     (k < n)%nat /\ d = dt_eff S cfg (T k)).
  { intros k s t d E.
    assert (L : (k < n)%nat).
    { assert (X : nth_error (map (fun k => (l_state (T k), l_t (T k), dt_eff S cfg (T k))) (seq 0 n)) k <> None) by congruence.
      apply nth_error_Some in X. rewrite map_length, seq_length in X. exact X. }
    rewrite nth_error_map in E. rewrite nth_error_nth' with (d := 0%nat) in E by (rewrite seq_length; exact L).
    rewrite seq_nth in E by exact L. cbn [option_map Nat.add] in E. split; [exact L|congruence]. }
  assert (EF : forall k, (k < n)%nat -> dt_eff S cfg (T k) <= l_dt (T k)).
  { intros k Hk. apply (dt_eff_spec S cfg Hdt (T k) (proj2 Hs k Hk)). destruct (B k). lra. }
  split.
  - intros k s t d E. apply N in E. destruct E as [L ->]. assert (X := EF k L). destruct (B k) as [B1 _]. split; [lra|].
    rewrite map_length, seq_length. intros L2.
    assert (F := traj_full S p_step p_init p_adapt cfg (Some a) Hdt Hok n k Hs L2). fold T in F. lra.
  - intros k s t d s' t' d' E E'. apply N in E. apply N in E'. destruct E as [L ->]. destruct E' as [L' ->].
    assert (X := EF (Datatypes.S k) L'). destruct (B k) as [_ B2].
    assert (F := traj_full S p_step p_init p_adapt cfg (Some a) Hdt Hok n k Hs L'). fold T in F.
    assert (F2 : a_growth a * dt_eff S cfg (T k) == a_growth a * l_dt (T k)) by (apply Qmult_comp; [reflexivity|exact F]). lra.
Qed.
Print Assumptions C30_run.

(** ** C31 *)
Theorem C31_saves :
  forall (S V : Type) p_step p_monitor p_init p_adapt cfg adaptive output cb_every fuel l (log : list (event S V)),
    run S V p_step p_monitor p_init p_adapt cfg adaptive output cb_every fuel = (Done l, log) ->
    saves log = if output
      then map (fun k => (fst (at_step (steps log) l k), k, snd (at_step (steps log) l k)))
               (0%nat :: filter (fun k => (k mod c_save cfg =? 0) || (k =? l_step l))%nat (seq 1 (l_step l)))
      else [].
Proof.
  intros S V p_step p_monitor p_init p_adapt cfg adaptive output cb_every fuel l log HR.
  apply run_done in HR. destruct HR as (n & _ & Hs & -> & -> & _ & Hz). rewrite traj_step.
  unfold saves at 1. unfold full_trace at 1. rewrite flat_map_app. fold (saves (trace S V p_step p_monitor p_init p_adapt cfg adaptive output cb_every n)).
  rewrite saves_trace.
  destruct output; [|reflexivity]. cbn [andb map].
  rewrite at_step_traj by lia. cbn [fst snd app]. f_equal. symmetry.
  rewrite map_ext_in with (g := fun k => (l_state (traj S p_step p_init p_adapt cfg adaptive k), k, l_t (traj S p_step p_init p_adapt cfg adaptive k))).
  2:{ intros k Hk. apply filter_In in Hk. destruct Hk as [Hk _]. apply in_seq in Hk. rewrite at_step_traj by lia. reflexivity. }
  symmetry. destruct n as [|n].
  - cbn [seq filter map app]. unfold due. rewrite Nat.mod_0_l by (apply Hz; reflexivity). reflexivity.
  - rewrite !seq_S, !filter_app, !map_app. cbn [Nat.add].
    assert (E : filter (fun k => (k mod c_save cfg =? 0)%nat || (k =? Datatypes.S n)%nat) (seq 1 n) = filter (due (c_save cfg)) (seq 1 n)).
    { apply filter_ext_in. intros k Hk. apply in_seq in Hk. unfold due. destruct (Nat.eqb_spec k (Datatypes.S n)); [lia|]. apply orb_false_r. }
    rewrite E. rewrite <- app_assoc. f_equal. cbn [filter]. rewrite Nat.eqb_refl, orb_true_r.
    destruct (due (c_save cfg) (Datatypes.S n)); reflexivity.
Qed.
Print Assumptions C31_saves.

Theorem C31_history :
  forall (S V : Type) p_step p_monitor p_init p_adapt cfg adaptive output cb_every fuel l (log : list (event S V)),
    run S V p_step p_monitor p_init p_adapt cfg adaptive output cb_every fuel = (Done l, log) ->
    let row k := (k, snd (at_step (steps log) l k), p_monitor (fst (at_step (steps log) l k)) k (snd (at_step (steps log) l k))) in
    history log = map row (seq 0 (Datatypes.S (l_step l))) /\
    csv log = (if output then map row (seq 1 (l_step l)) else []).
Proof.
  intros S V p_step p_monitor p_init p_adapt cfg adaptive output cb_every fuel l log HR.
  apply run_done in HR. destruct HR as (n & _ & Hs & -> & -> & _). rewrite traj_step. cbn zeta. split.
  - unfold history. rewrite full_flat by reflexivity. fold (history (trace S V p_step p_monitor p_init p_adapt cfg adaptive output cb_every n)).
    rewrite history_trace. apply map_ext_in. intros k Hk. apply in_seq in Hk. rewrite at_step_traj by lia. reflexivity.
  - unfold csv. rewrite full_flat by reflexivity. fold (csv (trace S V p_step p_monitor p_init p_adapt cfg adaptive output cb_every n)).
    rewrite csv_trace. destruct output; [|reflexivity]. apply map_ext_in. intros k Hk. apply in_seq in Hk. rewrite at_step_traj by lia. reflexivity.
Qed.
Print Assumptions C31_history.

Theorem C31_callbacks :
  forall (S V : Type) p_step p_monitor p_init p_adapt cfg adaptive output cb_every fuel l (log : list (event S V)) c every,
    run S V p_step p_monitor p_init p_adapt cfg adaptive output cb_every fuel = (Done l, log) ->
    nth_error cb_every c = Some every ->
    calls c log = map (fun k => (fst (at_step (steps log) l k), k, snd (at_step (steps log) l k)))
                      (filter (fun k => k mod every =? 0)%nat (seq 1 (l_step l))).
Proof.
  intros S V p_step p_monitor p_init p_adapt cfg adaptive output cb_every fuel l log c every HR He.
  apply run_done in HR. destruct HR as (n & _ & Hs & -> & -> & _). rewrite traj_step.
  unfold calls. rewrite full_flat by reflexivity. fold (calls c (trace S V p_step p_monitor p_init p_adapt cfg adaptive output cb_every n)).
  rewrite (calls_trace S V p_step p_monitor p_init p_adapt cfg adaptive output cb_every c every n He).
  apply map_ext_in. intros k Hk. apply filter_In in Hk. destruct Hk as [Hk _]. apply in_seq in Hk. rewrite at_step_traj by lia. reflexivity.
Qed.
Print Assumptions C31_callbacks.

(** The CSV file has no row for the initial condition, which the history has. *)
Theorem C31_csv_row0_refuted :
  exists (S V : Type) p_step p_monitor p_init p_adapt cfg adaptive output cb_every fuel l (log : list (event S V)),
    run S V p_step p_monitor p_init p_adapt cfg adaptive output cb_every fuel = (Done l, log) /\
    output = true /\ csv log <> history log.
Proof.
  exists nat, nat, (fun s _ _ => Datatypes.S s), (fun s _ _ => s), 0%nat, None,
    {| c_dt := 1; c_t_end := 2; c_t_start := 0; c_save := 1; c_print := 1 |}, None, true, [], 5%nat.
  eexists. eexists. split; [vm_compute; reflexivity|]. split; [reflexivity|]. vm_compute. discriminate.
Qed.
Print Assumptions C31_csv_row0_refuted.

(** ** Examples *)
(** 0 to 7/2 in steps of 1, save_every = 2, a callback every 3 steps: four steps, the last of
    size 1/2; saved at 0, 2, 4. *)
Definition ex_cfg := {| c_dt := 1; c_t_end := 7 # 2; c_t_start := 0; c_save := 2; c_print := 1 |}.
Definition ex_run := run nat nat (fun s _ _ => Datatypes.S s) (fun s _ _ => s) 10%nat None ex_cfg None true [3%nat] 9.
Example C29_example : exists l log, ex_run = (Done l, log) /\ l_step l = 4%nat /\ l_t l == 7 # 2 /\
  map (fun x => snd (fst x)) (saves log) = [0; 2; 4]%nat /\ map (fun x => snd (fst x)) (calls 0 log) = [3]%nat /\
  0 < c_dt ex_cfg /\ c_t_start ex_cfg <= c_t_end ex_cfg /\ body_ok ex_cfg true [3%nat] = true.
Proof. eexists. eexists. split; [vm_compute; reflexivity|]. repeat split; try reflexivity; discriminate. Qed.
(** Exact multiple: the final step is not saved twice. *)
Example C31_example_exact : exists l log,
  run nat nat (fun s _ _ => Datatypes.S s) (fun s _ _ => s) 10%nat None
    {| c_dt := 1; c_t_end := 4; c_t_start := 0; c_save := 2; c_print := 1 |} None true [] 9 = (Done l, log) /\
  map (fun x => snd (fst x)) (saves log) = [0; 2; 4]%nat.
Proof. eexists. eexists. split; vm_compute; reflexivity. Qed.
(** Adaptive: proposals alternate between NaN and 1/8. *)
Definition ex_adaptive := {| a_min := 1 # 4; a_max := 2; a_growth := 2 |}.
Definition ex_adapt : nat -> nat -> Q -> Q -> num := fun _ k _ _ => if Nat.even k then NaN else Fin (1 # 8).
Example C30_example : exists l log,
  run nat nat (fun s _ _ => Datatypes.S s) (fun s _ _ => s) 10%nat (Some ex_adapt) ex_cfg (Some ex_adaptive) false [] 99 = (Done l, log) /\
  (5 < l_step l)%nat /\ a_min ex_adaptive <= c_dt ex_cfg <= a_max ex_adaptive /\ 1 <= a_growth ex_adaptive.
Proof. eexists. eexists. split; [vm_compute; reflexivity|]. repeat split; try (cbn; lia); discriminate. Qed.

(** The bounds are applied to the next dt only: an initial dt above dt_max is used as it is. *)
Theorem C30_initial_dt_refuted :
  exists p_adapt cfg a l (log : list (event nat nat)) d,
    run nat nat (fun s _ _ => Datatypes.S s) (fun s _ _ => s) 0%nat (Some p_adapt) cfg (Some a) false [] 99 = (Done l, log) /\
    nth_error (steps log) 0 = Some (0%nat, 0, d) /\ a_max a < d.
Proof.
  exists ex_adapt, ex_cfg, {| a_min := 1 # 8; a_max := 1 # 2; a_growth := 2 |}.
  eexists. eexists. eexists. split; [vm_compute; reflexivity|]. split; [vm_compute; reflexivity|]. reflexivity.
Qed.
Print Assumptions C30_initial_dt_refuted.
(** The growth limit wins over dt_min: starting below dt_min, later steps are below it too. *)
Theorem C30_below_dt_min_refuted :
  exists p_adapt cfg a l (log : list (event nat nat)) k s t d,
    run nat nat (fun s _ _ => Datatypes.S s) (fun s _ _ => s) 0%nat (Some p_adapt) cfg (Some a) false [] 99 = (Done l, log) /\
    nth_error (steps log) k = Some (s, t, d) /\ (0 < k)%nat /\ (Datatypes.S k < length (steps log))%nat /\ d < a_min a.
Proof.
  exists (fun _ _ _ _ => PInf), {| c_dt := 1; c_t_end := 20; c_t_start := 0; c_save := 2; c_print := 1 |},
    {| a_min := 4; a_max := 8; a_growth := 2 |}.
  eexists. eexists. exists 1%nat. eexists. eexists. eexists.
  split; [vm_compute; reflexivity|]. split; [vm_compute; reflexivity|].
  split; [lia|]. split; [vm_compute; lia|]. reflexivity.
Qed.
Print Assumptions C30_below_dt_min_refuted.

(** A growth factor below 1 makes the step sizes a geometric series: the run never ends. *)
Theorem C29_shrinking_never_ends_refuted :
  exists p_adapt cfg a,
    0 < c_dt cfg /\ 0 < a_min a /\ 0 < a_growth a /\
    forall fuel, fst (run nat nat (fun s _ _ => Datatypes.S s) (fun s _ _ => s) 0%nat (Some p_adapt) cfg (Some a) false [] fuel) = OutOfFuel.
Proof.
  set (cfg := {| c_dt := 1; c_t_end := 10; c_t_start := 0; c_save := 1; c_print := 1 |}).
  set (a := {| a_min := 1; a_max := 2; a_growth := 1 # 2 |}).
  exists (fun _ _ _ _ => PInf), cfg, a.
  split; [reflexivity|]. split; [reflexivity|]. split; [reflexivity|]. intros fuel.
  set (T := traj nat (fun s _ _ => Datatypes.S s) 0%nat (Some (fun _ _ _ _ => PInf)) cfg (Some a)).
  assert (Inv : forall k, l_t (T k) + 2 * l_dt (T k) == 2 /\ 0 < l_dt (T k) /\ l_dt (T k) <= 1).
  { induction k as [|k IH]; [split; [reflexivity|split; [reflexivity|discriminate]]|].
    unfold T. rewrite traj_S. fold T. cbn -[T next_dt dt_eff].
    assert (D : dt_eff nat cfg (T k) == l_dt (T k)).
    { unfold dt_eff. destruct (qmin_spec (l_dt (T k)) (c_t_end cfg - l_t (T k))) as [[E _]|[E X]]; [exact E|]. exfalso.
      change (c_t_end cfg) with 10 in X. lra. }
    destruct (next_dt_cases a PInf (l_dt (T k))) as (c & Hc & Hn). change (a_min a) with 1 in Hc. change (a_growth a) with (1 # 2) in Hn.
    assert (1 <= c) by (destruct Hc as [Hc|[Hc _]]; lra).
    assert (N : next_dt a PInf (l_dt (T k)) == l_dt (T k) * (1 # 2)) by (destruct Hn as [[E ?]|[E ?]]; [lra|exact E]).
    split; [rewrite D, N; lra|]. split; [rewrite N; lra|rewrite N; lra]. }
  assert (G : forall k, goes_on nat cfg (T k) = true).
  { intros k. apply goes_on_iff. destruct (Inv k) as (E & P & _). change (c_t_end cfg) with 10. change (c_dt cfg) with 1. unfold slack. lra. }
  destruct (run nat nat (fun s _ _ => Datatypes.S s) (fun s _ _ => s) 0%nat (Some (fun _ _ _ _ => PInf)) cfg (Some a) false [] fuel) as [r log] eqn:E.
  destruct r as [l| |]; [| |reflexivity].
  - apply run_done in E. destruct E as (n & _ & [Hn _] & _). fold T in Hn. rewrite G in Hn. discriminate.
  - exfalso. unfold run in E.
    destruct (while_loop nat nat (fun s _ _ => Datatypes.S s) (fun s _ _ => s) (Some (fun _ _ _ _ => PInf)) cfg (Some a) false [] fuel
        (start nat 0%nat cfg) (first_events nat nat (fun s _ _ => s) 0%nat cfg false)) as [r log'] eqn:E2.
    destruct r; try discriminate. cbn in E.
    assert (E3 := while_spec nat nat (fun s _ _ => Datatypes.S s) (fun s _ _ => s) 0%nat (Some (fun _ _ _ _ => PInf)) cfg (Some a) false []
       fuel 0 ltac:(intros; lia) ZeroDivision log').
    destruct E3 as (_ & B & _); [|discriminate].
    unfold trace. cbn [seq flat_map]. rewrite app_nil_r. exact E2.
Qed.
Print Assumptions C29_shrinking_never_ends_refuted.

(** ** C52: the explicit schemes *)
Section Explicit.
  (** A linear right-hand side. *)
  Definition linear_rhs (A : (nat -> Q) -> (nat -> Q)) : Prop :=
    (forall u v, (forall i, u i == v i) -> forall i, A u i == A v i) /\
    (forall a u v i, A (fun j => v j + a * u j) i == A v i + a * A u i).
  (** Sum of the first p+1 terms of exp(dt A) u. *)
  Fixpoint power (A : (nat -> Q) -> (nat -> Q)) (k : nat) (u : nat -> Q) : nat -> Q :=
    match k with O => u | Datatypes.S k => A (power A k u) end.
End Explicit.
Theorem C52_linear :
  forall (A : (nat -> Q) -> (nat -> Q)) u t dt, linear_rhs A ->
    let rhs v (_ : Q) := A v in
    forall i,
    step_euler rhs u t dt i == u i + dt * power A 1 u i /\
    step_rk2 rhs u t dt i == u i + dt * power A 1 u i + dt * dt / 2 * power A 2 u i /\
    step_rk4 rhs u t dt i == u i + dt * power A 1 u i + dt * dt / 2 * power A 2 u i +
                             dt * dt * dt / 6 * power A 3 u i + dt * dt * dt * dt / 24 * power A 4 u i.
Proof.
  intros A u t dt [Hx HA] rhs i. unfold step_euler, step_rk2, step_rk4, axpy, rhs. cbn [power].
  set (h := (1 # 2) * dt).
  assert (E2 : forall j, A (fun j => u j + h * A u j) j == A u j + h * A (A u) j) by (intros j; apply HA).
  assert (E3 : forall j, A (fun j => u j + h * A (fun j => u j + h * A u j) j) j == A u j + h * (A (A u) j + h * A (A (A u)) j)).
  { intros j. rewrite HA. rewrite (Hx _ (fun j => A u j + h * A (A u) j) E2). rewrite HA. reflexivity. }
  assert (E4 : forall j, A (fun j => u j + dt * A (fun j => u j + h * A (fun j => u j + h * A u j) j) j) j ==
     A u j + dt * (A (A u) j + h * (A (A (A u)) j + h * A (A (A (A u))) j))).
  { intros j. rewrite HA. rewrite (Hx _ (fun j => A u j + h * (A (A u) j + h * A (A (A u)) j)) E3).
    rewrite HA. rewrite HA. reflexivity. }
  split; [reflexivity|]. split; [rewrite E2; unfold h; field|]. rewrite E4, E3, E2. unfold h. field.
Qed.
Print Assumptions C52_linear.
(** Pure quadrature: Euler exact for constants, RK2 for linear, RK4 for cubic right-hand sides. *)
Theorem C52_quadrature :
  forall (c0 c1 c2 c3 : Q) (u : nat -> Q) t dt i,
    let F s := c0 * s + c1 * s * s / 2 + c2 * s * s * s / 3 + c3 * s * s * s * s / 4 in
    let f : (nat -> Q) -> Q -> nat -> Q := fun _ s _ => c0 + c1 * s + c2 * s * s + c3 * s * s * s in
    (c1 == 0 -> c2 == 0 -> c3 == 0 -> step_euler f u t dt i == u i + (F (t + dt) - F t)) /\
    (c2 == 0 -> c3 == 0 -> step_rk2 f u t dt i == u i + (F (t + dt) - F t)) /\
    step_rk4 f u t dt i == u i + (F (t + dt) - F t).
Proof.
  intros c0 c1 c2 c3 u t dt i F f. unfold F, f, step_euler, step_rk2, step_rk4, axpy.
  split; [intros H1 H2 H3; rewrite H1, H2, H3; field|]. split; [intros H2 H3; rewrite H2, H3; field|]. field.
Qed.
Print Assumptions C52_quadrature.
Example C52_example : linear_rhs (fun u i => - (2) * u i + u (Datatypes.S i)).
Proof. split; [intros u v H i; rewrite !H; reflexivity|]. intros. ring. Qed.
