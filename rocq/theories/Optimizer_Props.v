(** C44: the optimisation loop. *)
From Coq Require Import String List Bool Arith ZArith QArith Qminmax Lia Lqa Zdiv.
From Verif Require Import Base Optimizer_Model Continuation_Props.
Import ListNotations.
Open Scope Z_scope.

(** ** Specification vocabulary *)
Section Spec.
  Variable M : Type.
  Variable npoints : M -> nat.
  Variable filt : M -> list Q -> list Q.
  Variable remesh : M -> list Q -> M.
  Variable transfer : list Q -> M -> M -> list Q.
  Variable g : config.
  Variable mesh0 : M.

  Notation epoch := (epoch M npoints filt remesh transfer g mesh0).
  Notation loop := (loop M npoints filt remesh transfer g mesh0).
  Notation budget := (budget M g).
  Notation state := (state M).

  (** NLopt never evaluates more often than the budget it was given. *)
  Fixpoint within_budget (vs : list move) (s : state) : Prop :=
    match vs with
    | [] => True
    | v :: t => s_iter M s < g_max_iter g ->
        Z.of_nat (List.length (v_points v)) <= budget s /\ within_budget t (epoch s v)
    end.
  (** Every call of optimize evaluates at least once. *)
  Definition progressing (vs : list move) : Prop := forall v, In v vs -> v_points v <> [].

  (** The configuration makes sense: no negative iteration budget, positive periods. *)
  Definition sane : Prop :=
    0 <= g_max_iter g /\ (forall c, In c (g_conts g) -> 1 <= c_every c) /\
    match g_adaptive g with Some (every, _) => 1 <= every | None => True end.

  (** The evaluations of a trace. *)
  Definition evals (tr : list (event M)) : list (event M) :=
    filter (fun e => match e with Eval _ _ _ _ _ _ _ => true | Remesh _ _ => false end) tr.
  Definition number (e : event M) : Z := match e with Eval _ i _ _ _ _ _ => i | Remesh _ i => i end.
  Definition remeshes (tr : list (event M)) : list Z :=
    flat_map (fun e => match e with Eval _ _ _ _ _ _ _ => [] | Remesh _ i => [i] end) tr.
  (** The continuation values of iteration it, in the order of the continuations. *)
  Definition scheduled (it : Z) (ps : list Q) : Prop :=
    Forall2 (fun c p => exists v, value_at c it = Some v /\ (p == v)%Q) (g_conts g) ps.
End Spec.

Definition Zseq (n : Z) : list Z := map Z.of_nat (seq 1 (Z.to_nat n)).

(** ** Schedule lemmas *)
Section Proofs.
  Variable M : Type.
  Variable npoints : M -> nat.
  Variable filt : M -> list Q -> list Q.
  Variable remesh : M -> list Q -> M.
  Variable transfer : list Q -> M -> M -> list Q.
  Variable g : config.
  Variable mesh0 : M.
  Hypothesis SANE : sane g.

  Notation epoch := (epoch M npoints filt remesh transfer g mesh0).
  Notation loop := (loop M npoints filt remesh transfer g mesh0).
  Notation budget := (budget M g).
  Notation state := (state M).
  Notation MX := (g_max_iter g).

  Lemma every_pos c : In c (g_conts g) -> 1 <= c_every c.
  Proof. apply SANE. Qed.

  Lemma boundary_gt it e : 1 <= e -> it < (it / e + 1) * e.
  Proof. intros. pose proof (Z.div_mod it e ltac:(lia)). pose proof (Z.mod_pos_bound it e ltac:(lia)). nia. Qed.

  Definition nc_step it acc c :=
    let boundary := (it / c_every c + 1) * c_every c in
    if (boundary <? MX) && negb (Qeq_bool (value c it) (value c boundary)) then Z.min acc boundary else acc.
  Lemma nc_le it cs acc : fold_left (nc_step it) cs acc <= acc.
  Proof.
    revert acc; induction cs as [|c t IH]; intros acc; cbn; [lia|]. etransitivity; [apply IH|].
    unfold nc_step. destruct (_ && _); lia.
  Qed.
  Lemma nc_gt it cs acc : (forall c, In c cs -> 1 <= c_every c) -> it < acc -> it < fold_left (nc_step it) cs acc.
  Proof.
    revert acc; induction cs as [|c t IH]; intros acc H L; cbn; [exact L|]. apply IH; [intros; apply H; now right|].
    unfold nc_step. pose proof (boundary_gt it (c_every c) (H c (or_introl eq_refl))). destruct (_ && _); lia.
  Qed.
  Lemma nc_hit it cs acc c : In c cs -> (it / c_every c + 1) * c_every c < MX ->
    ~ (value c it == value c ((it / c_every c + 1) * c_every c))%Q ->
    fold_left (nc_step it) cs acc <= (it / c_every c + 1) * c_every c.
  Proof.
    revert acc; induction cs as [|d t IH]; intros acc I L N; [destruct I|]. cbn [fold_left].
    destruct I as [->|I]; [|apply IH; assumption].
    etransitivity; [apply nc_le|]. unfold nc_step. cbv zeta.
    rewrite (proj2 (Z.ltb_lt _ _) L). destruct (Qeq_bool _ _) eqn:E; [apply Qeq_bool_iff in E; contradiction|].
    cbn. lia.
  Qed.

  Lemma value_phase c it : 1 <= c_every c -> value c it = phase_value c (phase c it).
  Proof. intros H. unfold value. now rewrite value_at_phase. Qed.

  (** Until the next stop no continuation value changes. *)
  Lemma value_const c it j : In c (g_conts g) -> 0 <= it <= j -> j < MX -> j < next_change g it ->
    (value c j == value c it)%Q.
  Proof.
    intros I L JM JN. pose proof (every_pos c I) as E. set (e := c_every c) in *.
    set (b := (it / e + 1) * e) in *.
    destruct (Z_lt_le_dec j b) as [S|S].
    - assert (P : j / e = it / e).
      { symmetry. apply (Z.div_unique j e (it / e) (j - it / e * e)); [|lia].
        left. unfold b in S.
        pose proof (Z.div_mod it e ltac:(lia)) as D. pose proof (Z.mod_pos_bound it e ltac:(lia)) as B.
        rewrite Z.mul_add_distr_r in S. rewrite (Z.mul_comm e) in D. lia. }
      rewrite !value_phase by exact E. unfold phase. fold e. rewrite P. reflexivity.
    - assert (S' : (value c it == value c b)%Q).
      { destruct (Qeq_dec (value c it) (value c b)) as [Q|Q]; [exact Q|exfalso].
        assert (next_change g it <= b); [|lia]. apply (nc_hit it (g_conts g) MX c I); [change (b < MX); lia|exact Q]. }
      rewrite !value_phase in * by exact E.
      assert (Pit : phase c it = it / e) by (unfold phase; fold e; pose proof (Z.div_pos it e ltac:(lia) ltac:(lia)); lia).
      assert (Pb : phase c b = it / e + 1).
      { unfold phase. fold e. unfold b. rewrite Z.div_mul by lia. pose proof (Z.div_pos it e ltac:(lia) ltac:(lia)). lia. }
      rewrite Pb, Pit in *. symmetry. apply stall_forever; [apply Z.div_pos; lia| |exact S'].
      assert (PJ : it / e + 1 <= j / e) by (apply Z.div_le_lower_bound; unfold b in S; lia).
      unfold phase. fold e. lia.
  Qed.

  Lemma budget_pos s : 0 <= s_iter M s < MX -> 1 <= budget s /\ s_iter M s + budget s <= MX
    /\ s_iter M s + budget s <= next_change g (s_iter M s)
    /\ match g_adaptive g with
       | Some (every, nmax) => s_adapts M s < nmax -> s_iter M s + budget s <= (s_iter M s / every + 1) * every
       | None => True end.
  Proof.
    intros H. unfold Optimizer_Model.budget. cbv zeta.
    assert (N : s_iter M s < next_change g (s_iter M s)).
    { apply nc_gt; [apply every_pos|lia]. }
    pose proof (proj2 (proj2 SANE)) as A. destruct (g_adaptive g) as [[every nmax]|]; [|lia].
    pose proof (boundary_gt (s_iter M s) every A). destruct (Z.ltb_spec (s_adapts M s) nmax); lia.
  Qed.

  Notation n0 := (npoints mesh0).
  Notation create_mma := (create_mma M npoints g mesh0).
  Notation prepare := (prepare M npoints g mesh0).
  Notation optimise := (optimise M).
  Notation flag_restart := (flag_restart M g).
  Notation adapt := (adapt M filt remesh transfer g).
  Notation init_state := (init_state M npoints g mesh0).

  Definition opt_ok (o : mma) (b : nat) (m : M) (it : Z) : Prop :=
    m_build o = b /\ (m_lo o, m_hi o) = mma_bounds g n0 (npoints m) /\ 0 <= m_born o <= it /\
    (it < MX -> forall c, In c (g_conts g) -> (value c (m_born o) == value c it)%Q).
  Definition good (e : event M) : Prop :=
    match e with
    | Eval _ i ps p b m o => 1 <= i <= MX /\ scheduled g (i - 1) ps /\ opt_ok o b m (i - 1)
    | Remesh _ i => match g_adaptive g with Some (every, _) => i mod every = 0 | None => False end
    end.

  Record Inv (s : state) : Prop := {
    inv_iter : 0 <= s_iter M s <= MX;
    inv_num : map (number M) (evals M (s_trace M s)) = Zseq (s_iter M s);
    inv_good : Forall good (s_trace M s);
    inv_opt : s_need M s = true \/ opt_ok (s_opt M s) (s_build M s) (s_mesh M s) (s_iter M s) }.

  Lemma scheduled_value it ps : Forall2 (fun c p => (p == value c it)%Q) (g_conts g) ps -> scheduled g it ps.
  Proof.
    unfold scheduled. pose proof every_pos as EP. induction 1 as [|c p cs ps H F IH]; [constructor|].
    constructor.
    - specialize (EP c (or_introl eq_refl)). rewrite (value_at_phase c it EP).
      rewrite (value_phase c it EP) in H. eexists; split; [reflexivity|exact H].
    - apply IH. intros c' Hc. apply EP. now right.
  Qed.

  Lemma Zseq_app a b : 0 <= a -> 0 <= b -> Zseq (a + b) = Zseq a ++ map (fun k => a + k) (Zseq b).
  Proof.
    intros A B. unfold Zseq. rewrite Z2Nat.inj_add, seq_app, map_app by assumption. f_equal.
    rewrite map_map. replace (1 + Z.to_nat a)%nat with (Z.to_nat a + 1)%nat by lia.
    generalize (Z.to_nat b) as n. intros n. clear B.
    assert (G : forall n k, map Z.of_nat (seq (Z.to_nat a + k) n) = map (fun x => a + Z.of_nat x) (seq k n)).
    { clear n. induction n as [|n IH]; intros k; [reflexivity|]. cbn [seq map]. f_equal; [lia|].
      rewrite <- IH. do 2 f_equal. lia. }
    apply G.
  Qed.

  Lemma eval_events_num it ps b m o pts :
    map (number M) (eval_events M it ps b m o pts) = map (fun k => it + k) (Zseq (Z.of_nat (List.length pts))).
  Proof.
    revert it; induction pts as [|p t IH]; intros it; [reflexivity|]. cbn [eval_events map List.length number].
    rewrite IH, Nat2Z.inj_succ, <- Z.add_1_l, Zseq_app by lia. rewrite map_app, map_map. cbn [map app Zseq].
    change (Zseq 1) with [1]. cbn [map app]. f_equal. apply map_ext. intros; lia.
  Qed.
  Lemma eval_events_evals it ps b m o pts : evals M (eval_events M it ps b m o pts) = eval_events M it ps b m o pts.
  Proof. revert it; induction pts as [|p t IH]; intros it; [reflexivity|]. cbn. f_equal. apply IH. Qed.
  Lemma eval_events_in it ps b m o pts e : In e (eval_events M it ps b m o pts) ->
    exists i p, e = Eval M i ps p b m o /\ it < i <= it + Z.of_nat (List.length pts) /\ In p pts.
  Proof.
    revert it; induction pts as [|p t IH]; intros it; [intros []|]. cbn [eval_events In List.length].
    intros [<-|H].
    - exists (it + 1), p. split; [reflexivity|]. split; [lia|now left].
    - destruct (IH _ H) as (i & q & E & B & I). exists i, q. split; [exact E|]. split; [lia|now right].
  Qed.

  Lemma evals_app a b : evals M (a ++ b) = evals M a ++ evals M b.
  Proof. apply filter_app. Qed.

  Lemma opt_ok_prepare s : Inv s -> s_iter M s < MX ->
    opt_ok (s_opt M (prepare s)) (s_build M s) (s_mesh M s) (s_iter M s).
  Proof.
    intros I L. unfold Optimizer_Model.prepare. cbn [s_opt]. pose proof (inv_iter s I).
    destruct (s_need M s) eqn:N.
    - unfold opt_ok, Optimizer_Model.create_mma. cbn [m_build m_lo m_hi m_born].
      split; [reflexivity|]. split; [now rewrite <- surjective_pairing|]. split; [lia|]. intros; reflexivity.
    - destruct (inv_opt s I) as [H'|H']; [congruence|exact H'].
  Qed.

  Lemma params_prepare s it : (forall c, In c (g_conts g) -> (value c it == value c (s_iter M s))%Q) ->
    scheduled g it (s_params M (prepare s)).
  Proof.
    intros H. apply scheduled_value. unfold Optimizer_Model.prepare. cbn [s_params].
    induction (g_conts g) as [|c t IH]; cbn [map]; constructor.
    - symmetry. apply H. now left.
    - apply IH. intros c' Hc. apply H. now right.
  Qed.

  Lemma existsb_false A (f : A -> bool) l : existsb f l = false -> forall x, In x l -> f x = false.
  Proof.
    intros H x I. destruct (f x) eqn:E; [|reflexivity]. exfalso.
    assert (existsb f l = true) by (apply existsb_exists; eauto). congruence.
  Qed.

  Lemma mid_ok s v : Inv s -> s_iter M s < MX -> Z.of_nat (List.length (v_points v)) <= budget s ->
    Inv (flag_restart (optimise (prepare s) v)).
  Proof.
    intros I L W. pose proof (inv_iter s I) as B. destruct (budget_pos s ltac:(lia)) as (B1 & B2 & B3 & _).
    pose proof (opt_ok_prepare s I L) as OK.
    set (k := Z.of_nat (List.length (v_points v))) in *. assert (K0 : 0 <= k) by lia.
    assert (C : forall c j, In c (g_conts g) -> s_iter M s <= j < s_iter M s + k -> (value c j == value c (s_iter M s))%Q).
    { intros c j Ic J. apply value_const; [exact Ic|lia|lia|lia]. }
    constructor.
    - cbn. fold k. lia.
    - cbn [flag_restart Optimizer_Model.flag_restart optimise Optimizer_Model.optimise s_trace s_iter].
      cbn [prepare Optimizer_Model.prepare s_trace s_iter s_build s_mesh]. rewrite evals_app, map_app, (inv_num s I).
      rewrite eval_events_evals, eval_events_num. fold k. symmetry. apply Zseq_app; lia.
    - cbn [flag_restart Optimizer_Model.flag_restart optimise Optimizer_Model.optimise s_trace s_iter].
      apply Forall_app. split; [exact (inv_good s I)|]. apply Forall_forall. intros e He.
      apply eval_events_in in He. destruct He as (i & p & -> & Bi & _). fold k in Bi.
      cbn [prepare Optimizer_Model.prepare s_iter] in Bi. cbn [good].
      split; [lia|]. split.
      + apply params_prepare. intros c Ic. apply C; [exact Ic|lia].
      + destruct OK as (O1 & O2 & O3 & O4). split; [exact O1|]. split; [exact O2|]. split; [lia|].
        intros _ c Ic. rewrite (O4 L c Ic). symmetry. apply C; [exact Ic|lia].
    - cbn [flag_restart Optimizer_Model.flag_restart optimise Optimizer_Model.optimise s_need s_opt s_build s_mesh s_iter].
      destruct (_ || _) eqn:N; [left; reflexivity|right].
      cbn [prepare Optimizer_Model.prepare s_iter s_need] in N. fold k in N.
      cbn [orb] in N. cbn [prepare Optimizer_Model.prepare s_iter]. fold k.
      destruct OK as (O1 & O2 & O3 & O4). split; [exact O1|]. split; [exact O2|]. split; [split; [apply O3|etransitivity; [apply O3|lia]]|].
      intros L' c Ic. rewrite (proj2 (Z.ltb_lt _ _) L') in N. cbn [andb] in N.
      pose proof (existsb_false _ _ _ N c Ic) as E. cbn beta in E. rewrite negb_false_iff in E. apply Qeq_bool_iff in E.
      rewrite (O4 L c Ic).
      destruct (Z.eq_dec k 0) as [->|NK]; [rewrite Z.add_0_r; reflexivity|].
      rewrite E. symmetry. apply C; [exact Ic|lia].
  Qed.

  Lemma adapt_ok s : Inv s -> Inv (adapt s).
  Proof.
    intros I. unfold Optimizer_Model.adapt. destruct (g_adaptive g) as [[every nmax]|] eqn:A; [|exact I].
    destruct (_ && _) eqn:T; [|exact I]. rewrite !andb_true_iff in T. destruct T as [[_ _] T]. apply Z.eqb_eq in T.
    constructor; cbn [s_iter s_trace s_need].
    - exact (inv_iter s I).
    - rewrite evals_app. cbn [evals filter]. rewrite app_nil_r. exact (inv_num s I).
    - apply Forall_app. split; [exact (inv_good s I)|]. constructor; [|constructor]. cbn. rewrite A. exact T.
    - left; reflexivity.
  Qed.

  Lemma epoch_ok s v : Inv s -> s_iter M s < MX -> Z.of_nat (List.length (v_points v)) <= budget s -> Inv (epoch s v).
  Proof. intros. apply adapt_ok, mid_ok; assumption. Qed.

  Lemma init_ok es : Inv (init_state es).
  Proof. constructor; cbn; [|reflexivity|constructor|left; reflexivity]. pose proof (proj1 SANE). lia. Qed.

  Lemma loop_ok vs s : Inv s -> within_budget M npoints filt remesh transfer g mesh0 vs s -> Inv (loop vs s).
  Proof.
    revert s; induction vs as [|v t IH]; intros s I W; [exact I|]. cbn [Optimizer_Model.loop].
    destruct (Z.ltb_spec (s_iter M s) MX) as [L|L]; [|exact I].
    destruct (W L) as [W1 W2]. apply IH; [apply epoch_ok; assumption|exact W2].
  Qed.

  Lemma bad_period_sane : bad_period g = false.
  Proof.
    destruct SANE as (_ & S1 & S2). unfold bad_period. apply orb_false_iff. split.
    - destruct (existsb _ _) eqn:E; [|reflexivity]. apply existsb_exists in E. destruct E as (c & Ic & E).
      apply Z.eqb_eq in E. specialize (S1 c Ic). lia.
    - destruct (g_adaptive g) as [[every nmax]|]; [|reflexivity]. destruct (Z.eqb_spec every 0); [lia|reflexivity].
  Qed.

  Definition visited (it : Z) : Z := Z.min it (MX - 1).
  Record Inv2 (s : state) : Prop := {
    inv_params : s_iter M s = 0 \/ scheduled g (s_iter M s - 1) (s_params M s);
    inv_remesh : match g_adaptive g with
      | Some (every, nmax) =>
          s_adapts M s = Z.max 0 (Z.min nmax (visited (s_iter M s) / every)) /\
          remeshes M (s_trace M s) = map (fun j => every * j) (Zseq (s_adapts M s))
      | None => s_adapts M s = 0 /\ remeshes M (s_trace M s) = []
      end }.

  Lemma remeshes_app a b : remeshes M (a ++ b) = remeshes M a ++ remeshes M b.
  Proof. apply flat_map_app. Qed.
  Lemma eval_events_remeshes it ps b m o pts : remeshes M (eval_events M it ps b m o pts) = [].
  Proof. revert it; induction pts as [|p t IH]; intros it; [reflexivity|]. cbn. apply IH. Qed.

  Lemma div_same a b e : 1 <= e -> a <= b -> b < (a / e + 1) * e -> b / e = a / e.
  Proof.
    intros E L H. symmetry. apply (Z.div_unique b e (a / e) (b - a / e * e)); [|lia]. left.
    pose proof (Z.div_mod a e ltac:(lia)) as D. pose proof (Z.mod_pos_bound a e ltac:(lia)).
    rewrite Z.mul_add_distr_r in H. rewrite (Z.mul_comm e) in D. lia.
  Qed.

  Lemma epoch_ok2 s v : Inv s -> Inv2 s -> s_iter M s < MX ->
    1 <= Z.of_nat (List.length (v_points v)) <= budget s -> Inv2 (epoch s v).
  Proof.
    intros I J L W. pose proof (inv_iter s I) as B. destruct (budget_pos s ltac:(lia)) as (B1 & B2 & B3 & B4).
    pose proof (inv_remesh s J) as R.
    set (k := Z.of_nat (List.length (v_points v))) in *.
    assert (P : scheduled g (s_iter M s + k - 1) (s_params M (prepare s))).
    { apply params_prepare. intros c Ic. apply value_const; [exact Ic|lia|lia|lia]. }
    assert (TR : remeshes M (s_trace M (flag_restart (optimise (prepare s) v))) = remeshes M (s_trace M s)).
    { cbn [flag_restart Optimizer_Model.flag_restart optimise Optimizer_Model.optimise s_trace].
      rewrite remeshes_app, eval_events_remeshes, app_nil_r. reflexivity. }
    unfold epoch, Optimizer_Model.adapt. set (f := flag_restart (optimise (prepare s) v)) in *.
    assert (Fi : s_iter M f = s_iter M s + k) by reflexivity.
    assert (Fa : s_adapts M f = s_adapts M s) by reflexivity.
    assert (Fp : s_params M f = s_params M (prepare s)) by reflexivity.
    pose proof (proj2 (proj2 SANE)) as E.
    destruct (g_adaptive g) as [[every nmax]|] eqn:A.
    2:{ constructor; rewrite ?Fi, ?Fp; [right; exact P|rewrite A, Fa, TR; exact R]. }
    destruct R as [R1 R2].
    assert (V0 : visited (s_iter M s) = s_iter M s) by (unfold visited; lia). rewrite V0 in R1.
    pose proof (Z.div_pos (s_iter M s) every ltac:(lia) ltac:(lia)) as DP.
    set (d := s_iter M s / every) in *.
    destruct ((s_adapts M f <? nmax) && (s_iter M f <? MX) && (s_iter M f mod every =? 0)) eqn:T.
    - rewrite !andb_true_iff, !Z.ltb_lt, Z.eqb_eq, Fa, Fi in T. destruct T as [[T1 T2] T3].
      specialize (B4 T1).
      assert (X : s_iter M s + k = every * (d + 1)).
      { apply Z.mod_divide in T3; [|lia]. destruct T3 as [q Hq].
        assert (Hq2 : q * every <= (d + 1) * every) by lia.
        apply Z.mul_le_mono_pos_r in Hq2; [|lia].
        assert (d < q); [|replace q with (d + 1) in Hq by lia; lia].
        destruct (Z_lt_le_dec d q) as [|Q]; [assumption|exfalso].
        pose proof (Z.mul_div_le (s_iter M s) every ltac:(lia)). fold d in H. nia. }
      constructor; cbn [s_iter s_params s_adapts s_trace]; rewrite ?Fi, ?Fp; [right; exact P|]. rewrite A, Fa.
      assert (V : visited (s_iter M s + k) = every * (d + 1)) by (unfold visited; lia).
      rewrite V, Z.mul_comm, Z.div_mul by lia. split; [lia|].
      rewrite remeshes_app, TR, R2. rewrite Zseq_app, map_app by lia. f_equal.
      change (Zseq 1) with [1]. cbn [map remeshes flat_map app]. rewrite X. do 2 f_equal. lia.
    - constructor; rewrite ?Fi, ?Fp; [right; exact P|]. rewrite A, Fa, TR. split; [|exact R2].
      rewrite R1. destruct (Z_lt_le_dec (s_adapts M s) nmax) as [T1|T1].
      + assert (V : visited (s_iter M s + k) / every = d).
        { specialize (B4 T1). apply div_same; [lia|unfold visited; lia|]. fold d. unfold visited.
          destruct (Z.eq_dec (s_iter M s + k) ((d + 1) * every)) as [X|X]; [|lia].
          destruct (Z_lt_le_dec (s_iter M s + k) MX) as [Y|Y]; [|lia]. exfalso.
          rewrite Fa, Fi in T. rewrite (proj2 (Z.ltb_lt _ _) T1), (proj2 (Z.ltb_lt _ _) Y) in T. cbn [andb] in T.
          apply Z.eqb_neq in T. apply T. rewrite X. apply Z.mod_mul. lia. }
        rewrite V. reflexivity.
      + assert (V : d <= visited (s_iter M s + k) / every).
        { apply Z.div_le_mono; [lia|]. unfold visited. lia. }
        lia.
  Qed.

  Lemma init_ok2 es : Inv2 (init_state es).
  Proof.
    pose proof (proj1 SANE) as S. pose proof (proj2 (proj2 SANE)) as E.
    constructor; cbn; [left; reflexivity|]. destruct (g_adaptive g) as [[every nmax]|]; [|auto].
    assert (visited 0 / every <= 0).
    { pose proof (Z.div_le_mono (visited 0) 0 every ltac:(lia) ltac:(unfold visited; lia)). rewrite Z.div_0_l in * by lia. lia. }
    split; [lia|reflexivity].
  Qed.

  Lemma loop_ok2 vs s : Inv s -> Inv2 s -> within_budget M npoints filt remesh transfer g mesh0 vs s -> progressing vs ->
    Inv2 (loop vs s).
  Proof.
    revert s; induction vs as [|v t IH]; intros s I J W P; [exact J|]. cbn [Optimizer_Model.loop].
    destruct (Z.ltb_spec (s_iter M s) MX) as [L|L]; [|exact J].
    destruct (W L) as [W1 W2].
    assert (K : 1 <= Z.of_nat (List.length (v_points v))).
    { specialize (P v (or_introl eq_refl)). destruct (v_points v); [congruence|cbn; lia]. }
    apply IH; [apply epoch_ok; assumption|apply epoch_ok2; try assumption; lia|exact W2|intros w Hw; apply P; now right].
  Qed.

  Lemma epoch_iter s v : s_iter M (epoch s v) = s_iter M s + Z.of_nat (List.length (v_points v)).
  Proof.
    unfold epoch, Optimizer_Model.adapt. destruct (g_adaptive g) as [[every nmax]|]; [|reflexivity].
    destruct (_ && _); reflexivity.
  Qed.
  Lemma loop_progress vs s : progressing vs -> Z.min MX (s_iter M s + Z.of_nat (List.length vs)) <= s_iter M (loop vs s).
  Proof.
    revert s; induction vs as [|v t IH]; intros s P; [cbn; lia|]. cbn [Optimizer_Model.loop].
    destruct (Z.ltb_spec (s_iter M s) MX) as [L|L]; [|lia].
    etransitivity; [|apply IH; intros w Hw; apply P; now right]. rewrite epoch_iter.
    assert (K : 1 <= Z.of_nat (List.length (v_points v))).
    { specialize (P v (or_introl eq_refl)). destruct (v_points v); [congruence|cbn; lia]. }
    cbn [List.length]. lia.
  Qed.
End Proofs.

(** ** C44 *)
Section Theorems.
  Variable M : Type.
  Variable npoints : M -> nat.
  Variable filt : M -> list Q -> list Q.
  Variable remesh : M -> list Q -> M.
  Variable transfer : list Q -> M -> M -> list Q.
  Variable g : config.
  Variable mesh0 : M.
  Notation run := (run_loop M npoints filt remesh transfer g mesh0).
  Notation start := (init_state M npoints g mesh0).
  Notation obeys := (within_budget M npoints filt remesh transfer g mesh0).

  Lemma run_inv : sane g -> forall es vs s, obeys vs (start es) -> run es vs = Some s -> Inv M npoints g mesh0 s.
  Proof.
    intros S es vs s W H. unfold run_loop in H. destruct (_ && _); [discriminate|]. injection H as <-.
    apply loop_ok; [exact S|apply (init_ok M npoints filt remesh transfer); exact S|exact W].
  Qed.

  (** The budget handed to NLopt is at least 1 (0 would mean "no limit" to NLopt) and
      never goes past max_iter. *)
  Theorem C44_budget :
    sane g -> forall es vs s, obeys vs (start es) -> run es vs = Some s -> s_iter M s < g_max_iter g ->
    1 <= budget M g s <= g_max_iter g - s_iter M s.
  Proof.
    intros S es vs s W H L. pose proof (run_inv S es vs s W H) as I.
    pose proof (inv_iter _ _ _ _ _ I). destruct (budget_pos M npoints filt remesh transfer g mesh0 S s ltac:(lia)) as (B1 & B2 & _). lia.
  Qed.

  (** The objective is evaluated at most max_iter times, and the evaluations are
      numbered 1, 2, 3, ... without gap or repetition across epochs and remeshes. *)
  Theorem C44_evaluations :
    sane g -> forall es vs s, obeys vs (start es) -> run es vs = Some s ->
    exists n, Z.of_nat n <= g_max_iter g /\ s_iter M s = Z.of_nat n /\
    map (number M) (evals M (s_trace M s)) = map Z.of_nat (seq 1 n).
  Proof.
    intros S es vs s W H. pose proof (run_inv S es vs s W H) as I.
    pose proof (inv_iter _ _ _ _ _ I) as B. exists (Z.to_nat (s_iter M s)).
    split; [lia|]. split; [lia|]. exact (inv_num _ _ _ _ _ I).
  Qed.

  (** Evaluation number i is made with the continuation values of iteration i - 1. *)
  Theorem C44_parameters :
    sane g -> forall es vs s, obeys vs (start es) -> run es vs = Some s ->
    forall i ps p b m o, In (Eval M i ps p b m o) (s_trace M s) -> scheduled g (i - 1) ps.
  Proof.
    intros S es vs s W H i ps p b m o E. pose proof (run_inv S es vs s W H) as I.
    pose proof (proj1 (Forall_forall _ _) (inv_good _ _ _ _ _ I) _ E) as G. apply G.
  Qed.

  (** NLopt objects are never stale: the constraints and bounds an evaluation is made
      under belong to the current build and mesh, and the object was created when every
      continuation parameter already had its present value. *)
  Theorem C44_not_stale :
    sane g -> forall es vs s, obeys vs (start es) -> run es vs = Some s ->
    forall i ps p b m o, In (Eval M i ps p b m o) (s_trace M s) ->
    m_build o = b /\ (m_lo o, m_hi o) = mma_bounds g (npoints mesh0) (npoints m) /\
    0 <= m_born o < i /\
    forall c, In c (g_conts g) -> exists v w, value_at c (m_born o) = Some v /\ value_at c (i - 1) = Some w /\ (v == w)%Q.
  Proof.
    intros S es vs s W H i ps p b m o E. pose proof (run_inv S es vs s W H) as I.
    pose proof (proj1 (Forall_forall _ _) (inv_good _ _ _ _ _ I) _ E) as (G1 & _ & G2 & G3 & G4 & G5).
    split; [exact G2|]. split; [exact G3|]. split; [lia|]. intros c Ic.
    pose proof (proj1 (proj2 S) c Ic) as EP. exists (value c (m_born o)), (value c (i - 1)).
    unfold value. rewrite !(value_at_phase c) by exact EP. split; [reflexivity|]. split; [reflexivity|].
    specialize (G5 ltac:(lia) c Ic). unfold value in G5. rewrite !(value_at_phase c) in G5 by exact EP. exact G5.
  Qed.

  (** If every call of optimize evaluates at least once, the loop ends after at most
      max_iter epochs, having used the budget exactly. *)
  Theorem C44_terminates :
    sane g -> forall es vs, obeys vs (start es) -> progressing vs -> g_max_iter g <= Z.of_nat (List.length vs) ->
    exists s, run es vs = Some s /\ s_iter M s = g_max_iter g.
  Proof.
    intros S es vs W P L. unfold run_loop. rewrite (bad_period_sane M npoints filt remesh transfer g mesh0 S), andb_false_r.
    eexists; split; [reflexivity|].
    pose proof (loop_ok M npoints filt remesh transfer g mesh0 S vs _ (init_ok M npoints filt remesh transfer g mesh0 S es) W) as I.
    pose proof (inv_iter _ _ _ _ _ I). pose proof (loop_progress M npoints filt remesh transfer g mesh0 vs (start es) P) as Q.
    change (s_iter M (start es)) with 0 in Q. lia.
  Qed.

  (** Remeshing happens exactly at adapt_every, 2 adapt_every, ... : the first
      n_adapts_max multiples that are below max_iter, and never otherwise. *)
  Theorem C44_remesh :
    sane g -> forall es vs s, obeys vs (start es) -> progressing vs -> run es vs = Some s ->
    match g_adaptive g with
    | None => remeshes M (s_trace M s) = []
    | Some (every, nmax) =>
        exists k, remeshes M (s_trace M s) = map (fun j => every * Z.of_nat j) (seq 1 k) /\
        Z.of_nat k <= Z.max 0 nmax /\
        (forall j, (1 <= j)%nat -> Z.of_nat j <= nmax -> every * Z.of_nat j < g_max_iter g ->
           every * Z.of_nat j <= s_iter M s -> (j <= k)%nat)
    end.
  Proof.
    intros S es vs s W P H. pose proof (run_inv S es vs s W H) as I0. unfold run_loop in H.
    destruct (_ && _); [discriminate|]. injection H as <-.
    pose proof (loop_ok2 M npoints filt remesh transfer g mesh0 S vs _ (init_ok M npoints filt remesh transfer g mesh0 S es)
      (init_ok2 M npoints filt remesh transfer g mesh0 S es) W P) as J.
    set (s := Optimizer_Model.loop _ _ _ _ _ _ _ _ _) in *. pose proof (inv_remesh _ _ _ J) as R.
    pose proof (proj2 (proj2 S)) as E.
    destruct (g_adaptive g) as [[every nmax]|]; [|apply R]. destruct R as [R1 R2].
    exists (Z.to_nat (s_adapts M s)). split; [|split].
    - rewrite R2. unfold Zseq. rewrite map_map. reflexivity.
    - rewrite R1. lia.
    - intros j J1 J2 J3 J4. rewrite R1.
      assert (Z.of_nat j <= visited g (s_iter M s) / every); [|lia].
      apply Z.div_le_lower_bound; [lia|]. unfold visited. lia.
  Qed.

  (** The objective and constraint values reported at the end use the continuation
      values of the last iteration. *)
  Theorem C44_final_parameters :
    sane g -> forall es vs s, obeys vs (start es) -> progressing vs -> run es vs = Some s ->
    (0 < s_iter M s -> scheduled g (s_iter M s - 1) (s_params M s)) /\
    (s_iter M s = 0 -> vs = [] \/ g_max_iter g = 0).
  Proof.
    intros S es vs s W P H. pose proof (run_inv S es vs s W H) as I0. unfold run_loop in H.
    destruct (_ && _); [discriminate|]. injection H as <-.
    pose proof (loop_ok2 M npoints filt remesh transfer g mesh0 S vs _ (init_ok M npoints filt remesh transfer g mesh0 S es)
      (init_ok2 M npoints filt remesh transfer g mesh0 S es) W P) as J.
    split.
    - intros L. destruct (inv_params _ _ _ J) as [Z0|G]; [lia|exact G].
    - intros Z0. pose proof (loop_progress M npoints filt remesh transfer g mesh0 vs (start es) P) as Q.
      destruct vs as [|v t]; [left; reflexivity|right]. pose proof (proj1 S).
      change (s_iter M (start es)) with 0 in Q. cbn [List.length] in Q. lia.
  Qed.
End Theorems.
Print Assumptions C44_budget.
Print Assumptions C44_evaluations.
Print Assumptions C44_parameters.
Print Assumptions C44_not_stale.
Print Assumptions C44_terminates.
Print Assumptions C44_remesh.
Print Assumptions C44_final_parameters.

(** ** Passive design variables *)
(** A point within the bounds of an NLopt object. *)
Definition in_box (o : mma) (p : list Q) : Prop :=
  forall i, (i < List.length (m_lo o))%nat -> (nth i (m_lo o) 0 <= nth i p 0 <= nth i (m_hi o) 0)%Q.

Lemma put_length idx : forall l v, List.length (put l idx v) = List.length l.
Proof. unfold put. induction idx as [|i t IH]; intros l v; [reflexivity|]. cbn. rewrite IH. apply upd_length. Qed.
Lemma put_in idx : forall l v i, In i idx -> (i < List.length l)%nat -> nth i (put l idx v) 0%Q = v.
Proof.
  unfold put. induction idx as [|j t IH]; intros l v i I L; [destruct I|]. cbn [fold_left].
  destruct (in_dec Nat.eq_dec i t) as [T|T]; [apply IH; [exact T|rewrite upd_length; exact L]|].
  destruct I as [->|I]; [|contradiction].
  clear IH. assert (G : forall l, (i < List.length l)%nat -> nth i (fold_left (fun l k => upd l k v) t l) 0%Q = nth i l 0%Q).
  { clear l L. induction t as [|k t IHt]; intros l L; [reflexivity|]. cbn [fold_left].
    rewrite IHt; [|intros X; apply T; now right|rewrite upd_length; exact L].
    rewrite nth_upd. destruct (Nat.eqb_spec k i); [subst; exfalso; apply T; now left|reflexivity]. }
  rewrite G by (rewrite upd_length; exact L). rewrite nth_upd, Nat.eqb_refl. cbn.
  rewrite (proj2 (Nat.ltb_lt _ _) L). reflexivity.
Qed.
Lemma put_out idx : forall l v i, ~ In i idx -> nth i (put l idx v) 0%Q = nth i l 0%Q.
Proof.
  unfold put. induction idx as [|j t IH]; intros l v i I; [reflexivity|]. cbn [fold_left].
  rewrite IH by (intros X; apply I; now right). rewrite nth_upd.
  destruct (Nat.eqb_spec j i); [subst; exfalso; apply I; now left|reflexivity].
Qed.
Lemma nth_repeat_lt (v : Q) n i : (i < n)%nat -> nth i (repeat v n) 0%Q = v.
Proof. revert i; induction n as [|n IH]; intros [|i] H; cbn; try lia; auto. apply IH. lia. Qed.

Lemma mma_bounds_length g n0 n : List.length (fst (mma_bounds g n0 n)) = n /\ List.length (snd (mma_bounds g n0 n)) = n.
Proof. unfold mma_bounds. destruct (Nat.eqb n n0); cbn [fst snd]; rewrite ?put_length, !repeat_length; auto. Qed.

(** Every point NLopt evaluates within its bounds, on a mesh with the node count of the
    initial one, has the void variables at the lower bound, the solid ones at 1 and the
    others within rho_bounds. *)
Theorem C44_passive :
  forall M npoints filt remesh transfer g (mesh0 : M),
  sane g ->
  (forall i, In i (g_solid g) -> (i < npoints mesh0)%nat) -> (forall i, In i (g_void g) -> (i < npoints mesh0)%nat) ->
  forall es vs s, within_budget M npoints filt remesh transfer g mesh0 vs (init_state M npoints g mesh0 es) ->
  run_loop M npoints filt remesh transfer g mesh0 es vs = Some s ->
  forall i ps p b m o, In (Eval M i ps p b m o) (s_trace M s) -> npoints m = npoints mesh0 -> in_box o p ->
  (forall k, In k (g_void g) -> (nth k p 0 == fst (g_bounds g))%Q) /\
  (forall k, In k (g_solid g) -> ~ In k (g_void g) -> (nth k p 0 == 1)%Q) /\
  (forall k, (k < npoints mesh0)%nat -> ~ In k (g_solid g) -> ~ In k (g_void g) ->
     (fst (g_bounds g) <= nth k p 0 <= snd (g_bounds g))%Q).
Proof.
  intros M npoints filt remesh transfer g mesh0 S HS HV es vs s W H i ps p b m o E N B.
  destruct (C44_not_stale M npoints filt remesh transfer g mesh0 S es vs s W H i ps p b m o E) as (_ & Bd & _).
  rewrite N in Bd. unfold mma_bounds in Bd. rewrite Nat.eqb_refl in Bd. injection Bd as Lo Hi.
  unfold in_box in B. rewrite Lo, Hi in B. rewrite !put_length, repeat_length in B.
  split; [|split].
  - intros k K. pose proof (HV k K) as L. specialize (B k L).
    rewrite !(put_in (g_void g)) in B by (rewrite ?put_length, ?repeat_length; assumption). lra.
  - intros k K NV. pose proof (HS k K) as L. specialize (B k L).
    rewrite !(put_out (g_void g)), !(put_in (g_solid g)) in B by (rewrite ?put_length, ?repeat_length; assumption). lra.
  - intros k L NS NV. specialize (B k L).
    rewrite !(put_out (g_void g)), !(put_out (g_solid g)), !nth_repeat_lt in B by assumption. exact B.
Qed.
Print Assumptions C44_passive.

(** The documentation says the indices are ignored after a remesh changes the node
    count.  After a remesh that moves the nodes but keeps their number they stay in force
    on the new mesh, whose nodes they do not refer to. *)
Theorem C44_passive_stale_refuted :
  exists (M : Type) (npoints : M -> nat) filt remesh transfer g mesh0 vs s i ps p b m o,
  sane g /\ within_budget M npoints filt remesh transfer g mesh0 vs (init_state M npoints g mesh0 []) /\
  run_loop M npoints filt remesh transfer g mesh0 [] vs = Some s /\
  In (Eval M i ps p b m o) (s_trace M s) /\ m <> mesh0 /\ b <> 0%nat /\
  In 0%nat (g_solid g) /\ nth 0 (m_lo o) 0%Q = 1%Q /\ nth 0 (m_hi o) 0%Q = 1%Q.
Proof.
  set (g := Config 2 [] (Some (1, 1)) (1 # 10, 1)%Q None [0%nat] []).
  set (vs := [Move [[1; 1 # 2]%Q] (Some [1; 1 # 2]%Q); Move [[1; 1 # 3]%Q] (Some [1; 1 # 3]%Q)]).
  exists bool, (fun _ => 2%nat), (fun _ x => x), (fun m _ => negb m), (fun x _ _ => x), g, true, vs.
  do 7 eexists. split; [repeat split; cbn; try lia; intros c []|].
  split; [intros _; split; [vm_compute; congruence|]; intros _; split; [vm_compute; congruence|exact I]|].
  split; [reflexivity|]. split; [right; right; left; reflexivity|]. cbn.
  repeat split; auto; congruence.
Qed.
Print Assumptions C44_passive_stale_refuted.

(** ** The returned design *)
(** Without remeshing: each optimize call that returns sets the design; one that raises
    RoundoffLimited leaves it as it was when the call started. *)
Theorem C44_returned_design :
  forall M npoints filt remesh transfer g (mesh0 : M) es vs v s s',
  g_adaptive g = None ->
  run_loop M npoints filt remesh transfer g mesh0 es vs = Some s -> s_iter M s < g_max_iter g ->
  run_loop M npoints filt remesh transfer g mesh0 es (vs ++ [v]) = Some s' ->
  s_x M s' = match v_result v with Some x => x | None => s_x M s end.
Proof.
  intros M npoints filt remesh transfer g mesh0 es vs v s s' A H L H'. unfold run_loop in *.
  destruct (_ && _); [discriminate|]. injection H as <-. injection H' as <-.
  revert L. generalize (init_state M npoints g mesh0 es). induction vs as [|w t IH]; intros s; cbn [loop app].
  - intros L. rewrite (proj2 (Z.ltb_lt _ _) L). unfold epoch, adapt. rewrite A. reflexivity.
  - destruct (Z.ltb_spec (s_iter M s) (g_max_iter g)) as [X|X]; [apply IH|lia].
Qed.
Print Assumptions C44_returned_design.

(** Consequence: when NLopt stops with RoundoffLimited -- reported as "converged" -- all
    progress of the call is lost, and run can return the initial design although NLopt
    evaluated better ones. *)
Theorem C44_roundoff_discards_refuted :
  exists (M : Type) (npoints : M -> nat) filt remesh transfer g mesh0 vs s p,
  sane g /\ within_budget M npoints filt remesh transfer g mesh0 vs (init_state M npoints g mesh0 []) /\
  progressing vs /\ run_loop M npoints filt remesh transfer g mesh0 [] vs = Some s /\ s_iter M s = g_max_iter g /\
  (exists i ps b m o, In (Eval M i ps p b m o) (s_trace M s)) /\ p <> start_design g [] (npoints mesh0) /\
  s_x M s = start_design g [] (npoints mesh0).
Proof.
  set (g := Config 2 [] None (1 # 10, 1)%Q None [] []).
  set (vs := [Move [[1 # 2]; [1 # 4]]%Q None]).
  exists unit, (fun _ => 1%nat), (fun _ x => x), (fun m _ => m), (fun x _ _ => x), g, tt, vs.
  eexists. exists [1 # 4]%Q. split; [repeat split; cbn; try lia; intros c []|].
  split; [intros _; split; [vm_compute; congruence|exact I]|].
  split; [intros v [<-|[]]; discriminate|]. split; [reflexivity|]. split; [reflexivity|].
  split; [do 5 eexists; right; left; reflexivity|]. split; [vm_compute; congruence|reflexivity].
Qed.
Print Assumptions C44_roundoff_discards_refuted.

(** If NLopt may return without evaluating, the loop need not end. *)
Theorem C44_stall_refuted :
  exists (M : Type) (npoints : M -> nat) filt remesh transfer g mesh0, sane g /\
  forall n, exists vs s, List.length vs = n /\
  within_budget M npoints filt remesh transfer g mesh0 vs (init_state M npoints g mesh0 []) /\
  run_loop M npoints filt remesh transfer g mesh0 [] vs = Some s /\ s_iter M s < g_max_iter g.
Proof.
  set (g := Config 2 [] None (1 # 10, 1)%Q None [] []).
  exists unit, (fun _ => 1%nat), (fun _ x => x), (fun m _ => m), (fun x _ _ => x), g, tt.
  split; [repeat split; cbn; try lia; intros c []|]. intros n. exists (repeat (Move [] None) n). eexists.
  split; [apply repeat_length|].
  assert (G : forall n s, s_iter unit s = 0 ->
    within_budget unit (fun _ => 1%nat) (fun _ x => x) (fun m _ => m) (fun x _ _ => x) g tt (repeat (Move [] None) n) s /\
    s_iter unit (loop unit (fun _ => 1%nat) (fun _ x => x) (fun m _ => m) (fun x _ _ => x) g tt (repeat (Move [] None) n) s) = 0).
  { clear n. induction n as [|n IH]; intros s Z0; [split; [exact I|exact Z0]|]. cbn [repeat within_budget loop].
    rewrite Z0. cbn [g_max_iter g Z.ltb Z.compare].
    destruct (IH (epoch unit (fun _ => 1%nat) (fun _ x => x) (fun m _ => m) (fun x _ _ => x) g tt s (Move [] None))) as [W L].
    { rewrite epoch_iter, Z0. reflexivity. }
    split; [|exact L]. intros _. split; [|exact W]. unfold budget. rewrite Z0. cbn. lia. }
  destruct (G n (init_state unit (fun _ => 1%nat) g tt []) eq_refl) as [W L].
  split; [exact W|]. split; [reflexivity|]. rewrite L. reflexivity.
Qed.
Print Assumptions C44_stall_refuted.

(** A zero period raises as soon as the loop is entered. *)
Theorem C44_zero_period :
  forall M npoints filt remesh transfer g (mesh0 : M) es vs,
  0 < g_max_iter g ->
  (exists c, In c (g_conts g) /\ c_every c = 0) \/ (exists nmax, g_adaptive g = Some (0, nmax) /\ 0 < nmax) ->
  run_loop M npoints filt remesh transfer g mesh0 es vs = None.
Proof.
  intros M npoints filt remesh transfer g mesh0 es vs P H. unfold run_loop. rewrite (proj2 (Z.ltb_lt _ _) P).
  assert (B : bad_period g = true); [|now rewrite B]. unfold bad_period. apply orb_true_iff.
  destruct H as [(c & I & E)|(nmax & A & N)].
  - left. apply existsb_exists. exists c. split; [exact I|]. rewrite E. reflexivity.
  - right. rewrite A. cbn. now apply Z.ltb_lt.
Qed.
Print Assumptions C44_zero_period.

(** A run with a continuation (1 -> 3 every 2 iterations) and one remesh at iteration 3:
    NLopt's budgets are 2, 1, 1, 2. *)
Example C44_example :
  let g := Config 6 [Cont 1 3 2 1] (Some (3, 1)) (1 # 10, 1)%Q None [] [] in
  let np := fun m : nat => m in
  let mv := fun k => Move (repeat [] k) (Some []) in
  let vs := [mv 2%nat; mv 1%nat; mv 1%nat; mv 2%nat] in
  sane g /\ progressing vs /\
  within_budget nat np (fun _ x => x) (fun m _ => S m) (fun x _ _ => x) g 4%nat vs (init_state nat np g 4%nat []) /\
  exists s, run_loop nat np (fun _ x => x) (fun m _ => S m) (fun x _ _ => x) g 4%nat [] vs = Some s /\
  s_iter nat s = 6 /\ remeshes nat (s_trace nat s) = [3] /\ s_mesh nat s = 5%nat.
Proof.
  cbv zeta. split; [repeat split; cbn; try lia; intros c [<-|[]]; cbn; lia|].
  split; [intros v [<-|[<-|[<-|[<-|[]]]]]; discriminate|]. split.
  - do 4 (intros _; split; [vm_compute; congruence|]). exact I.
  - eexists. split; [reflexivity|]. vm_compute. auto.
Qed.
