(** C96: when the rebuilding multigrid Newton solve refreshes its hierarchy. *)
From Coq Require Import QArith Qabs ZArith Bool List Lia Lqa.
From Verif Require Import Num_Model Newton_Model Newton_Spec Newton_Props AmgLag_Model.
Import ListNotations.
Open Scope Q_scope.

Section Lag.
  Context (T H : Type).
  Context (res : list Q -> resid) (tangent : list Q -> T) (build : T -> H).
  Context (ksolve : H -> T -> list Q -> list Q) (lin_norm : T -> list Q -> list Q -> num).
  Context (o : newton_opts) (lag_tol : Q).
  Definition norm (s : list Q) : num := r_norm (res s).
  (** [b] is the first trial along [du] from [a] with a smaller norm. *)
  Definition first_decrease (a du b : list Q) : Prop :=
    exists k, (k < o_backtracks o)%nat /\ b = axpy a (step_length (o_rho o) k) du /\
      nlt (norm b) (norm a) = true /\
      forall i, (i < k)%nat -> nlt (norm (axpy a (step_length (o_rho o) i) du)) (norm a) = false.
  Definition no_decrease (a du : list Q) : Prop :=
    forall k, (k < o_backtracks o)%nat -> nlt (norm (axpy a (step_length (o_rho o) k) du)) (norm a) = false.
  (** The [j]-th iterate of a run: the point of the [j]-th pass, or the result. *)
  Definition sol_at (r : run H) (j : nat) : list Q :=
    match nth_error (a_trace r) j with Some e => e_sol e | None => h_sol (a_out r) end.
  Definition prev (t : list (event H)) (M : option H) (j : nat) : option H :=
    match j with O => M | S i => option_map (fun e => l_hier (e_step e)) (nth_error t i) end.
  Definition built (e : event H) : bool := l_built (e_step e).

  Lemma amg_inv : forall p init todo it sol M nb lst,
    let r := amg_loop res tangent build ksolve lin_norm p lag_tol o init todo it sol (norm sol) M nb it lst in
    let t := a_trace r in let h := a_out r in
    (forall j e, nth_error t j = Some e ->
       e_step e = lin_stage res tangent build ksolve lin_norm p lag_tol (it + j) (prev t M j) (e_sol e)) /\
    (h_rn h = norm (h_sol h) /\ (it <= h_steps h)%nat /\ (h_steps h - it <= length t)%nat /\
     (length t <= S (h_steps h - it))%nat /\ (length t <= todo)%nat) /\
    (sol_at r 0 = sol /\ sol_at r (h_steps h - it) = h_sol h) /\
    (forall j e, (j < h_steps h - it)%nat -> nth_error t j = Some e ->
       first_decrease (e_sol e) (l_du (e_step e)) (sol_at r (S j))) /\
    (h_steps h = (it + todo)%nat \/ nlt (norm (h_sol h)) (Fin (o_tol o)) = true \/
     (h_steps h <> 0%nat /\ nlt (ndiv_pos (norm (h_sol h)) (nadd init (Fin tiny))) (Fin (o_rel_tol o)) = true) \/
     (exists e, nth_error t (h_steps h - it) = Some e /\ no_decrease (h_sol h) (l_du (e_step e)))) /\
    a_builds r = (nb + length (filter built t))%nat.
  Proof.
    intros p init. induction todo as [|todo IH]; intros it sol M nb lst r t h.
    - subst r t h. cbn. repeat split; try lia; auto; try (intros [|?] ? E; discriminate).
      unfold sol_at. cbn. destruct (it - it)%nat; reflexivity.
    - subst r t h. cbn [amg_loop].
      destruct (nlt (norm sol) (Fin (o_tol o))) eqn:E1.
      { cbn. unfold sol_at. cbn. repeat split; try lia; auto; try (intros [|?] ? E; discriminate).
        destruct (it - it)%nat; reflexivity. }
      destruct (negb (it =? 0) && nlt (ndiv_pos (norm sol) (nadd init (Fin tiny))) (Fin (o_rel_tol o))) eqn:E2.
      { cbn. unfold sol_at. cbn. repeat split; try lia; auto; try (intros [|?] ? E; discriminate).
        - destruct (it - it)%nat; reflexivity.
        - apply andb_true_iff in E2. destruct E2 as [E2 E3]. apply negb_true_iff, Nat.eqb_neq in E2. auto. }
      set (l := lin_stage res tangent build ksolve lin_norm p lag_tol it M sol).
      destruct (C17_simple_search res (o_backtracks o) (o_rho o) sol (l_du l) (norm sol)) as [S1 S2].
      destruct (backtrack res (o_backtracks o) (o_rho o) sol (l_du l) (norm sol) 1) as [[s m]|] eqn:E4.
      + destruct (proj1 (S1 s m) eq_refl) as (k & Hk & Hs & Hm & Hd & Hno). clear S1 S2 E4.
        rewrite <- Hs in Hm. fold (norm s) in Hm. subst m.
        destruct (IH (S it) s (Some (l_hier l)) (if l_built l then S nb else nb) (Some it))
          as (A & (B1 & B2 & B3 & B4 & B5) & (C1 & C2) & D & E & F).
        set (r := amg_loop _ _ _ _ _ _ _ _ _ _ _ _ _ _ _ _ _) in *.
        cbn [a_out a_trace a_builds].
        assert (Sat : forall j, sol_at {| a_out := a_out r; a_trace := {| e_sol := sol; e_step := l |} :: a_trace r;
                                     a_builds := a_builds r |} (S j) = sol_at r j) by (intros; reflexivity).
        split; [|split; [|split; [|split; [|split]]]].
        * intros [|j] e He; cbn [nth_error] in He.
          { inversion He. subst e. cbn. rewrite Nat.add_0_r. reflexivity. }
          rewrite (A j e He). replace (it + S j)%nat with (S it + j)%nat by lia. f_equal.
          destruct j as [|j]; reflexivity.
        * cbn [length]. repeat split; try lia. exact B1.
        * split; [reflexivity|]. replace (h_steps (a_out r) - it)%nat with (S (h_steps (a_out r) - S it)) by lia.
          rewrite Sat. exact C2.
        * intros [|j] e Hj He; cbn [nth_error] in He.
          { inversion He. subst e. cbn [e_sol e_step]. rewrite Sat, C1. exists k. rewrite Hs. repeat split; auto. }
          rewrite Sat. apply D; [lia|exact He].
        * destruct E as [E|[E|[E|(e & E & N)]]]; [left; lia|auto|auto|].
          right. right. right. exists e. split; [|exact N].
          replace (h_steps (a_out r) - it)%nat with (S (h_steps (a_out r) - S it)) by lia. exact E.
        * rewrite F. cbn [filter]. unfold built at 2. cbn [e_step]. destruct (l_built l); cbn [length]; lia.
      + clear S1. cbn [a_out a_trace a_builds h_sol h_rn h_steps]. unfold sol_at. cbn [a_out a_trace h_sol].
        rewrite Nat.sub_diag. cbn [length nth_error e_sol]. repeat split; try lia; auto.
        * intros [|[|j]] e He; cbn [nth_error] in He; try discriminate.
          inversion He. subst e. cbn. rewrite Nat.add_0_r. reflexivity.
        * right. right. right. eexists. split; [reflexivity|]. cbn [e_step]. exact (proj1 S2 eq_refl).
        * cbn [filter]. unfold built. cbn [e_step]. destruct (l_built l); cbn [length]; lia.
  Qed.
End Lag.
Arguments norm res s : assert. Arguments sol_at {H}. Arguments built {H}.

(** Whatever the rebuild policy: the run visits a sequence of iterates, each obtained
    from the one before by the first decreasing trial along the direction computed
    there; the reported norm is that of the result; at most [max_iter] directions; and
    it stops only for one of the documented reasons. *)
Theorem C96_run :
  forall (T H : Type) res (tangent : list Q -> T) (build : T -> H) ksolve lin_norm p lag_tol o sol0,
  let r := amg_run res tangent build ksolve lin_norm p lag_tol o sol0 in
  let h := a_out r in
  sol_at r 0 = sol0 /\ sol_at r (h_steps h) = h_sol h /\ h_rn h = norm res (h_sol h) /\
  (h_steps h <= length (a_trace r))%nat /\ (length (a_trace r) <= S (h_steps h))%nat /\
  (length (a_trace r) <= o_max_iter o)%nat /\
  (forall j e, (j < h_steps h)%nat -> nth_error (a_trace r) j = Some e ->
     first_decrease res o (e_sol e) (l_du (e_step e)) (sol_at r (S j))) /\
  (h_steps h = o_max_iter o \/ nlt (norm res (h_sol h)) (Fin (o_tol o)) = true \/
   (h_steps h <> 0%nat /\
    nlt (ndiv_pos (norm res (h_sol h)) (nadd (norm res sol0) (Fin tiny))) (Fin (o_rel_tol o)) = true) \/
   (exists e, nth_error (a_trace r) (h_steps h) = Some e /\ no_decrease res o (h_sol h) (l_du (e_step e)))).
Proof.
  intros. destruct (amg_inv T H res tangent build ksolve lin_norm o lag_tol p (norm res sol0) (o_max_iter o) 0 sol0 None 0 None)
    as (A & (B1 & B2 & B3 & B4 & B5) & (C1 & C2) & D & E & F).
  fold (norm res sol0) in r. 
  change (amg_loop res tangent build ksolve lin_norm p lag_tol o (norm res sol0) (o_max_iter o) 0 sol0
             (norm res sol0) None 0 0 None) with r in *.
  fold h in A, B1, B2, B3, B4, B5, C1, C2, D, E, F. rewrite Nat.sub_0_r in *. cbn [Nat.add] in E.
  repeat split; auto.
Qed.
Print Assumptions C96_run.

Lemma run_stage : forall (T H : Type) res (tangent : list Q -> T) (build : T -> H) ksolve lin_norm p lag_tol o sol0 j e,
  let r := amg_run res tangent build ksolve lin_norm p lag_tol o sol0 in
  nth_error (a_trace r) j = Some e ->
  e_step e = lin_stage res tangent build ksolve lin_norm p lag_tol j (prev H (a_trace r) None j) (e_sol e).
Proof.
  intros. destruct (amg_inv T H res tangent build ksolve lin_norm o lag_tol p (norm res sol0) (o_max_iter o) 0 sol0 None 0 None)
    as (A & _). apply (A j e). exact H0.
Qed.
Lemma run_builds : forall (T H : Type) res (tangent : list Q -> T) (build : T -> H) ksolve lin_norm p lag_tol o sol0,
  let r := amg_run res tangent build ksolve lin_norm p lag_tol o sol0 in
  a_builds r = length (filter built (a_trace r)).
Proof.
  intros. destruct (amg_inv T H res tangent build ksolve lin_norm o lag_tol p (norm res sol0) (o_max_iter o) 0 sol0 None 0 None)
    as (_ & _ & _ & _ & _ & F). exact F.
Qed.
Lemma nth_prev : forall (A : Type) (l : list A) j x, nth_error l (S j) = Some x -> exists y, nth_error l j = Some y.
Proof.
  intros A l j x E. destruct (nth_error l j) eqn:N; [eauto|]. exfalso.
  apply nth_error_None in N. assert (nth_error l (S j) <> None) by congruence. apply nth_error_Some in H. lia.
Qed.
Lemma prev_some : forall (H : Type) (t : list (event H)) j y, nth_error t j = Some y ->
  prev H t None (S j) = Some (l_hier (e_step y)).
Proof. intros H t j y E. cbn. rewrite E. reflexivity. Qed.

(** The number of multiples of [k] below [n]. *)
Lemma ceil_step : forall n k, (0 < k)%nat ->
  ((S n + k - 1) / k = (n + k - 1) / k + (if n mod k =? 0 then 1 else 0))%nat.
Proof.
  intros n k Hk. pose proof (Nat.div_mod n k) as D. pose proof (Nat.mod_upper_bound n k).
  set (q := (n / k)%nat) in *. set (m := (n mod k)%nat) in *.
  replace (S n + k - 1)%nat with (m + (q + 1) * k)%nat by nia.
  rewrite Nat.div_add, (Nat.div_small m k) by lia.
  destruct (Nat.eqb_spec m 0) as [E|E].
  - replace (n + k - 1)%nat with (k - 1 + q * k)%nat by nia. rewrite Nat.div_add, (Nat.div_small (k - 1) k) by lia. lia.
  - replace (n + k - 1)%nat with (m - 1 + (q + 1) * k)%nat by nia.
    rewrite Nat.div_add, (Nat.div_small (m - 1) k) by lia. lia.
Qed.
Lemma filter_count : forall (A : Type) (f : A -> bool) (l : list A) k, (0 < k)%nat ->
  (forall j x, nth_error l j = Some x -> f x = (j mod k =? 0)) ->
  length (filter f l) = ((length l + k - 1) / k)%nat.
Proof.
  intros A f l k Hk. induction l as [|x l IH] using rev_ind; intros E.
  - cbn. rewrite Nat.div_small; lia.
  - rewrite filter_app, !app_length. cbn [length filter].
    replace (length l + 1)%nat with (S (length l)) by lia. rewrite ceil_step by exact Hk.
    rewrite IH.
    + rewrite (E (length l) x).
      * destruct (length l mod k =? 0); reflexivity.
      * rewrite nth_error_app2, Nat.sub_diag by lia. reflexivity.
    + intros j y N. apply E. rewrite nth_error_app1; [exact N|].
      apply nth_error_Some. congruence.
Qed.

(** A fixed period [k] (any number other than 0; below 1 means 1): the direction at
    pass [j] is solved with the hierarchy of the tangent at pass [k * (j / k)], so no
    hierarchy is older than [k - 1] passes; one solve per pass; [ceil(passes / k)]
    hierarchies in all. *)
Theorem C96_period :
  forall (T H : Type) res (tangent : list Q -> T) (build : T -> H) ksolve lin_norm (every : Z) lag_tol o sol0,
  rebuilds (Some every) = true ->
  let k := if (every <? 1)%Z then 1%nat else Z.to_nat every in
  let r := amg_run res tangent build ksolve lin_norm (policy_of (Some every)) lag_tol o sol0 in
  (forall j e, nth_error (a_trace r) j = Some e ->
     exists e0, nth_error (a_trace r) (k * (j / k)) = Some e0 /\
       l_du (e_step e) = ksolve (build (tangent (e_sol e0))) (tangent (e_sol e)) (e_sol e) /\
       l_solves (e_step e) = 1%nat /\ (j - k * (j / k) < k)%nat) /\
  a_builds r = ((length (a_trace r) + k - 1) / k)%nat.
Proof.
  intros T H res tangent build ksolve lin_norm every lag_tol o sol0 Hr k r.
  assert (Kp : policy_of (Some every) = Period k).
  { cbn. unfold k. f_equal. destruct (Z.ltb_spec every 1); [rewrite Z.max_l by lia; reflexivity|rewrite Z.max_r by lia; reflexivity]. }
  assert (K0 : (0 < k)%nat).
  { unfold k. destruct (Z.ltb_spec every 1); lia. }
  clearbody k. unfold r in *. clear r. rewrite Kp. set (r := amg_run _ _ _ _ _ _ _ _ _).
  assert (St : forall j e, nth_error (a_trace r) j = Some e ->
     e_step e = lin_stage res tangent build ksolve lin_norm (Period k) lag_tol j (prev H (a_trace r) None j) (e_sol e))
    by (intros j e; apply run_stage).
  assert (Blt : forall j e, nth_error (a_trace r) j = Some e -> built e = (j mod k =? 0)).
  { intros j e He. unfold built. rewrite (St j e He). destruct j as [|j].
    - cbn. rewrite Nat.mod_0_l by lia. reflexivity.
    - destruct (nth_prev _ _ _ _ He) as (y & Hy). rewrite (prev_some _ _ _ _ Hy). unfold lin_stage.
      destruct (S j mod k =? 0); reflexivity. }
  assert (Hi : forall j e, nth_error (a_trace r) j = Some e ->
     exists e0, nth_error (a_trace r) (k * (j / k)) = Some e0 /\ l_hier (e_step e) = build (tangent (e_sol e0)) /\
       l_du (e_step e) = ksolve (l_hier (e_step e)) (tangent (e_sol e)) (e_sol e) /\ l_solves (e_step e) = 1%nat).
  { induction j as [|j IH]; intros e He.
    - exists e. rewrite Nat.div_0_l, Nat.mul_0_r by lia. split; [exact He|]. rewrite (St 0%nat e He). cbn. auto.
    - destruct (nth_prev _ _ _ _ He) as (y & Hy). pose proof (St _ _ He) as E.
      rewrite (prev_some _ _ _ _ Hy) in E. unfold lin_stage in E.
      destruct (Nat.eqb_spec (S j mod k) 0) as [Em|Em].
      + exists e. split.
        * pose proof (Nat.div_mod (S j) k). replace (k * (S j / k))%nat with (S j) by lia. exact He.
        * rewrite E. cbn. auto.
      + destruct (IH y Hy) as (e0 & N0 & B0 & _). exists e0.
        assert (Dv : (S j / k = j / k)%nat).
        { pose proof (Nat.div_mod (S j) k). pose proof (Nat.mod_upper_bound (S j) k).
          apply (Nat.div_unique j k (S j / k) (S j mod k - 1)); lia. }
        rewrite Dv. split; [exact N0|]. rewrite E. cbn. auto. }
  split.
  - intros j e He. destruct (Hi j e He) as (e0 & N0 & B0 & D0 & S0). exists e0. rewrite D0, B0, S0.
    repeat split; auto. pose proof (Nat.div_mod j k). pose proof (Nat.mod_upper_bound j k). lia.
  - unfold r. rewrite run_builds. apply filter_count; assumption.
Qed.
Print Assumptions C96_period.

(** Adaptive lag: every direction used is solved with the hierarchy of the last pass
    that built one; an older hierarchy is kept only if its linear residual did not
    exceed [lag_tol]; after the first pass a hierarchy is built only if the one at hand
    did exceed it. The first pass builds; a rebuild costs one extra Krylov solve and
    nothing else does. *)
Theorem C96_adaptive :
  forall (T H : Type) res (tangent : list Q -> T) (build : T -> H) ksolve lin_norm lag_tol o sol0,
  rebuilds None = true /\
  let r := amg_run res tangent build ksolve lin_norm (policy_of None) lag_tol o sol0 in
  let t := a_trace r in
  let lagged e0 e := ksolve (build (tangent (e_sol e0))) (tangent (e_sol e)) (e_sol e) in
  let lin_res s du := ndiv_pos (lin_norm (tangent s) s du) (nadd (norm res s) (Fin tiny)) in
  let exceeds e0 e := nlt (Fin lag_tol) (lin_res (e_sol e) (lagged e0 e)) in
  (forall j e, nth_error t j = Some e ->
     exists i e0, (i <= j)%nat /\ nth_error t i = Some e0 /\ built e0 = true /\
       (forall m em, (i < m <= j)%nat -> nth_error t m = Some em -> built em = false) /\
       l_du (e_step e) = lagged e0 e /\ ((i < j)%nat -> exceeds e0 e = false)) /\
  (forall e, nth_error t 0 = Some e -> built e = true) /\
  (forall j e, nth_error t (S j) = Some e -> built e = true ->
     exists i e0, (i <= j)%nat /\ nth_error t i = Some e0 /\ built e0 = true /\
       (forall m em, (i < m <= j)%nat -> nth_error t m = Some em -> built em = false) /\
       exceeds e0 e = true) /\
  a_builds r = length (filter built t) /\
  (t <> [] -> (list_sum (map (fun e => l_solves (e_step e)) t) + 1 = length t + a_builds r)%nat).
Proof.
  intros T H res tangent build ksolve lin_norm lag_tol o sol0. split; [reflexivity|]. intros r t lagged lres exceeds.
  assert (St : forall j e, nth_error t j = Some e ->
     e_step e = lin_stage res tangent build ksolve lin_norm Adaptive lag_tol j (prev H t None j) (e_sol e))
    by (intros j e; apply run_stage).
  assert (Hi : forall j e, nth_error t j = Some e ->
     exists i e0, (i <= j)%nat /\ nth_error t i = Some e0 /\ built e0 = true /\
       (forall m em, (i < m <= j)%nat -> nth_error t m = Some em -> built em = false) /\
       l_hier (e_step e) = build (tangent (e_sol e0)) /\
       l_du (e_step e) = lagged e0 e /\ ((i < j)%nat -> exceeds e0 e = false)).
  { induction j as [|j IH]; intros e He.
    - exists 0%nat, e. unfold built. rewrite (St 0%nat e He). cbn. repeat split; auto; try lia.
    - destruct (nth_prev _ _ _ _ He) as (y & Hy). pose proof (St _ _ He) as E.
      rewrite (prev_some _ _ _ _ Hy) in E. cbn [lin_stage] in E.
      destruct (IH y Hy) as (i & e0 & Hij & N0 & B0 & Bm & H0 & D0 & X0).
      rewrite H0 in E. fold (lagged e0 e) in E.
      destruct (nlt (Fin lag_tol) (AmgLag_Model.lin_res res tangent lin_norm (e_sol e) (lagged e0 e))) eqn:X.
      + exists (S j), e. unfold built. rewrite E. cbn. repeat split; auto; try lia.
      + exists i, e0. rewrite E. cbn. repeat split; auto; try lia.
        intros m em Hm Hem. destruct (Nat.eq_dec m (S j)) as [->|Hne].
        * rewrite He in Hem. inversion Hem. subst em. unfold built. rewrite E. reflexivity.
        * apply (Bm m em); [lia|exact Hem]. }
  split; [|split; [|split; [|split]]].
  - intros j e He. destruct (Hi j e He) as (i & e0 & A & B & C & D & _ & F & G). exists i, e0. auto 8.
  - intros e He. unfold built. rewrite (St 0%nat e He). reflexivity.
  - intros j e He Hb. destruct (nth_prev _ _ _ _ He) as (y & Hy). pose proof (St _ _ He) as E.
    rewrite (prev_some _ _ _ _ Hy) in E. cbn [lin_stage] in E.
    destruct (Hi j y Hy) as (i & e0 & Hij & N0 & B0 & Bm & H0 & _).
    exists i, e0. repeat split; auto. unfold exceeds. 
    rewrite H0 in E. fold (lagged e0 e) in E.
    destruct (nlt (Fin lag_tol) (AmgLag_Model.lin_res res tangent lin_norm (e_sol e) (lagged e0 e))) eqn:X; [exact X|].
    exfalso. unfold built in Hb. rewrite E in Hb. discriminate.
  - apply run_builds.
  - intros Hne. unfold r. rewrite run_builds. fold r. fold t.
    assert (S0 : forall e, nth_error t 0 = Some e -> l_solves (e_step e) = 1%nat /\ built e = true).
    { intros e He. unfold built. rewrite (St 0%nat e He). auto. }
    assert (S1 : forall j e, nth_error t (S j) = Some e -> l_solves (e_step e) = (if built e then 2 else 1)%nat).
    { intros j e He. unfold built. rewrite (St _ e He). destruct (nth_prev _ _ _ _ He) as (y & Hy).
      rewrite (prev_some _ _ _ _ Hy). cbn [lin_stage]. destruct (nlt _ _); reflexivity. }
    destruct t as [|e t']; [congruence|]. destruct (S0 e eq_refl) as [Sa Sb].
    assert (L : forall l : list (event H),
       (forall j x, nth_error l j = Some x -> l_solves (e_step x) = (if built x then 2 else 1)%nat) ->
       (list_sum (map (fun x => l_solves (e_step x)) l) = length l + length (filter built l))%nat).
    { induction l as [|x l IHl]; intros Hl; [reflexivity|].
      assert (IHl' := IHl (fun j y Hy => Hl (S j) y Hy)).
      pose proof (Hl 0%nat x eq_refl) as Hx. unfold list_sum in *. cbn [map fold_right filter length].
      rewrite IHl', Hx. destruct (built x); cbn [length]; lia. }
    pose proof (L t' (fun j x Hx => S1 j x Hx)) as Lt. unfold list_sum in *.
    cbn [map fold_right filter length]. rewrite Sa, Sb, Lt. cbn [length]. lia.
Qed.
Print Assumptions C96_adaptive.

Lemma not_above : forall (q : Q) x, x <> NaN -> nlt (Fin q) x = false -> nle x (Fin q) = true.
Proof.
  intros q [ | | |y] Hn E; try congruence; try reflexivity; try discriminate.
  cbn in *. destruct (Qle_bool y q) eqn:L; [reflexivity|]. discriminate.
Qed.

(** Adaptive lag, what it is for: if a solve with the hierarchy of its own tangent
    always meets [lag_tol] and linear residuals are numbers, every direction the loop
    steps along meets [lag_tol]. *)
Theorem C96_accuracy :
  forall (T H : Type) res (tangent : list Q -> T) (build : T -> H) ksolve lin_norm lag_tol o sol0,
  let lin_res s du := ndiv_pos (lin_norm (tangent s) s du) (nadd (norm res s) (Fin tiny)) in
  (forall s, nle (lin_res s (ksolve (build (tangent s)) (tangent s) s)) (Fin lag_tol) = true) ->
  (forall s du, lin_res s du <> NaN) ->
  forall e, In e (a_trace (amg_run res tangent build ksolve lin_norm (policy_of None) lag_tol o sol0)) ->
  nle (lin_res (e_sol e) (l_du (e_step e))) (Fin lag_tol) = true.
Proof.
  intros T H res tangent build ksolve lin_norm lag_tol o sol0 lres Hf Hn e He.
  destruct (In_nth_error _ _ He) as (j & Hj).
  destruct (C96_adaptive T H res tangent build ksolve lin_norm lag_tol o sol0) as (_ & A & _).
  destruct (A j e Hj) as (i & e0 & Hij & N0 & _ & _ & D & X). rewrite D.
  destruct (Nat.eq_dec i j) as [->|Hne].
  - rewrite Hj in N0. inversion N0. subst e0. apply Hf.
  - apply not_above; [apply Hn|]. apply X. lia.
Qed.
Print Assumptions C96_accuracy.

(** With a linear solver whose answer does not depend on the preconditioner, the
    policy changes nothing: the run returns what the plain loop of C18 returns. *)
Theorem C96_exact :
  forall (T H : Type) res (tangent : list Q -> T) (build : T -> H) ksolve lin_norm p lag_tol o sol0 (dir : list Q -> list Q),
  (forall m s, ksolve m (tangent s) s = dir s) ->
  let r := amg_run res tangent build ksolve lin_norm p lag_tol o sol0 in
  (h_sol (a_out r), h_rn (a_out r), amg_converged res o sol0 r) = amg_solve res dir o sol0 /\
  h_steps (a_out r) = h_steps (host_run res dir (fun _ => false) o sol0).
Proof.
  intros T H res tangent build ksolve lin_norm p lag_tol o sol0 dir Hd r.
  assert (G : forall init todo it sol rn M nb st lst,
    a_out (amg_loop res tangent build ksolve lin_norm p lag_tol o init todo it sol rn M nb st lst) =
    host_loop res dir (fun _ => false) o init todo it sol rn st lst).
  { intros init. induction todo as [|todo IH]; intros; [reflexivity|]. cbn [amg_loop host_loop].
    destruct (nlt _ _); [reflexivity|]. destruct (_ && _); [reflexivity|].
    assert (L : l_du (lin_stage res tangent build ksolve lin_norm p lag_tol it M sol) = dir sol).
    { unfold lin_stage. destruct M as [m|]; [|apply Hd]. destruct p as [|k].
      - destruct (nlt _ _); apply Hd.
      - destruct (_ =? _); apply Hd. }
    rewrite L. destruct (backtrack _ _ _ _ _ _ _) as [[s n]|]; [|reflexivity]. apply IH. }
  unfold r, amg_run, amg_converged, amg_solve, host_run. cbn zeta. rewrite G. auto.
Qed.
Print Assumptions C96_exact.

(** A one-dimensional problem: norm [|x|] (NaN beyond 100), fresh directions halve the
    iterate. *)
Definition ex_res (s : list Q) : resid :=
  let x := nth 0 s 0 in
  if Qle_bool x 100 then {| r_nan := false; r_norm := Fin (Qabs x) |} else {| r_nan := true; r_norm := NaN |}.
Definition ex_opts : newton_opts :=
  {| o_tol := 1 # 10; o_rel_tol := 1 # 1000; o_max_iter := 10; o_c1 := 1 # 10000; o_rho := 1 # 2;
     o_backtracks := 3; o_raise := false |}.
Definition ex_solve (m : list Q) (J s : list Q) : list Q :=
  let x := nth 0 s 0 in if Qeq_bool (nth 0 m 0) x then [- (x * (1 # 2))] else [1000].
Definition ex_lin (nan : num) (J s du : list Q) : num := if Qeq_bool (nth 0 du 0) 1000 then nan else Fin 0.

(** A lagged solve that breaks down with NaN is not repeated with a fresh hierarchy
    ([nan > lag_tol] is false): the run stops unconverged after one hierarchy, where
    rebuilding in every pass converges, and so does a breakdown that is a number. *)
Theorem C96_nan_refuted :
  exists (res : list Q -> resid) (ksolve : list Q -> list Q -> list Q -> list Q)
         (lin_norm lin_norm' : list Q -> list Q -> list Q -> num) (lag_tol : Q) (o : newton_opts) (sol0 : list Q),
  let run lin p := amg_run res (fun s => s) (fun J => J) ksolve lin p lag_tol o sol0 in
  let r := run lin_norm (policy_of None) in
  amg_converged res o sol0 r = false /\ a_builds r = 1%nat /\ h_steps (a_out r) = 1%nat /\
  (exists e, nth_error (a_trace r) 1 = Some e /\
     lin_norm (e_sol e) (e_sol e) (l_du (e_step e)) = NaN /\ built e = false) /\
  amg_converged res o sol0 (run lin_norm (policy_of (Some 1%Z))) = true /\
  amg_converged res o sol0 (run lin_norm' (policy_of None)) = true /\
  (forall J s du, lin_norm' J s du <> NaN /\ (lin_norm J s du <> NaN -> lin_norm' J s du = lin_norm J s du)).
Proof.
  exists ex_res, ex_solve, (ex_lin NaN), (ex_lin (Fin 7)), (1 # 100), ex_opts, [1].
  cbn zeta. split; [vm_compute; reflexivity|]. split; [vm_compute; reflexivity|].
  split; [vm_compute; reflexivity|].
  split; [eexists; split; [vm_compute; reflexivity|split; vm_compute; reflexivity]|].
  split; [vm_compute; reflexivity|]. split; [vm_compute; reflexivity|].
  intros J s du. unfold ex_lin. destruct (Qeq_bool _ _); split; try discriminate; congruence.
Qed.
Print Assumptions C96_nan_refuted.

(** Concrete runs: four passes; adaptive lag rebuilds in each (the lagged solve is
    useless), period 4 builds once and stops, period -3 is period 1. *)
Example C96_example :
  let run p := amg_run ex_res (fun s => s) (fun J : list Q => J) ex_solve (ex_lin (Fin 7)) p (1 # 100) ex_opts [1] in
  length (a_trace (run (policy_of None))) = 4%nat /\ a_builds (run (policy_of None)) = 4%nat /\
  list_sum (map (fun e => l_solves (e_step e)) (a_trace (run (policy_of None)))) = 7%nat /\
  rebuilds (Some (-3)%Z) = true /\ length (a_trace (run (policy_of (Some (-3)%Z)))) = 4%nat /\
  length (a_trace (run (policy_of (Some 4%Z)))) = 2%nat /\ a_builds (run (policy_of (Some 4%Z))) = 1%nat /\
  amg_converged ex_res ex_opts [1] (run (policy_of (Some 4%Z))) = false /\
  (forall s, nle (ndiv_pos (ex_lin (Fin 0) s s (ex_solve s s s)) (nadd (norm ex_res s) (Fin tiny))) (Fin (1 # 100)) = true \/
             norm ex_res s = NaN).
Proof.
  cbn zeta. do 8 (split; [vm_compute; reflexivity|]). intros s. unfold norm, ex_res.
  destruct (Qle_bool (nth 0 s 0) 100); [left|right; reflexivity].
  unfold ex_solve, ex_lin. destruct (Qeq_bool (nth 0 s 0) (nth 0 s 0)); cbn [nth];
  destruct (Qeq_bool _ _); reflexivity.
Qed.
