(** Property C87: the profiling tools report what was run. *)
From Coq Require Import Reals List Arith Bool String Lia Lra Permutation.
From Verif Require Import Layered_Model Profiler_Model.
Import ListNotations.
Open Scope R_scope.

(** Specification: the [k]-th state, the number of times a name occurs, a clock that never runs backwards. *)
Fixpoint after {A} (f : A -> A) (k : nat) (x : A) : A := match k with O => x | S k => f (after f k x) end.
Definition occurs (name : string) (l : list string) : nat := count_occ string_dec l name.
Definition forward (clk : nat -> R) : Prop := forall a b, (a <= b)%nat -> clk a <= clk b.
Definition count_of (d : counts) (name : string) : nat := match find (fun kc => String.eqb (fst kc) name) d with Some (_, c) => c | None => 0%nat end.

Lemma bump_count name d : forall m, count_of (bump name d) m = (count_of d m + if String.eqb name m then 1 else 0)%nat.
Proof.
  induction d as [|[k c] d IH]; intros m; unfold count_of in *; cbn [bump find fst].
  - destruct (String.eqb name m); reflexivity.
  - destruct (String.eqb k name) eqn:E; cbn [find fst].
    + apply String.eqb_eq in E. subst. destruct (String.eqb name m); [reflexivity|]. rewrite Nat.add_0_r. reflexivity.
    + destruct (String.eqb k m) eqn:E2; [|apply IH]. apply String.eqb_eq in E2. subst. rewrite String.eqb_sym, E. lia.
Qed.
Lemma bump_keys name d : incl (map fst (bump name d)) (name :: map fst d) /\ (NoDup (map fst d) -> NoDup (map fst (bump name d))) /\ list_sum (map snd (bump name d)) = (list_sum (map snd d) + 1)%nat /\ ((forall kc, In kc d -> (0 < snd kc)%nat) -> forall kc, In kc (bump name d) -> (0 < snd kc)%nat).
Proof.
  induction d as [|[k c] d (I1 & I2 & I3 & I4)]; cbn [bump].
  - repeat split; [intros x H; exact H|intros _; constructor; [intros []|constructor]|intros _ kc [<-|[]]; cbn; lia].
  - destruct (String.eqb k name) eqn:E; cbn [map fst snd].
    + apply String.eqb_eq in E. subst. repeat split; [intros x H; right; exact H|auto|unfold list_sum; cbn; lia|intros H kc [<-|H']; [cbn; lia|apply H; right; exact H']].
    + apply String.eqb_neq in E. repeat split.
      * intros x [<-|H]; [right; left; reflexivity|]. destruct (I1 x H) as [<-|H']; [left; reflexivity|right; right; exact H'].
      * intros H. inversion H; subst. constructor; [|auto]. intros H'. destruct (I1 _ H') as [<-|H'']; [congruence|contradiction].
      * change (c + list_sum (map snd (bump name d)) = c + list_sum (map snd d) + 1)%nat. lia.
      * intros H kc [<-|H']; [apply (H (k, c)); left; reflexivity|]. apply I4; [intros; apply H; right; assumption|exact H'].
Qed.
Definition desc (l : counts) : Prop := forall i j d, (i <= j < List.length l)%nat -> (snd (nth j l d) <= snd (nth i l d))%nat.
Lemma place_perm x l : Permutation (place x l) (x :: l).
Proof.
  induction l as [|y l IH]; cbn [place]; [reflexivity|]. destruct (_ <? _)%nat; [reflexivity|]. rewrite IH. apply perm_swap.
Qed.
Inductive sorted_desc : counts -> Prop := sd_nil : sorted_desc [] | sd_cons x l : (forall y, In y l -> (snd y <= snd x)%nat) -> sorted_desc l -> sorted_desc (x :: l).
Lemma place_sorted x l : sorted_desc l -> sorted_desc (place x l).
Proof.
  induction 1 as [|y l H S IH]; cbn [place]; [constructor; [intros ? []|constructor]|]. destruct (_ <? _)%nat eqn:E.
  - apply Nat.ltb_lt in E. constructor; [|constructor; assumption]. intros z [<-|Hz]; [lia|]. specialize (H z Hz). lia.
  - apply Nat.ltb_ge in E. constructor; [|exact IH]. intros z Hz. apply (Permutation_in _ (place_perm x l)) in Hz. destruct Hz as [<-|Hz]; [exact E|apply H; exact Hz].
Qed.
Lemma sort_ok l : sorted_desc (sort_desc l) /\ Permutation (sort_desc l) l.
Proof.
  unfold sort_desc. assert (G : forall l acc, sorted_desc acc -> sorted_desc (fold_left (fun a x => place x a) l acc) /\ Permutation (fold_left (fun a x => place x a) l acc) (l ++ acc)).
  { clear l. induction l as [|x l IH]; intros acc S; cbn [fold_left]; [split; [exact S|reflexivity]|]. destruct (IH (place x acc) (place_sorted x acc S)) as [A B]. split; [exact A|].
    rewrite B, place_perm. symmetry. apply Permutation_middle. }
  destruct (G l [] sd_nil) as [A B]. rewrite app_nil_r in B. auto.
Qed.
(** The primitive count lists every primitive once, with the number of equations that use it, and its counts add up to
    the number of equations; the top entries are the largest. *)
Theorem C87_primitives eqns n :
  let d := count_primitives eqns in
  (forall name, count_of d name = occurs name eqns) /\ NoDup (map fst d) /\ (forall kc, In kc d -> (0 < snd kc)%nat) /\ list_sum (map snd d) = List.length eqns /\
  List.length (top_n d n) = Nat.min n (List.length d) /\ sorted_desc (top_n d n) /\
  exists rest, Permutation (top_n d n ++ rest) d /\ forall x y, In x (top_n d n) -> In y rest -> (snd y <= snd x)%nat.
Proof.
  intros d.
  assert (G : forall l acc, NoDup (map fst acc) -> (forall kc, In kc acc -> (0 < snd kc)%nat) -> let r := fold_left (fun d e => bump e d) l acc in
     (forall name, count_of r name = (count_of acc name + occurs name l)%nat) /\ NoDup (map fst r) /\ (forall kc, In kc r -> (0 < snd kc)%nat) /\ list_sum (map snd r) = (list_sum (map snd acc) + List.length l)%nat).
  { induction l as [|e l IH]; intros acc H P; cbn zeta; cbn [fold_left].
    - repeat split; try assumption; [intros; unfold occurs; cbn; lia|cbn; lia].
    - destruct (bump_keys e acc) as (K1 & K2 & K3 & K4). destruct (IH (bump e acc) (K2 H) (K4 P)) as (A & B & C & D). repeat split; try assumption.
      + intros name. rewrite A, bump_count. unfold occurs. cbn [count_occ]. destruct (string_dec e name) as [->|Hn]; [rewrite String.eqb_refl; lia|].
        apply String.eqb_neq in Hn. rewrite Hn. lia.
      + rewrite D, K3. cbn [List.length]. lia. }
  destruct (G eqns [] (NoDup_nil _) (fun kc H => match H with end)) as (A & B & C & D). destruct (sort_ok d) as [S P].
  split; [exact A|]. split; [exact B|]. split; [exact C|]. split; [exact D|]. split; [unfold top_n; rewrite firstn_length, (Permutation_length P); reflexivity|].
  assert (X : forall k l, sorted_desc l -> sorted_desc (firstn k l) /\ forall x y, In x (firstn k l) -> In y (skipn k l) -> (snd y <= snd x)%nat).
  { induction k as [|k IH]; intros l Sl; [split; [constructor|intros x y []]|]. inversion Sl as [|x l' H1 H2]; subst; [split; [constructor|intros x y []]|]. cbn [firstn skipn].
    destruct (IH l' H2) as [I1 I2]. split; [constructor; [|exact I1]; intros y Hy; apply H1; rewrite <- (firstn_skipn k l'); apply in_or_app; left; exact Hy|].
    intros a b [<-|Ha] Hb; [apply H1; rewrite <- (firstn_skipn k l'); apply in_or_app; right; exact Hb|apply I2; assumption]. }
  destruct (X n _ S) as [X1 X2]. split; [exact X1|]. exists (skipn n (sort_desc d)). split; [unfold top_n; rewrite firstn_skipn; exact P|exact X2].
Qed.
Print Assumptions C87_primitives.

(** The timing block passes the result or the exception on, and records exactly one non-negative time either way; nested blocks fit inside. *)
Theorem C87_profile clk A label (body : nat -> nat * ended A) tick :
  let '(tick', out) := body (tick + 1)%nat in let '(t2, out2, recs) := profile clk label body tick in
  out2 = out /\ t2 = (tick' + 1)%nat /\ map t_label recs = [label] /\ total_s recs = clk tick' - clk tick /\ (forward clk -> (tick < tick')%nat -> 0 <= total_s recs) /\
  (forward clk -> forall a b, (tick <= a <= b)%nat -> (b <= tick')%nat -> clk b - clk a <= total_s recs).
Proof.
  unfold profile. destruct (body (tick + 1)%nat) as [tick' out]. unfold total_s, rsuml. cbn. repeat split.
  - ring.
  - intros F H. specialize (F tick tick' ltac:(lia)). lra.
  - intros F a b H1 H2. pose proof (F tick a ltac:(lia)). pose proof (F b tick' H2). lra.
Qed.
Print Assumptions C87_profile.

Lemma after_comm {A} (f : A -> A) n w : after f n (f w) = f (after f n w).
Proof. induction n as [|n IH]; cbn [after]; [reflexivity|]. rewrite IH. reflexivity. Qed.
(** Timing a function calls it [warmup + n_runs] times, returns the value of the last call, and records [n_runs] labelled
    non-negative times whose sum is at most the time that passed; with no call at all there is nothing to return (the code raises). *)
Theorem C87_time_fn clk W A (fn : W -> W * A) run_label warmup n_runs w tick :
  let next := fun w => fst (fn w) in let total := (warmup + n_runs)%nat in
  (total = 0%nat <-> time_fn clk W A fn run_label warmup n_runs w tick = None) /\
  forall w' a recs, time_fn clk W A fn run_label warmup n_runs w tick = Some (w', a, recs) ->
    w' = after next total w /\ a = snd (fn (after next (total - 1) w)) /\ map t_label recs = map run_label (seq 0 n_runs) /\
    (forward clk -> (forall r, In r recs -> 0 <= t_wall r) /\ total_s recs <= clk (tick + 2 * n_runs)%nat - clk tick).
Proof.
  intros next total.
  assert (Wm : forall n w out, warm W A fn n w out = (after next n w, if (n =? 0)%nat then out else Some (snd (fn (after next (n - 1) w))))).
  { induction n as [|n IH]; intros v out; cbn [warm]; [reflexivity|]. destruct (fn v) as [v1 a] eqn:E. rewrite IH. assert (E1 : next v = v1) by (unfold next; rewrite E; reflexivity).
    rewrite <- E1, after_comm. cbn [after]. f_equal. destruct n as [|n]; cbn [Nat.eqb]; [cbn; rewrite E; reflexivity|]. replace (S n - 1)%nat with n by lia. rewrite after_comm. replace (S (S n) - 1)%nat with (S n) by lia. reflexivity. }
  assert (Tm : forall n i v out t recs, exists new, timed clk W A fn run_label n i v out t recs = (after next n v, (if (n =? 0)%nat then out else Some (snd (fn (after next (n - 1) v)))), (t + 2 * n)%nat, recs ++ new) /\
      map t_label new = map run_label (seq i n) /\ (forward clk -> (forall r, In r new -> 0 <= t_wall r) /\ total_s new <= clk (t + 2 * n)%nat - clk t)).
  { induction n as [|n IH]; intros i v out t recs; cbn [timed].
    - exists []. rewrite app_nil_r, Nat.mul_0_r, Nat.add_0_r. split; [reflexivity|]. split; [reflexivity|]. intros F. split; [intros r []|]. unfold total_s, rsuml. cbn. lra.
    - destruct (fn v) as [v1 a] eqn:E. assert (E1 : next v = v1) by (unfold next; rewrite E; reflexivity).
      destruct (IH (i + 1)%nat v1 (Some a) (t + 2)%nat (recs ++ [{| t_label := run_label i; t_wall := clk (t + 1)%nat - clk t |}])) as (new & H1 & H2 & H3).
      exists ({| t_label := run_label i; t_wall := clk (t + 1)%nat - clk t |} :: new). rewrite H1. split; [|split].
      + rewrite <- E1, after_comm, <- app_assoc. cbn [after app]. replace (t + 2 + 2 * n)%nat with (t + 2 * S n)%nat by lia. f_equal. f_equal. f_equal.
        destruct n as [|n]; cbn [Nat.eqb]; [cbn; rewrite E; reflexivity|]. replace (S n - 1)%nat with n by lia. rewrite after_comm. replace (S (S n) - 1)%nat with (S n) by lia. reflexivity.
      + cbn [map seq t_label]. rewrite H2, Nat.add_1_r. reflexivity.
      + intros F. destruct (H3 F) as [P Q]. pose proof (F t (t + 1)%nat ltac:(lia)) as F1. pose proof (F (t + 1)%nat (t + 2)%nat ltac:(lia)) as F2. split.
        * intros r [<-|Hr]; [cbn; lra|apply P; exact Hr].
        * replace (t + 2 * S n)%nat with (t + 2 + 2 * n)%nat by lia. unfold total_s, rsuml in *. cbn [map fold_right t_wall]. lra. }
  unfold time_fn. rewrite Wm. destruct (Tm n_runs 0%nat (after next warmup w) (if (warmup =? 0)%nat then None else Some (snd (fn (after next (warmup - 1) w)))) tick []) as (new & H1 & H2 & H3). rewrite H1.
  assert (Ad : forall a b v, after next a (after next b v) = after next (a + b) v) by (induction a as [|a IH]; intros b v; cbn [after Nat.add]; [reflexivity|rewrite IH; reflexivity]).
  unfold total. split.
  - split; [intros Z|intros Z]; destruct n_runs as [|m], warmup as [|q]; cbn [Nat.eqb] in *; try lia; try reflexivity; try discriminate.
  - intros w' a recs H. cbn [app] in H.
    assert (X : w' = after next n_runs (after next warmup w) /\ recs = new /\ a = snd (fn (after next (warmup + n_runs - 1) w))).
    { destruct n_runs as [|m]; cbn [Nat.eqb] in H.
      - destruct warmup as [|q]; cbn [Nat.eqb] in H; [discriminate|]. inversion H; subst. rewrite Nat.add_0_r. auto.
      - inversion H; subst. split; [reflexivity|split; [reflexivity|]]. rewrite Ad. f_equal. f_equal. f_equal. lia. }
    destruct X as (-> & -> & ->). rewrite Ad, Nat.add_comm. repeat split; try assumption; apply H3; assumption.
Qed.
Print Assumptions C87_time_fn.

(** The profiled Newton loop: the returned state is the start after [k] updates; it reports convergence exactly when one
    of the first [max_iter] states has a small residual, and then returns the first such state, whose norm is the last one
    recorded. One norm and one time are recorded per pass; the times fit into the total. *)
Theorem C87_newton clk St N (norm : St -> N) small step max_iter s0 tick sol p : profile_newton clk St N norm small step max_iter s0 tick = (sol, p) ->
  exists k, (k <= max_iter)%nat /\ sol = after step k s0 /\ (forall j, (j < k)%nat -> small (norm (after step j s0)) = false) /\
    (p_conv N p = true -> (k < max_iter)%nat /\ small (norm sol) = true /\ p_norms N p = map (fun j => norm (after step j s0)) (seq 0 (k + 1))) /\
    (p_conv N p = false -> k = max_iter /\ p_norms N p = map (fun j => norm (after step j s0)) (seq 0 k)) /\
    (p_conv N p = true <-> exists j, (j < max_iter)%nat /\ small (norm (after step j s0)) = true) /\
    List.length (p_times N p) = List.length (p_norms N p) /\ (List.length (p_norms N p) <= max_iter)%nat /\
    (forward clk -> (forall t, In t (p_times N p) -> 0 <= t) /\ rsuml (p_times N p) <= p_wall N p).
Proof.
  assert (G : forall fuel b t times norms s t' times' norms' c, (forall j, (j < b)%nat -> small (norm (after step j s0)) = false) ->
     norms = map (fun j => norm (after step j s0)) (seq 0 b) ->
     iterate clk St N norm small step fuel (after step b s0) t times norms = (s, t', times', norms', c) ->
     exists k new, (b <= k <= b + fuel)%nat /\ s = after step k s0 /\ (forall j, (j < k)%nat -> small (norm (after step j s0)) = false) /\ times' = times ++ new /\
       (c = true -> (k < b + fuel)%nat /\ small (norm s) = true /\ norms' = map (fun j => norm (after step j s0)) (seq 0 (k + 1)) /\ List.length new = (k + 1 - b)%nat) /\
       (c = false -> k = (b + fuel)%nat /\ norms' = map (fun j => norm (after step j s0)) (seq 0 k) /\ List.length new = (k - b)%nat) /\
       (t <= t')%nat /\ (forward clk -> (forall x, In x new -> 0 <= x) /\ rsuml new <= clk t' - clk t)).
  { induction fuel as [|fuel IH]; intros b t times norms s t' times' norms' c Hs Hn H; cbn [iterate] in H.
    - inversion H; subst. exists b, []. rewrite app_nil_r. repeat split; try lia; try assumption; try discriminate; try (intros ? []); try (cbn; lia). unfold rsuml. cbn. lra.
    - assert (Hn' : norms ++ [norm (after step b s0)] = map (fun j => norm (after step j s0)) (seq 0 (b + 1))) by (rewrite seq_app, map_app, Hn; reflexivity).
      destruct (small (norm (after step b s0))) eqn:E.
      + inversion H; subst. exists b, [clk (t + 1)%nat - clk t]. repeat split; try lia; try assumption; try discriminate; cbn [List.length]; try lia.
        * intros x [<-|[]]. pose proof (H0 t (t + 1)%nat ltac:(lia)). lra.
        * unfold rsuml. cbn. pose proof (H0 (t + 1)%nat (t + 2)%nat ltac:(lia)). lra.
      + replace (step (after step b s0)) with (after step (b + 1) s0) in H by (rewrite Nat.add_1_r; reflexivity).
        apply IH in H; [|intros j Hj; destruct (Nat.eq_dec j b) as [->|Hne]; [exact E|apply Hs; lia]|exact Hn'].
        destruct H as (k & new & K1 & K2 & K3 & K4 & K5 & K6 & K7 & K8). exists k, ((clk (t + 1)%nat - clk t) :: new). split; [lia|]. split; [exact K2|]. split; [exact K3|].
        split; [rewrite K4, <- app_assoc; reflexivity|]. split; [intros Hc; destruct (K5 Hc) as (A & B & C & D); cbn [List.length]; repeat split; try assumption; lia|].
        split; [intros Hc; destruct (K6 Hc) as (A & B & D); cbn [List.length]; repeat split; try assumption; lia|]. split; [lia|].
        intros F. destruct (K8 F) as [P Q]. pose proof (F t (t + 1)%nat ltac:(lia)) as F1. pose proof (F (t + 1)%nat (t + 2)%nat ltac:(lia)) as F2. split; [intros x [<-|Hx]; [lra|apply P; exact Hx]|].
        unfold rsuml in *. cbn [fold_right]. lra. }
  unfold profile_newton. destruct (iterate _ _ _ _ _ _ _ _ _ _ _) as [[[[s t'] times] norms] c] eqn:E. intros H. inversion H; subst. clear H.
  apply (G max_iter 0%nat (tick + 1)%nat [] [] sol t' times norms c (fun j Hj => ltac:(lia)) eq_refl) in E. destruct E as (k & new & K1 & K2 & K3 & K4 & K5 & K6 & K7 & K8). cbn [app] in K4. subst times.
  exists k. cbn [p_conv p_norms p_times p_wall]. split; [lia|]. split; [exact K2|]. split; [exact K3|].
  split; [intros Hc; destruct (K5 Hc) as (A & B & C & D); repeat split; assumption|]. split; [intros Hc; destruct (K6 Hc) as (A & B & C); split; assumption|]. split.
  { split; [intros Hc; destruct (K5 Hc) as (A & B & _); exists k; rewrite <- K2; split; [lia|exact B]|]. intros (j & Hj & Sj). destruct c; [reflexivity|]. destruct (K6 eq_refl) as (A & _). rewrite (K3 j) in Sj by lia. discriminate. }
  assert (L : List.length new = List.length norms /\ (List.length norms <= max_iter)%nat).
  { destruct c; [destruct (K5 eq_refl) as (A & B & C & D)|destruct (K6 eq_refl) as (A & C & D)]; rewrite C, map_length, seq_length; lia. }
  split; [apply L|]. split; [apply L|]. intros F. destruct (K8 F) as [P Q]. split; [exact P|]. pose proof (F tick (tick + 1)%nat ltac:(lia)). lra.
Qed.
Print Assumptions C87_newton.

(** What is not true: a run reported as not converged may have returned an exact solution, since the last update is never
    tested; the last recorded norm is then not the norm of the returned state. *)
Theorem C87_unreported_refuted : exists (norm : R -> R) small step s0, let '(sol, p) := profile_newton INR R R norm small step 1 s0 0 in
  (forall x, small x = true <-> x < 1) /\ small (norm sol) = true /\ p_conv R p = false /\ last (p_norms R p) 0 <> norm sol.
Proof.
  exists Rabs, (fun x => if Rlt_dec x 1 then true else false), (fun x => x - x), 5. unfold profile_newton. cbn [iterate].
  destruct (Rlt_dec (Rabs 5) 1) as [H|H]; [exfalso; rewrite Rabs_pos_eq in H; lra|]. cbn [p_conv p_norms app last].
  assert (Z : Rabs (5 - 5) = 0) by (rewrite Rminus_diag_eq by reflexivity; apply Rabs_R0). rewrite Z. repeat split.
  - destruct (Rlt_dec x 1); [auto|discriminate].
  - intros. destruct (Rlt_dec x 1); [reflexivity|contradiction].
  - destruct (Rlt_dec 0 1); [reflexivity|lra].
  - rewrite Rabs_pos_eq; lra.
Qed.
Print Assumptions C87_unreported_refuted.

(** Unit prefixes: nothing for negative values; otherwise mantissa times scale is the value, and the mantissa is in the band of its prefix. *)
Theorem C87_prefix v : (si v = None <-> v < 0) /\ forall m p, si v = Some (m, p) -> m * si_scale p = v /\ (p <> Unit -> 1 <= m) /\ (p <> Giga -> m < 1000) /\ 0 <= m.
Proof.
  assert (B : forall a b, Rlt_b a b = true <-> a < b) by (intros a b; unfold Rlt_b; destruct (Rlt_dec a b); split; try auto; try discriminate; contradiction).
  assert (B' : forall a b, Rlt_b a b = false <-> b <= a) by (intros a b; unfold Rlt_b; destruct (Rlt_dec a b); split; intros; try discriminate; try reflexivity; lra).
  unfold si. cbn [si_scale]. destruct (Rlt_b v 0) eqn:E0; [apply B in E0; split; [split; auto|discriminate]|]. apply B' in E0.
  destruct (Rlt_b v 1000000000) eqn:E1; [apply B in E1|apply B' in E1]; cbn [negb].
  2: { split; [split; [discriminate|intros; lra]|]. intros m p [= <- <-]. cbn [si_scale]. repeat split; [field|intros _; lra|congruence|lra]. }
  destruct (Rlt_b v 1000000) eqn:E2; [apply B in E2|apply B' in E2]; cbn [negb].
  2: { split; [split; [discriminate|intros; lra]|]. intros m p [= <- <-]. cbn [si_scale]. repeat split; [field|intros _; lra|intros _; lra|lra]. }
  destruct (Rlt_b v 1000) eqn:E3; [apply B in E3|apply B' in E3]; cbn [negb].
  2: { split; [split; [discriminate|intros; lra]|]. intros m p [= <- <-]. cbn [si_scale]. repeat split; [field|intros _; lra|intros _; lra|lra]. }
  split; [split; [discriminate|intros; lra]|]. intros m p [= <- <-]. cbn [si_scale]. repeat split; [ring|congruence|intros _; exact E3|exact E0].
Qed.
Print Assumptions C87_prefix.
(** A clock, a counter and a Newton run that converges in two passes. *)
Example C87_example : forward INR /\ count_primitives ["add"; "mul"; "add"]%string = [("add", 2%nat); ("mul", 1%nat)]%string /\
  p_conv nat (snd (profile_newton INR nat nat (fun n => n) (Nat.eqb 0) pred 5 1%nat 0)) = true /\ si 2500 = Some (2500 / 1000, Kilo).
Proof.
  split; [intros a b H; apply le_INR; exact H|]. split; [reflexivity|]. split; [reflexivity|]. unfold si, Rlt_b. cbn [si_scale]. repeat (destruct (Rlt_dec _ _); try lra). reflexivity.
Qed.
Print Assumptions C87_example.
