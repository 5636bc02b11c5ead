(** C57: constraints, starting design and history of the optimisation driver. *)
From Coq Require Import String List Bool Arith ZArith QArith Qabs Qminmax Lia Lqa.
From Verif Require Import Base Optimizer_Model Continuation_Props Optimizer_Props.
Import ListNotations.
Open Scope Q_scope.

(** ** Specification vocabulary *)
(** What a decorated method asks for, in terms of its value f. *)
Definition satisfied (s : cspec) (f : Q) : Prop :=
  match cs_kind s with
  | KLe => f <= cs_target s
  | KEq => cs_target s - cs_tol s <= f <= cs_target s + cs_tol s
  end.
Fixpoint dot (g h : list Q) : Q :=
  match g, h with a :: g', b :: h' => a * b + dot g' h' | _, _ => 0 end.

(** The functions registered with NLopt are all <= 0 exactly when every decorated
    constraint is satisfied, whatever the values of the methods. *)
Theorem C57_constraints :
  forall (specs : list cspec) (F : nat -> Q),
  (forall e, In e (collect_constraints specs) -> con_value e (F (ce_fun e)) <= 0) <->
  (forall s, In s specs -> satisfied s (F (cs_fun s))).
Proof.
  intros specs F. unfold collect_constraints. split.
  - intros H s I. unfold satisfied.
    assert (E : forall e, In e (expand_constraint s) -> con_value e (F (ce_fun e)) <= 0).
    { intros e He. apply H. apply in_flat_map. exists s. auto. }
    unfold expand_constraint in E. destruct (cs_kind s).
    + specialize (E _ (or_introl eq_refl)). cbn in E. lra.
    + pose proof (E _ (or_introl eq_refl)) as E1. pose proof (E _ (or_intror (or_introl eq_refl))) as E2.
      cbn in E1, E2. lra.
  - intros H e I. apply in_flat_map in I. destruct I as (s & Is & Ie). specialize (H s Is).
    unfold satisfied in H. unfold expand_constraint in Ie. destruct (cs_kind s).
    + destruct Ie as [<-|[]]. cbn. lra.
    + destruct Ie as [<-|[<-|[]]]; cbn; lra.
Qed.
Print Assumptions C57_constraints.

(** The gradient passed to NLopt belongs to the value passed: its linearisation error
    is that of the method's own gradient. *)
Theorem C57_gradient :
  forall e f f' g h,
  Qabs (con_value e f' - con_value e f - dot (con_grad e g) h) == Qabs (f' - f - dot g h).
Proof.
  intros e f f' g h. unfold con_value, con_grad.
  assert (D : dot (map Qopp g) h == - dot g h).
  { revert h; induction g as [|a g IH]; intros [|b h]; cbn; try reflexivity. rewrite IH. ring. }
  destruct (ce_kind e).
  - apply Qabs_wd. ring.
  - rewrite D, <- Qabs_opp. apply Qabs_wd. ring.
Qed.
Print Assumptions C57_gradient.

(** ** Starting design *)
Lemma default_init_spec es d : forall e0,
  e0 = fold_left (fun d e => match ce_kind e with RLe => py_min d (ce_target e) | RGe => d end) es d ->
  (e0 = d \/ exists e, In e es /\ ce_kind e = RLe /\ e0 = ce_target e) /\
  e0 <= d /\ (forall e, In e es -> ce_kind e = RLe -> e0 <= ce_target e).
Proof.
  revert d; induction es as [|e t IH]; intros d e0 ->; cbn [fold_left].
  - split; [left; reflexivity|]. split; [lra|intros e []].
  - set (d1 := match ce_kind e with RLe => py_min d (ce_target e) | RGe => d end).
    destruct (IH d1 _ eq_refl) as (A & B & C).
    set (r := fold_left _ t _) in *. clearbody r. subst d1.
    destruct (ce_kind e) eqn:K.
    + destruct (py_min_cases d (ce_target e)) as [[L E]|[L E]]; rewrite E in *.
      * split; [destruct A as [A|(e' & I & K' & A)]; [left; exact A|right; exists e'; split; [now right|auto]]|].
        split; [exact B|]. intros e' [<-|I] K'; [lra|apply C; assumption].
      * split; [right; destruct A as [A|(e' & I & K' & A)]; [exists e; split; [now left|auto]|exists e'; split; [now right|auto]]|].
        split; [lra|]. intros e' [<-|I] K'; [lra|apply C; assumption].
    + split; [destruct A as [A|(e' & I & K' & A)]; [left; exact A|right; exists e'; split; [now right|auto]]|].
      split; [exact B|]. intros e' [<-|I] K'; [congruence|apply C; assumption].
Qed.

(** The default starting density: 1/2 or the smallest upper target, whichever is less. *)
Theorem C57_default_density :
  forall specs, let d := default_init (collect_constraints specs) in
  d <= 1 # 2 /\
  (forall s, In s specs -> d <= match cs_kind s with KLe => cs_target s | KEq => cs_target s + cs_tol s end) /\
  (d = 1 # 2 \/ exists s, In s specs /\ d = match cs_kind s with KLe => cs_target s | KEq => cs_target s + cs_tol s end).
Proof.
  intros specs d. destruct (default_init_spec (collect_constraints specs) (1 # 2) d eq_refl) as (A & B & C).
  split; [exact B|]. split.
  - intros s I. unfold collect_constraints in C.
    assert (G : forall e, In e (expand_constraint s) -> ce_kind e = RLe -> d <= ce_target e).
    { intros e He. apply C. apply in_flat_map. exists s. auto. }
    unfold expand_constraint in G. destruct (cs_kind s); exact (G _ (or_introl eq_refl) eq_refl).
  - destruct A as [A|(e & I & K & A)]; [left; exact A|right]. apply in_flat_map in I. destruct I as (s & Is & Ie).
    exists s. split; [exact Is|]. unfold expand_constraint in Ie. destruct (cs_kind s).
    + destruct Ie as [<-|[]]. exact A.
    + destruct Ie as [<-|[<-|[]]]; [exact A|discriminate K].
Qed.
Print Assumptions C57_default_density.

(** The starting design lies within the bounds of the first NLopt object, so the first
    optimize call is accepted, provided the given (or default) density does: for the
    default, no upper target may be below the lower bound. *)
Theorem C57_start_in_bounds :
  forall M (npoints : M -> nat) g mesh0 specs,
  let es := collect_constraints specs in
  let n := npoints mesh0 in
  (forall i, In i (g_solid g) -> (i < n)%nat) -> (forall i, In i (g_void g) -> (i < n)%nat) ->
  match g_rho_init g with
  | Some r => List.length r = n /\
      forall i, (i < n)%nat -> ~ In i (g_solid g) -> ~ In i (g_void g) -> fst (g_bounds g) <= nth i r 0 <= snd (g_bounds g)
  | None => fst (g_bounds g) <= 1 # 2 <= snd (g_bounds g) /\
      forall s, In s specs -> fst (g_bounds g) <= match cs_kind s with KLe => cs_target s | KEq => cs_target s + cs_tol s end
  end ->
  in_box (create_mma M npoints g mesh0 0 n 0) (s_x M (init_state M npoints g mesh0 es)) /\
  List.length (s_x M (init_state M npoints g mesh0 es)) = n.
Proof.
  intros M npoints g mesh0 specs es n HS HV HR.
  assert (LX : List.length (match g_rho_init g with None => repeat (default_init es) n | Some r => r end) = n).
  { destruct (g_rho_init g); [apply HR|apply repeat_length]. }
  split.
  - intros i L. cbn [m_lo m_hi create_mma init_state s_x] in *. unfold create_mma in *. cbn [m_lo m_hi] in *.
    unfold mma_bounds in *. fold n in L |- *. rewrite Nat.eqb_refl in *. cbn [fst snd] in *.
    rewrite !put_length, repeat_length in L. unfold start_design. cbv zeta. fold n.
    destruct (in_dec Nat.eq_dec i (g_void g)) as [V|V].
    + rewrite !(put_in (g_void g)) by (rewrite ?put_length, ?repeat_length, ?LX; assumption). lra.
    + rewrite !(put_out (g_void g)) by exact V. destruct (in_dec Nat.eq_dec i (g_solid g)) as [S|S].
      * rewrite !(put_in (g_solid g)) by (rewrite ?repeat_length, ?LX; assumption). lra.
      * rewrite !(put_out (g_solid g)) by exact S. rewrite !nth_repeat_lt by exact L.
        destruct (g_rho_init g) as [r|]; [apply HR; assumption|]. rewrite nth_repeat_lt by exact L.
        destruct (C57_default_density specs) as (D1 & _ & D3). fold es in D1, D3. destruct HR as [H1 H2].
        destruct D3 as [D3|(s & Is & D3)]; [rewrite D3; lra|].
        specialize (H2 s Is). rewrite <- D3 in H2. lra.
  - cbn [init_state s_x]. unfold start_design. rewrite !put_length. exact LX.
Qed.
Print Assumptions C57_start_in_bounds.

(** The default ("so we start feasible") is taken from every upper target, also of
    constraints that are not volume fractions: with a negative target the default design
    is below the lower bound. *)
Theorem C57_start_out_of_bounds_refuted :
  exists M (npoints : M -> nat) g mesh0 specs,
  fst (g_bounds g) <= 1 # 2 <= snd (g_bounds g) /\ g_rho_init g = None /\
  ~ in_box (create_mma M npoints g mesh0 0 (npoints mesh0) 0)
      (s_x M (init_state M npoints g mesh0 (collect_constraints specs))).
Proof.
  exists unit, (fun _ => 1%nat), (Config 10 [] None (1 # 1000, 1) None [] []), tt, [CSpec "disp"%string 0 (- (1)) KLe 0].
  split; [split; vm_compute; congruence|]. split; [reflexivity|].
  intros H. specialize (H 0%nat ltac:(vm_compute; lia)). revert H. vm_compute. intros [H _]. congruence.
Qed.
Print Assumptions C57_start_out_of_bounds_refuted.

(** ** History *)
(** Recording a sequence of evaluations (number, objective, constraint values). *)
Definition record_all (names : list string) (evs : list (Q * Q * list Q)) : hist :=
  fold_left (fun h ev => record_eval names h (fst (fst ev)) (snd (fst ev)) (snd ev)) evs (init_hist names).

Lemma col_append_same h k v : In k (map fst h) -> NoDup (map fst h) -> col (col_append h k v) k = col h k ++ [v].
Proof.
  induction h as [|[k' l] t IH]; intros I N; [destruct I|]. cbn in *. inversion N; subst.
  destruct (String.eqb_spec k' k) as [E|E]; cbn.
  - subst. rewrite String.eqb_refl. reflexivity.
  - rewrite (proj2 (String.eqb_neq _ _) E). apply IH; [destruct I; [contradiction|assumption]|assumption].
Qed.
Lemma col_append_other h k k2 v : k <> k2 -> col (col_append h k v) k2 = col h k2.
Proof.
  intros N. induction h as [|[k' l] t IH]; [reflexivity|]. cbn.
  destruct (String.eqb_spec k' k) as [E|E]; cbn.
  - subst. rewrite (proj2 (String.eqb_neq k k2) N). reflexivity.
  - destruct (String.eqb k' k2); [reflexivity|exact IH].
Qed.
Lemma col_append_keys h k v : map fst (col_append h k v) = map fst h.
Proof. induction h as [|[k' l] t IH]; [reflexivity|]. cbn. destruct (String.eqb k' k); cbn; congruence. Qed.
Lemma dict_keys_nodup ks seen : NoDup ks -> (forall k, In k ks -> ~ In k seen) -> dict_keys ks seen = ks.
Proof.
  revert seen; induction ks as [|k t IH]; intros seen N D; [reflexivity|]. cbn. inversion N; subst.
  destruct (existsb _ _) eqn:E.
  - apply existsb_exists in E. destruct E as (x & Ix & E). apply String.eqb_eq in E. subst.
    exfalso. apply (D x); [now left|assumption].
  - f_equal. apply IH; [assumption|]. intros k' I' [<-|I'']; [contradiction|]. apply (D k'); [now right|assumption].
Qed.
Lemma fold_cols names f h k : NoDup (map fst h) -> NoDup names ->
  (In k names -> In k (map fst h) ->
     col (fold_left (fun h nm => col_append h nm (f nm)) names h) k = col h k ++ [f k]) /\
  (~ In k names -> col (fold_left (fun h nm => col_append h nm (f nm)) names h) k = col h k).
Proof.
  revert h; induction names as [|n t IH]; intros h NH NN; [split; [intros []|reflexivity]|].
  cbn [fold_left]. inversion NN; subst.
  destruct (IH (col_append h n (f n))) as [I1 I2]; [rewrite col_append_keys; exact NH|assumption|]. split.
  - intros [->|I] K.
    + rewrite I2 by assumption. apply col_append_same; assumption.
    + rewrite I1 by (rewrite ?col_append_keys; assumption). rewrite col_append_other; [reflexivity|].
      intros ->. contradiction.
  - intros NI. rewrite I2 by (intros X; apply NI; now right). apply col_append_other. intros ->. apply NI. now left.
Qed.
Lemma fold_keys names f h : map fst (fold_left (fun h nm => col_append h nm (f nm)) names h) = map fst h.
Proof. revert h; induction names as [|n t IH]; intros h; [reflexivity|]. cbn. rewrite IH. apply col_append_keys. Qed.
Lemma dict_last_miss kvs k d : ~ In k (map fst kvs) -> dict_last kvs k d = d.
Proof.
  revert d; induction kvs as [|[k' v] t IH]; intros d N; [reflexivity|]. cbn in *.
  destruct (String.eqb_spec k' k) as [E|E]; [exfalso; apply N; now left|]. apply IH. intros X. apply N. now right.
Qed.
Lemma combine_fst A B (l : list A) (m : list B) : List.length m = List.length l -> map fst (combine l m) = l.
Proof. revert m; induction l as [|a t IH]; intros [|b m] L; cbn in *; try discriminate; [reflexivity|]. f_equal. apply IH. lia. Qed.
Lemma dict_last_nth names vals j d : NoDup names -> List.length vals = List.length names -> (j < List.length names)%nat ->
  dict_last (combine names vals) (nth j names EmptyString) d = nth j vals 0.
Proof.
  revert vals j d; induction names as [|n t IH]; intros [|v vs] j d N L J; cbn in *; try lia; try discriminate.
  inversion N; subst. destruct j as [|j].
  - rewrite String.eqb_refl. apply dict_last_miss. rewrite combine_fst by lia. assumption.
  - rewrite (proj2 (String.eqb_neq n (nth j t EmptyString))).
    + apply IH; [assumption|lia|lia].
    + intros ->. apply H1. apply nth_In. lia.
Qed.

Lemma record_keys names h i o cs : map fst (record_eval names h i o cs) = map fst h.
Proof. unfold record_eval. rewrite fold_keys, !col_append_keys. reflexivity. Qed.

Lemma record_cols names h i o cs :
  NoDup ("iteration" :: "objective" :: names)%string -> map fst h = ("iteration" :: "objective" :: names)%string ->
  List.length cs = List.length names ->
  let h' := record_eval names h i o cs in
  col h' "iteration" = col h "iteration" ++ [i] /\ col h' "objective" = col h "objective" ++ [o] /\
  forall j, (j < List.length names)%nat -> col h' (nth j names EmptyString) = col h (nth j names EmptyString) ++ [nth j cs 0].
Proof.
  intros N K L h'. inversion N as [|? ? N1 N2]; subst. inversion N2 as [|? ? N3 N4]; subst.
  subst h'. unfold record_eval. cbv zeta.
  set (f := fun nm => dict_last (combine names cs) nm 0).
  set (h1 := col_append h "iteration" i). set (h2 := col_append h1 "objective" o).
  assert (K1 : map fst h1 = map fst h) by apply col_append_keys.
  assert (K2 : map fst h2 = map fst h) by (unfold h2; rewrite col_append_keys; exact K1).
  assert (F : forall k, (In k names -> In k (map fst h2) -> col (fold_left (fun h nm => col_append h nm (f nm)) names h2) k = col h2 k ++ [f k]) /\
    (~ In k names -> col (fold_left (fun h nm => col_append h nm (f nm)) names h2) k = col h2 k)).
  { intros k. apply fold_cols; [rewrite K2, K; exact N|exact N4]. }
  change (fold_left _ names h2) with (fold_left (fun h nm => col_append h nm (f nm)) names h2).
  split; [|split].
  - rewrite (proj2 (F _)) by (intros X; apply N1; now right). unfold h2. rewrite col_append_other by discriminate.
    apply col_append_same; rewrite K; [now left|exact N].
  - rewrite (proj2 (F _)) by exact N3. unfold h2. rewrite col_append_same; rewrite ?K1, ?K; [|right; now left|exact N].
    unfold h1. rewrite col_append_other by discriminate. reflexivity.
  - intros j J. set (k := nth j names EmptyString). assert (Ik : In k names) by (apply nth_In; exact J).
    rewrite (proj1 (F k)); [|exact Ik|rewrite K2, K; right; right; exact Ik].
    unfold h2, h1. rewrite !col_append_other.
    + f_equal. f_equal. unfold f, k. apply dict_last_nth; assumption.
    + intros E. apply N1. right. rewrite E. exact Ik.
    + intros E. apply N3. rewrite E. exact Ik.
Qed.

(** With distinct column names, every column holds one entry per evaluation, in order. *)
Theorem C57_history :
  forall names evs,
  NoDup ("iteration" :: "objective" :: names)%string ->
  (forall ev, In ev evs -> List.length (snd ev) = List.length names) ->
  let h := record_all names evs in
  col h "iteration" = map (fun ev => fst (fst ev)) evs /\
  col h "objective" = map (fun ev => snd (fst ev)) evs /\
  forall j, (j < List.length names)%nat -> col h (nth j names EmptyString) = map (fun ev => nth j (snd ev) 0) evs.
Proof.
  intros names evs N HL h.
  assert (G : map fst h = ("iteration" :: "objective" :: names)%string /\
    col h "iteration" = map (fun ev => fst (fst ev)) evs /\
    col h "objective" = map (fun ev => snd (fst ev)) evs /\
    forall j, (j < List.length names)%nat -> col h (nth j names EmptyString) = map (fun ev => nth j (snd ev) 0) evs);
    [|apply G].
  subst h. induction evs as [|ev evs IH] using rev_ind.
  - unfold record_all, init_hist. cbn [fold_left]. rewrite (dict_keys_nodup _ [] N) by (intros k _ []).
    assert (E : forall ks k, col (map (fun k : string => (k, @nil Q)) ks) k = []).
    { induction ks as [|a t IHk]; intros k; [reflexivity|]. cbn. destruct (String.eqb a k); [reflexivity|apply IHk]. }
    rewrite map_map. cbn [fst]. rewrite map_id. split; [reflexivity|]. rewrite !E. split; [reflexivity|]. split; [reflexivity|].
    intros j _. rewrite E. reflexivity.
  - assert (IH' := IH ltac:(intros e He; apply HL; apply in_or_app; now left)). clear IH.
    destruct IH' as (K & I1 & I2 & I3). unfold record_all in *. rewrite fold_left_app. cbn [fold_left].
    set (h := fold_left _ evs _) in *. rewrite record_keys. split; [exact K|].
    destruct (record_cols names h (fst (fst ev)) (snd (fst ev)) (snd ev) N K) as (R1 & R2 & R3).
    { apply HL. apply in_or_app. right. now left. }
    rewrite R1, R2, I1, I2, !map_app. split; [reflexivity|]. split; [reflexivity|].
    intros j J. rewrite R3, I3, map_app by exact J. reflexivity.
Qed.
Print Assumptions C57_history.

(** An equality constraint called v adds a column v_lb; a second constraint of that
    name makes the column grow by two entries per evaluation. *)
Theorem C57_history_duplicate_refuted :
  exists specs evs,
  (forall s s', In s specs -> In s' specs -> cs_name s = cs_name s' -> s = s') /\
  let names := map ce_name (collect_constraints specs) in
  (forall ev, In ev evs -> List.length (snd ev) = List.length names) /\
  exists k, In k names /\ List.length (col (record_all names evs) k) <> List.length evs.
Proof.
  exists [CSpec "v" 0 (1 # 2) KEq 0; CSpec "v_lb" 1 1 KLe 0]%string, [(1, 5, [1; 2; 3])].
  split; [intros s s' [<-|[<-|[]]] [<-|[<-|[]]]; cbn; congruence|]. cbv zeta.
  split; [intros ev [<-|[]]; reflexivity|]. exists "v_lb"%string. split; [right; now left|]. vm_compute. congruence.
Qed.
Print Assumptions C57_history_duplicate_refuted.

Example C57_example :
  let specs := [CSpec "stress" 0 2 KLe 0; CSpec "volume" 1 (3 # 10) KEq (1 # 100)]%string in
  NoDup ("iteration" :: "objective" :: map ce_name (collect_constraints specs))%string /\
  default_init (collect_constraints specs) == 31 # 100 /\
  satisfied (nth 1 specs (CSpec "" 0 0 KLe 0)) (305 # 1000) /\
  let h := record_all (map ce_name (collect_constraints specs)) [(1, 9, [1; 3 # 10; 3 # 10]); (2, 8, [1; 1 # 3; 1 # 3])] in
  col h "objective" = [9; 8] /\ col h "volume_lb" = [3 # 10; 1 # 3].
Proof.
  cbv zeta. split; [cbn; repeat constructor; cbn; intuition congruence|].
  split; [reflexivity|]. split; [cbn; split; vm_compute; congruence|]. vm_compute. auto.
Qed.
