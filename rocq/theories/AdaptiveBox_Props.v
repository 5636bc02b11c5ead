(** C78: reading the mesh back from gmsh, periodic faces and node-count tuning (feax/gene/adaptive.py). *)
From Coq Require Import Reals List Arith Bool Lia Lra Psatz.
From Verif Require Import Tmc_Model Tmc_Props Adaptive_Model.
Import ListNotations.
Open Scope R_scope.

(** ** Extraction *)
Lemma index_of_nth x l d : In x l -> (index_of x l < length l)%nat /\ nth (index_of x l) l d = x.
Proof.
  induction l as [|y l IH]; intros H; [destruct H|]. cbn [index_of]. destruct (Nat.eqb x y) eqn:E.
  - apply Nat.eqb_eq in E. subst. cbn. split; [lia|reflexivity].
  - destruct H as [->|H]; [rewrite Nat.eqb_refl in E; discriminate|]. destruct (IH H) as [A B]. cbn. split; [lia|exact B].
Qed.
Lemma in_unique n l i : In i (unique_below n l) <-> (i < n)%nat /\ In i l.
Proof.
  unfold unique_below. rewrite filter_In, in_seq, existsb_exists. split.
  - intros [H (j & Hj & E)]. apply Nat.eqb_eq in E. subst j. split; [lia|exact Hj].
  - intros [H1 H2]. split; [lia|]. exists i. split; [exact H2|apply Nat.eqb_refl].
Qed.
(** Specification: the coordinates gmsh gave for a node tag. *)
Definition coords_of_tag {P : Type} (d : P) (node_tags : list nat) (coords : list P) (t : nat) : P := nth (index_of t node_tags) coords d.
Lemma index_seq N : forall s t, (s <= t < s + N)%nat -> index_of t (seq s N) = (t - s)%nat.
Proof.
  induction N as [|N IH]; intros s t H; [lia|]. cbn [seq index_of]. destruct (Nat.eqb t s) eqn:E.
  - apply Nat.eqb_eq in E. lia.
  - apply Nat.eqb_neq in E. rewrite IH by lia. lia.
Qed.
(** If gmsh numbers the nodes 1, 2, ... in the order it lists them, every cell of the result has the
    coordinates of its tags, indices are in range, every node belongs to a cell and no node is doubled. *)
Theorem C78_extract {P : Type} (d : P) coords blocks points cells : extract_tet4 d coords blocks = Some (points, cells) ->
  exists tags, find_tet blocks = Some tags /\
  ((forall c t, In c tags -> In t c -> (1 <= t <= length coords)%nat) ->
   length cells = length tags /\
   (forall e, (e < length tags)%nat -> length (nth e cells []) = length (nth e tags [])) /\
   (forall e k, (e < length tags)%nat -> (k < length (nth e tags []))%nat ->
      (nth k (nth e cells []) 0 < length points)%nat /\
      nth (nth k (nth e cells []) 0%nat) points d = coords_of_tag d (seq 1 (length coords)) coords (nth k (nth e tags []) 0%nat)) /\
   (forall n, (n < length points)%nat -> exists e, (e < length tags)%nat /\ In n (nth e cells [])) /\
   (forall e k e' k', (e < length tags)%nat -> (k < length (nth e tags []))%nat -> (e' < length tags)%nat -> (k' < length (nth e' tags []))%nat ->
      (nth k (nth e cells []) 0 = nth k' (nth e' cells []) 0 <-> nth k (nth e tags []) 0 = nth k' (nth e' tags []) 0)%nat)).
Proof.
  unfold extract_tet4. destruct (find_tet blocks) as [tags|]; [|discriminate]. intros [= <- <-]. exists tags. split; [reflexivity|]. intros T.
  set (z := map (map (fun t => (t - 1)%nat)) tags). set (u := unique_below (length coords) (concat z)).
  assert (Iu : forall c t, In c tags -> In t c -> In (t - 1)%nat u).
  { intros c t Hc Ht. apply in_unique. split; [specialize (T c t Hc Ht); lia|]. apply in_concat. exists (map (fun t => (t - 1)%nat) c). split; [apply in_map; exact Hc|]. apply (in_map (fun t => (t - 1)%nat)), Ht. }
  assert (Nc : forall e, nth e (map (map (fun i => index_of i u)) z) [] = map (fun t => index_of (t - 1) u) (nth e tags [])).
  { intros e. unfold z. rewrite map_map.
    etransitivity; [apply (map_nth (fun x => map (fun i => index_of i u) (map (fun t => (t - 1)%nat) x)) tags [] e)|]. rewrite map_map. reflexivity. }
  assert (Nk : forall e k, (k < length (nth e tags []))%nat -> nth k (nth e (map (map (fun i => index_of i u)) z) []) 0%nat = index_of (nth k (nth e tags []) 0 - 1)%nat u).
  { intros e k Hk. rewrite Nc. rewrite (nth_indep _ 0%nat (index_of (0 - 1)%nat u)) by (rewrite map_length; exact Hk). apply (map_nth (fun t => index_of (t - 1)%nat u)). }
  assert (Tk : forall e k, (e < length tags)%nat -> (k < length (nth e tags []))%nat -> In (nth e tags []) tags /\ In (nth k (nth e tags []) 0%nat) (nth e tags [])) by (intros; split; apply nth_In; assumption).
  split; [unfold z; now rewrite !map_length|]. split; [intros e He; rewrite Nc, map_length; reflexivity|]. split; [|split].
  - intros e k He Hk. destruct (Tk e k He Hk) as [A B]. pose proof (Iu _ _ A B) as Iv. pose proof (T _ _ A B) as Tv. rewrite (Nk e k Hk). destruct (index_of_nth _ u 0%nat Iv) as [L E].
    split; [rewrite map_length; exact L|]. unfold coords_of_tag. rewrite index_seq by lia.
    rewrite (nth_indep _ d (nth 0 coords d)) by (rewrite map_length; exact L). rewrite (map_nth (fun i => nth i coords d)), E. reflexivity.
  - intros n Hn. rewrite map_length in Hn. assert (Hu : In (nth n u 0%nat) u) by (apply nth_In; exact Hn). pose proof Hu as Hu'. apply in_unique in Hu. destruct Hu as [_ Hu].
    apply in_concat in Hu. destruct Hu as (c & Hc & Hin). unfold z in Hc. apply in_map_iff in Hc. destruct Hc as (c0 & <- & Hc0). apply in_map_iff in Hin. destruct Hin as (t & Et & Ht).
    apply (In_nth _ _ []) in Hc0. destruct Hc0 as (e & He & Ec). exists e. split; [exact He|]. rewrite Nc. apply in_map_iff. exists t. split; [|rewrite Ec; exact Ht].
    rewrite Et. destruct (index_of_nth _ u 0%nat Hu') as [L E]. apply (NoDup_nth u 0%nat); [apply NoDup_filter, seq_NoDup|exact L|exact Hn|exact E].
  - intros e k e' k' He Hk He' Hk'. rewrite (Nk e k Hk), (Nk e' k' Hk'). destruct (Tk e k He Hk) as [A B]. destruct (Tk e' k' He' Hk') as [A' B'].
    split; [|intros ->; reflexivity]. intros E. destruct (index_of_nth _ u 0%nat (Iu _ _ A B)) as [_ X]. destruct (index_of_nth _ u 0%nat (Iu _ _ A' B')) as [_ X'].
    rewrite E, X' in X. pose proof (T _ _ A B). pose proof (T _ _ A' B'). lia.
Qed.
Print Assumptions C78_extract.
(** It raises exactly when there is no block of 4-node tetrahedra. *)
Theorem C78_extract_raises {P : Type} (d : P) coords blocks : extract_tet4 d coords blocks = None <-> forall c, ~ In (4%nat, c) blocks.
Proof.
  unfold extract_tet4. assert (H : find_tet blocks = None <-> forall c, ~ In (4%nat, c) blocks).
  { induction blocks as [|(t, c) r IH]; cbn; [split; [intros _ c []|reflexivity]|]. destruct (Nat.eqb t 4) eqn:E.
    - apply Nat.eqb_eq in E. subst. split; [discriminate|]. intros H. exfalso. apply (H c). left. reflexivity.
    - rewrite IH. apply Nat.eqb_neq in E. split; [intros H c' [X|X]; [congruence|apply (H c' X)]|intros H c' X; apply (H c'); right; exact X]. }
  rewrite <- H. destruct (find_tet blocks); split; congruence.
Qed.
Print Assumptions C78_extract_raises.
(** The node tags returned by gmsh are discarded: if the nodes are listed in another order the cells get the
    coordinates of other nodes. *)
Theorem C78_tags_refuted : exists (node_tags : list nat) (coords : list nat) blocks points cells tags,
  length node_tags = length coords /\ NoDup node_tags /\ (forall t, In t node_tags <-> (1 <= t <= length coords)%nat) /\
  extract_tet4 0%nat coords blocks = Some (points, cells) /\ find_tet blocks = Some tags /\
  nth (nth 0 (nth 0 cells []) 0%nat) points 0%nat <> coords_of_tag 0%nat node_tags coords (nth 0 (nth 0 tags []) 0%nat).
Proof.
  exists [2; 1; 3; 4]%nat, [20; 10; 30; 40]%nat, [(4%nat, [[1; 2; 3; 4]%nat])]. do 3 eexists. split; [reflexivity|]. split; [repeat constructor; cbn; lia|].
  split; [intros t; cbn; lia|]. split; [reflexivity|]. split; [reflexivity|]. cbn. discriminate.
Qed.
Print Assumptions C78_tags_refuted.

(** ** Periodic faces *)
Definition near_t (t x y : R) : Prop := Rabs (x - y) <= t.
(** Specification: [f] is the face of the box [o, o + l] normal to [a], on the low ([false]) or high side, with
    a bounding box accurate to [t]. *)
Definition box_face (t : R) (o l : nat -> R) (f : face) (a : nat) (s : bool) : Prop :=
  (a < 3)%nat /\ let x := if s then o a + l a else o a in
  near_t t (f_min f a) x /\ near_t t (f_max f a) x /\
  forall b, (b < 3)%nat -> b <> a -> near_t t (f_min f b) (o b) /\ near_t t (f_max f b) (o b + l b).
Lemma closeb_true x y : - eps6 < x - y < eps6 -> closeb x y = true.
Proof. intros H. unfold closeb. destruct (Rlt_dec _ _) as [L|L]; [reflexivity|]. exfalso. apply L. apply Rabs_def1; lra. Qed.
Lemma closeb_false x y : eps6 <= x - y \/ x - y <= - eps6 -> closeb x y = false.
Proof.
  intros H. unfold closeb. destruct (Rlt_dec _ _) as [L|L]; [|reflexivity]. exfalso. apply Rabs_def2 in L. lra.
Qed.
Lemma near_inv t x y : near_t t x y -> y - t <= x <= y + t.
Proof. unfold near_t, Rabs. destruct (Rcase_abs _); intros; lra. Qed.
Lemma classify_box t o l f a s : 0 <= t -> 2 * t < eps6 -> (forall b, (b < 3)%nat -> eps6 + 2 * t <= l b) -> box_face t o l f a s ->
  classify_face o l f = Some (a, s).
Proof.
  intros T1 T2 Lb (Ha & Hmin & Hmax & Ot). apply near_inv in Hmin. apply near_inv in Hmax.
  assert (C : closeb (f_max f a) (f_min f a) = true) by (apply closeb_true; lra).
  assert (N : forall b, (b < 3)%nat -> b <> a -> closeb (f_max f b) (f_min f b) = false).
  { intros b Hb Hne. destruct (Ot b Hb Hne) as [A B]. apply near_inv in A. apply near_inv in B. apply closeb_false. specialize (Lb b Hb). lra. }
  assert (Sd : (if closeb (f_min f a) (o a) then Some (a, false) else if closeb (f_min f a) (o a + l a) then Some (a, true) else None) = Some (a, s)).
  { specialize (Lb a Ha). destruct s.
    - rewrite closeb_false by lra. rewrite closeb_true by lra. reflexivity.
    - rewrite closeb_true by lra. reflexivity. }
  unfold classify_face. destruct a as [|[|[|a]]]; [| | |lia].
  - rewrite C. exact Sd.
  - rewrite (N 0%nat) by lia. rewrite C. exact Sd.
  - rewrite (N 0%nat), (N 1%nat) by lia. rewrite C. exact Sd.
Qed.
Lemma slot_unique o l a s : forall faces f acc, In f faces -> classify_face o l f = Some (a, s) ->
  (forall g, In g faces -> classify_face o l g = Some (a, s) -> g = f) ->
  fold_left (fun acc f => match classify_face o l f with Some (b, t) => if (Nat.eqb a b && Bool.eqb s t)%bool then Some (f_tag f) else acc | None => acc end) faces acc = Some (f_tag f).
Proof.
  intros faces f. induction faces as [|g faces IH] using rev_ind; intros acc Hf Cf U; [destruct Hf|].
  rewrite fold_left_app. cbn [fold_left]. destruct (classify_face o l g) as [[b t]|] eqn:Eg.
  - destruct (Nat.eqb a b && Bool.eqb s t)%bool eqn:Em.
    + apply andb_true_iff in Em. destruct Em as [E1 E2]. apply Nat.eqb_eq in E1. apply eqb_prop in E2. subst. rewrite (U g); [reflexivity|apply in_or_app; right; left; reflexivity|exact Eg].
    + apply IH; [|exact Cf|intros h Hh; apply U, in_or_app; left; exact Hh]. apply in_app_or in Hf. destruct Hf as [Hf|[->|[]]]; [exact Hf|].
      exfalso. rewrite Cf in Eg. injection Eg as <- <-. rewrite Nat.eqb_refl, eqb_reflx in Em. discriminate.
  - apply IH; [|exact Cf|intros h Hh; apply U, in_or_app; left; exact Hh]. apply in_app_or in Hf. destruct Hf as [Hf|[->|[]]]; [exact Hf|congruence].
Qed.
(** For a box larger than the tolerance in every direction, listed in any order, each axis gets one periodic
    pair: the high face is the slave of the low face, by the translation along the axis. *)
Theorem C78_periodic t o l faces (role : face -> nat * bool) axis fm fs : 0 <= t -> 2 * t < eps6 -> (forall b, (b < 3)%nat -> eps6 + 2 * t <= l b) ->
  (forall f, In f faces -> box_face t o l f (fst (role f)) (snd (role f))) -> (axis < 3)%nat ->
  In fm faces -> role fm = (axis, false) -> In fs faces -> role fs = (axis, true) ->
  (forall f g, In f faces -> In g faces -> role f = role g -> f = g) ->
  exists A, periodic_call o l faces axis = Some (f_tag fs, f_tag fm, A) /\
    forall x i, (i < 3)%nat -> apply_affine A x i = x i + if Nat.eqb i axis then l axis else 0.
Proof.
  intros T1 T2 Lb F Ha Im Rm Is Rs U.
  assert (C : forall f, In f faces -> classify_face o l f = Some (role f)).
  { intros f Hf. rewrite (surjective_pairing (role f)). apply (classify_box t); auto. }
  exists (affine_of l axis). split.
  - unfold periodic_call, slot. rewrite (slot_unique o l axis false faces fm None), (slot_unique o l axis true faces fs None); auto.
    + rewrite C, Rs by assumption. reflexivity.
    + intros g Hg Eg. rewrite C in Eg by exact Hg. apply U; auto. congruence.
    + rewrite C, Rm by assumption. reflexivity.
    + intros g Hg Eg. rewrite C in Eg by exact Hg. apply U; auto. congruence.
  - intros x i Hi. unfold apply_affine, affine_of. destruct axis as [|[|[|axis]]]; try lia; destruct i as [|[|[|i]]]; try lia; cbn; ring.
Qed.
Print Assumptions C78_periodic.
(** FINDING: the tolerance is absolute. For a box smaller than 1e-6 no pair is set, without an error. *)
Theorem C78_small_box_refuted o l faces (role : face -> nat * bool) axis : (forall b, (b < 3)%nat -> 0 < l b < eps6) ->
  (forall f, In f faces -> box_face 0 o l f (fst (role f)) (snd (role f))) -> periodic_call o l faces axis = None.
Proof.
  intros Lb F.
  assert (C : forall f, In f faces -> classify_face o l f = Some (0%nat, false)).
  { intros f Hf. destruct (F f Hf) as (Ha & Hmin & Hmax & Ot). unfold classify_face. pose proof (Lb 0%nat ltac:(lia)) as L0.
    destruct (Nat.eq_dec (fst (role f)) 0) as [E|E].
    - rewrite E in *. apply near_inv in Hmin. apply near_inv in Hmax. rewrite !closeb_true; [reflexivity| |]; destruct (snd (role f)); lra.
    - destruct (Ot 0%nat ltac:(lia) ltac:(lia)) as [A B]. apply near_inv in A. apply near_inv in B. rewrite !closeb_true by lra. reflexivity. }
  assert (S : slot o l faces axis true = None).
  { unfold slot. induction faces as [|f faces IH] using rev_ind; [reflexivity|]. rewrite fold_left_app. cbn [fold_left]. rewrite C by (apply in_or_app; right; left; reflexivity).
    rewrite andb_false_r. apply IH; intros g Hg; [apply F|apply C]; apply in_or_app; left; exact Hg. }
  unfold periodic_call. rewrite S. destruct (slot o l faces axis false); reflexivity.
Qed.
Print Assumptions C78_small_box_refuted.
(** The unit cube with its six faces meets the hypotheses of [C78_periodic]. *)
Definition cube_face (a : nat) (s : bool) : face :=
  {| f_tag := (2 * a + if s then 2 else 1)%nat; f_min := fun b => if Nat.eqb b a then (if s then 1 else 0) else 0;
     f_max := fun b => if Nat.eqb b a then (if s then 1 else 0) else 1 |}.
Definition cube_role (f : face) : nat * bool := ((f_tag f - 1) / 2, Nat.even (f_tag f))%nat.
Definition cube_faces : list face := [cube_face 2 true; cube_face 0 false; cube_face 1 true; cube_face 1 false; cube_face 2 false; cube_face 0 true].
Example C78_example_periodic : (forall f, In f cube_faces -> box_face 0 (fun _ => 0) (fun _ => 1) f (fst (cube_role f)) (snd (cube_role f))) /\
  (forall f g, In f cube_faces -> In g cube_faces -> cube_role f = cube_role g -> f = g) /\
  cube_role (cube_face 1 false) = (1%nat, false) /\ cube_role (cube_face 1 true) = (1%nat, true).
Proof.
  split; [|split; [|split; reflexivity]].
  - assert (Z : forall x, near_t 0 x x) by (intros x; unfold near_t; rewrite Rminus_diag_eq, Rabs_R0 by reflexivity; lra).
    intros f Hf. cbn [cube_faces In] in Hf. decompose [or] Hf; try contradiction; subst f; (split; [cbn; lia|]); cbn; rewrite ?Rplus_0_l; (split; [apply Z|split; [apply Z|]]); intros b Hb Hne; destruct b as [|[|[|b]]]; cbn; (contradiction || lia || (split; apply Z)).
  - intros f g Hf Hg E. cbn [cube_faces In] in Hf, Hg. decompose [or] Hf; try contradiction; subst f; decompose [or] Hg; try contradiction; subst g; try reflexivity; cbn in E; discriminate E.
Qed.

(** ** Node-count tuning *)
Section Retune.
Variable M : Type.
Variable gen : R -> R -> M.
Variable count : M -> R.
Lemma retune_inv t : forall fuel h1 h2 m calls out cs, retune M gen count fuel t h1 h2 m calls = (out, cs) ->
  (exists tl, calls = (h1, h2) :: tl) -> m = gen h1 h2 ->
  exists new, cs = new ++ calls /\ (length new <= fuel)%nat /\ (exists a b tl, cs = (a, b) :: tl /\ out = gen a b) /\
    (forall c, In c cs -> In c calls \/ exists k, fst c = h1 * k /\ snd c = h2 * k /\ 0 < k) /\
    ((length new < fuel)%nat -> accepted M count t out = true) /\
    ((forall a b, accepted M count t (gen a b) = false) -> length new = fuel).
Proof using Type.
  induction fuel as [|fuel IH]; intros h1 h2 m calls out cs E (tl & Ec) Em; cbn [retune] in E.
  - injection E as <- <-. exists []. split; [reflexivity|]. split; [cbn; lia|]. split; [exists h1, h2, tl; split; assumption|]. split; [intros c Hc; left; exact Hc|]. split; [cbn; lia|reflexivity].
  - destruct (accepted M count t m) eqn:A.
    + injection E as <- <-. exists []. split; [reflexivity|]. split; [cbn; lia|]. split; [exists h1, h2, tl; split; assumption|]. split; [intros c Hc; left; exact Hc|]. split; [intros _; exact A|].
      intros N. exfalso. rewrite Em, N in A. discriminate.
    + set (r := Rpower (count m / t) (1 / 3)) in *. destruct (IH _ _ _ _ _ _ E) as (new & Ecs & Ln & Hd & Rt & Ac & Nv); [eexists; reflexivity|reflexivity|].
      assert (rp : 0 < r) by (unfold r, Rpower; apply exp_pos).
      exists (new ++ [(h1 * r, h2 * r)]). rewrite app_length. cbn [length]. split; [rewrite Ecs, <- app_assoc; reflexivity|]. split; [lia|]. split; [exact Hd|]. split; [|split; [intros H; apply Ac; lia|intros N; rewrite (Nv N); lia]].
      intros c Hc. destruct (Rt c Hc) as [[<-|H]|(k & E1 & E2 & K)].
      * right. exists r. cbn. auto.
      * left. exact H.
      * right. exists (r * k). rewrite E1, E2. split; [ring|]. split; [ring|]. apply Rmult_lt_0_compat; assumption.
Qed.
End Retune.
(** The mesh is the one generated last; the sizes of every attempt are the given ones times one positive factor
    (so their ratio never changes), the first being 1; stopping early means the node count is within 30 per cent. *)
Theorem C78_retune (M : Type) (gen : R -> R -> M) (count : M -> R) target max_retries h_min h_max out calls :
  adaptive_box_mesh M gen count target max_retries h_min h_max = (out, calls) ->
  (exists a b tl, calls = (a, b) :: tl /\ out = gen a b) /\
  (forall c, In c calls -> exists k, fst c = h_min * k /\ snd c = h_max * k /\ 0 < k) /\
  (exists tl, calls = tl ++ [(h_min, h_max)]) /\
  (target = None -> calls = [(h_min, h_max)]) /\
  (length calls <= max_retries + 1)%nat /\
  (forall t, target = Some t -> 0 < t -> (length calls < max_retries + 1)%nat -> 7 / 10 * t < count out < 13 / 10 * t).
Proof.
  unfold adaptive_box_mesh. destruct target as [t|].
  - intros E. destruct (retune_inv M gen count t _ _ _ _ _ _ _ E) as (new & -> & Ln & Hd & Rt & Ac & _); [eexists; reflexivity|reflexivity|].
    split; [exact Hd|]. split; [|split; [exists new; reflexivity|split; [discriminate|split; [rewrite app_length; cbn; lia|]]]].
    + intros c Hc. destruct (Rt c Hc) as [[<-|[]]|K]; [|exact K]. exists 1. cbn. split; [ring|]. split; [ring|lra].
    + intros t' [= <-] Ht L. rewrite app_length in L. cbn in L. specialize (Ac ltac:(lia)). unfold accepted in Ac.
      destruct (Rlt_dec (7 / 10) (count out / t)) as [L1|]; [|discriminate]. destruct (Rlt_dec (count out / t) (13 / 10)) as [L2|]; [|discriminate].
      assert (Ec : count out = count out / t * t) by (field; lra). rewrite Ec. split; apply Rmult_lt_compat_r; assumption.
  - intros [= <- <-]. split; [exists h_min, h_max, []; split; reflexivity|]. split; [intros c [<-|[]]; exists 1; cbn; split; [ring|split; [ring|lra]]|].
    split; [exists []; reflexivity|]. split; [reflexivity|]. split; [cbn; lia|]. intros t' [=].
Qed.
Print Assumptions C78_retune.
(** FINDING: [max_retries] counts the generations after the first; "maximum generation attempts" is one more. *)
Theorem C78_attempts_refuted (max_retries : nat) : exists (gen : R -> R -> R) count t out calls,
  adaptive_box_mesh R gen count (Some t) max_retries 1 2 = (out, calls) /\ length calls = S max_retries.
Proof.
  exists (fun _ _ => 10), (fun n => n), 100.
  destruct (adaptive_box_mesh R (fun _ _ => 10) (fun n => n) (Some 100) max_retries 1 2) as [out calls] eqn:E. exists out, calls. split; [reflexivity|].
  unfold adaptive_box_mesh in E. destruct (retune_inv R (fun _ _ => 10) (fun n => n) 100 _ _ _ _ _ _ _ E) as (new & -> & _ & _ & _ & _ & Nv); [eexists; reflexivity|reflexivity|].
  rewrite app_length. cbn [length]. rewrite Nv; [lia|]. intros a b. unfold accepted. destruct (Rlt_dec (7 / 10) (10 / 100)); [exfalso; lra|reflexivity].
Qed.
Print Assumptions C78_attempts_refuted.
(** FINDING: the last mesh is returned unchecked, even if an earlier one was closer to the target. *)
Theorem C78_best_refuted : exists (gen : R -> R -> R) t out calls, adaptive_box_mesh R gen (fun n => n) (Some t) 1 1 2 = (out, calls) /\
  exists a b, In (a, b) calls /\ Rabs (gen a b - t) < Rabs (out - t).
Proof.
  exists (fun a _ => if Req_EM_T a 1 then 140 else 500), 100.
  assert (P : 1 * Rpower (140 / 100) (1 / 3) <> 1).
  { assert (1 < Rpower (140 / 100) (1 / 3)); [|lra]. apply Rle_lt_trans with (Rpower (140 / 100) 0); [rewrite Rpower_O; lra|apply Rpower_lt; lra]. }
  do 2 eexists. split.
  - unfold adaptive_box_mesh. cbn [retune]. unfold accepted. destruct (Req_EM_T 1 1) as [_|]; [|contradiction].
    destruct (Rlt_dec (7 / 10) (140 / 100)) as [_|N]; [|exfalso; lra]. destruct (Rlt_dec (140 / 100) (13 / 10)) as [N|_]; [exfalso; lra|].
    destruct (Req_EM_T (1 * Rpower (140 / 100) (1 / 3)) 1) as [N|_]; [contradiction|]. reflexivity.
  - exists 1, 2. split; [right; left; reflexivity|]. destruct (Req_EM_T 1 1) as [_|]; [|contradiction]. rewrite (Rabs_right (140 - 100)), (Rabs_right (500 - 100)) by lra. lra.
Qed.
Print Assumptions C78_best_refuted.
