(** Property C91: result files. *)
From Coq Require Import List Arith Bool String Decimal DecimalNat DecimalString Lia.
From Verif Require Import Writer_Model.
Import ListNotations.
Open Scope string_scope.

(** Frame names never coincide. *)
Lemma of_zeros k u : Nat.of_uint (zeros k u) = Nat.of_uint u.
Proof. induction k as [|k IH]; [reflexivity|]. cbn [zeros]. transitivity (Nat.of_uint (zeros k u)); [|exact IH]. unfold Nat.of_uint. reflexivity. Qed.
Lemma prefix_inj a b : prefix a = prefix b -> a = b.
Proof.
  unfold prefix. cbn [append]. intros H. injection H as H. apply (f_equal NilEmpty.uint_of_string) in H. rewrite !NilEmpty.usu in H. injection H as H.
  apply (f_equal Nat.of_uint) in H. rewrite !of_zeros in H. rewrite !DecimalNat.Unsigned.of_to in H. exact H.
Qed.

Section Props.
Context {A T : Type}.
Variable zero : A.
Variables n_points n_cells : nat.
Notation array := (@array A). Notation field := (@field A). Notation state := (@state A T). Notation op := (@op A T).
Notation normalize := (normalize zero). Notation step := (step zero n_points n_cells). Notation run := (run zero n_points n_cells).
Notation write_fields := (write_fields zero).

Lemma path_eqb_true a b : path_eqb a b = true <-> a = b.
Proof.
  destruct a as [[p c] n], b as [[p' c'] n']. cbn. rewrite !andb_true_iff, !String.eqb_eq. split.
  - intros [[-> Hc] ->]. destruct c, c'; try discriminate; reflexivity.
  - intros [= -> -> ->]. repeat split. destruct c'; reflexivity.
Qed.
Lemma lookup_in (f : @h5 A) p a : lookup f p = Some a -> In (p, a) (arrays f).
Proof. unfold lookup. destruct (find (fun q => path_eqb (fst q) p) (arrays f)) as [[q b]|] eqn:E; [|discriminate]. intros [= <-]. apply find_some in E. destruct E as [H1 H2]. cbn in *. apply path_eqb_true in H2. subst q. exact H1. Qed.
Lemma lookup_cons g (f : list (path * array)) q b p : lookup {| groups := g; arrays := (q, b) :: f |} p = if path_eqb q p then Some b else lookup {| groups := g; arrays := f |} p.
Proof. unfold lookup. cbn. destruct (path_eqb q p); reflexivity. Qed.
Lemma lookup_groups g g' (f : list (path * array)) p : lookup {| groups := g; arrays := f |} p = lookup {| groups := g'; arrays := f |} p.
Proof. reflexivity. Qed.

(** What one field becomes. *)
Definition shape_of (n : nat) (d : array) : list nat := match normalize n d with Some a => shape a | None => [] end.
Definition records (n : nat) (l : list field) : list (string * list nat) := map (fun p => (fst p, shape_of n (snd p))) l.
Definition good (n : nat) (l : list field) : Prop := NoDup (map fst l) /\ forall nm d, In (nm, d) l -> normalize n d <> None.
Definition stored (pre : string) (c : center) (n : nat) (l : list field) (f : @h5 A) : Prop := forall nm d, In (nm, d) l -> exists a, normalize n d = Some a /\ lookup f (pre, c, nm) = Some a.

Lemma write_fields_spec pre c n : forall l f r f', write_fields pre c n l f = (r, f') ->
  groups f' = groups f /\ (forall p a, lookup f p = Some a -> lookup f' p = Some a) /\ (forall p a, In (p, a) (arrays f') -> In (p, a) (arrays f) \/ (fst (fst p) = pre /\ snd (fst p) = c)) /\
  (forall rr, r = Some rr -> rr = records n l /\ stored pre c n l f').
Proof.
  induction l as [|[nm d] l IH]; intros f r f'; cbn [Writer_Model.write_fields].
  - intros [= <- <-]. split; [reflexivity|]. split; [intros; assumption|]. split; [intros; left; assumption|]. intros rr [= <-]. split; [reflexivity|]. intros nm d [].
  - destruct (normalize n d) as [a|] eqn:E; [|intros [= <- <-]; split; [reflexivity|]; split; [intros; assumption|]; split; [intros; left; assumption|discriminate]].
    destruct (lookup f (pre, c, nm)) as [b|] eqn:L; [intros [= <- <-]; split; [reflexivity|]; split; [intros; assumption|]; split; [intros; left; assumption|discriminate]|].
    destruct (write_fields pre c n l {| groups := groups f; arrays := (pre, c, nm, a) :: arrays f |}) as [r1 f1] eqn:W. destruct (IH _ _ _ W) as (G & M & O & R).
    assert (K : groups f1 = groups f /\ (forall p b, lookup f p = Some b -> lookup f1 p = Some b) /\ (forall p b, In (p, b) (arrays f1) -> In (p, b) (arrays f) \/ (fst (fst p) = pre /\ snd (fst p) = c))).
    { split; [exact G|]. split.
      - intros p b H. apply M. rewrite lookup_cons. destruct (path_eqb (pre, c, nm) p) eqn:P; [apply path_eqb_true in P; subst p; congruence|]. destruct f; exact H.
      - intros p b H. apply O in H. cbn in H. destruct H as [[H|H]|H]; [injection H as <- _; right; split; reflexivity|left; exact H|right; exact H]. }
    destruct r1 as [rr|]; intros [= <- <-]; (split; [apply K|]; split; [apply K|]; split; [apply K|]); [|discriminate].
    intros rr' [= <-]. destruct (R rr eq_refl) as [-> S]. split; [unfold records; cbn [map fst snd]; unfold shape_of at 2; rewrite E; reflexivity|].
    intros nm' d' [[= <- <-]|H]; [|apply S, H]. exists a. split; [exact E|]. apply M. rewrite lookup_cons. assert (P : path_eqb (pre, c, nm) (pre, c, nm) = true) by (apply path_eqb_true; reflexivity). rewrite P. reflexivity.
Qed.
(** Fields are written exactly when each has the right size and shape and no name occurs twice. *)
Lemma write_fields_ok pre c n : forall l f, (forall nm, In nm (map fst l) -> lookup f (pre, c, nm) = None) -> (fst (write_fields pre c n l f) <> None <-> good n l).
Proof.
  unfold good. induction l as [|[nm d] l IH]; intros f Fr; cbn [Writer_Model.write_fields].
  - split; [intros _; split; [constructor|intros nm d []]|discriminate].
  - destruct (normalize n d) as [a|] eqn:E.
    2: { split; [intros H; exfalso; apply H; reflexivity|intros [_ H]; exfalso; apply (H nm d); [left; reflexivity|exact E]]. }
    rewrite (Fr nm (or_introl eq_refl)). set (f1 := {| groups := groups f; arrays := (pre, c, nm, a) :: arrays f |}).
    destruct (in_dec string_dec nm (map fst l)) as [Hin|Hin].
    + split.
      * destruct (write_fields pre c n l f1) as [[rr|] f2] eqn:W; [|intros H; exfalso; apply H; reflexivity]. intros _. exfalso.
        assert (G : forall l f r f', In nm (map fst l) -> lookup f (pre, c, nm) = Some a -> write_fields pre c n l f = (Some r, f') -> False).
        { clear. induction l as [|[nm' d'] l IH]; intros f r f' Hi Hl Hw; [destruct Hi|]. cbn [Writer_Model.write_fields] in Hw. destruct (normalize n d') as [b|]; [|discriminate].
          destruct (lookup f (pre, c, nm')) eqn:L; [discriminate|]. destruct Hi as [Hi|Hi]; [cbn in Hi; subst nm'; congruence|].
          destruct (write_fields pre c n l {| groups := groups f; arrays := (pre, c, nm', b) :: arrays f |}) as [[r1|] f1] eqn:W; [|discriminate].
          refine (IH _ _ _ Hi _ W). rewrite lookup_cons. destruct (path_eqb (pre, c, nm') (pre, c, nm)) eqn:P; [apply path_eqb_true in P; injection P as ->; congruence|destruct f; exact Hl]. }
        refine (G l f1 rr f2 Hin _ W). unfold f1. rewrite lookup_cons. assert (P : path_eqb (pre, c, nm) (pre, c, nm) = true) by (apply path_eqb_true; reflexivity). rewrite P. reflexivity.
      * intros [N _]. cbn in N. inversion N; contradiction.
    + specialize (IH f1). assert (Fr1 : forall nm', In nm' (map fst l) -> lookup f1 (pre, c, nm') = None).
      { intros nm' H. unfold f1. rewrite lookup_cons. destruct (path_eqb (pre, c, nm) (pre, c, nm')) eqn:P; [apply path_eqb_true in P; injection P as ->; contradiction|]. assert (Q := Fr nm' (or_intror H)). destruct f; exact Q. }
      specialize (IH Fr1). destruct (write_fields pre c n l f1) as [[rr|] f2]; cbn [fst] in *.
      * split; [intros _|discriminate]. destruct (proj1 IH ltac:(discriminate)) as [N H]. split; [cbn; constructor; assumption|]. intros nm' d' [[= <- <-]|H']; [congruence|apply (H nm' d' H')].
      * split; [intros H; exfalso; apply H; reflexivity|]. intros [N H]. exfalso. apply (proj2 IH); [|reflexivity]. split; [cbn in N; inversion N; assumption|]. intros nm' d' H'. apply (H nm' d'). right. exact H'.
Qed.

(** ** Histories *)
(** The frames accepted since the last entry, and whether one was refused since. *)
Definition entry : Type := T * list field * list field.
Fixpoint accepted (ops : list op) (s : state) (acc : list entry) : list entry :=
  match ops with
  | [] => acc
  | o :: ops => let '(ok, s') := step o s in
      accepted ops s' (match o with Enter => if ok then [] else acc | Write t p c => if ok then acc ++ [(t, p, c)] else acc | Exit _ => acc end)%list
  end.
Fixpoint refused (ops : list op) (s : state) (b : bool) : bool :=
  match ops with
  | [] => b
  | o :: ops => let '(ok, s') := step o s in refused ops s' (match o with Enter => if ok then false else b | Write _ _ _ => b || (is_open s && negb ok) | Exit _ => b end)
  end.
Fixpoint frames_of (k : nat) (acc : list entry) : list (@frame T) :=
  match acc with
  | [] => []
  | (t, p, c) :: acc => {| time := t; name := prefix k; point_records := records n_points p; cell_records := records n_cells c |} :: frames_of (S k) acc
  end.
Lemma frames_of_app k acc t p c : frames_of k (acc ++ [(t, p, c)]) = (frames_of k acc ++ [{| time := t; name := prefix (k + List.length acc); point_records := records n_points p; cell_records := records n_cells c |}])%list.
Proof. revert k. induction acc as [|[[t' p'] c'] acc IH]; intros k; cbn; [rewrite Nat.add_0_r; reflexivity|]. rewrite IH. replace (k + S (List.length acc)) with (S k + List.length acc) by lia. reflexivity. Qed.
Definition keys (e : entry) : list string * list string := let '(t, p, c) := e in (map fst p, map fst c).
Definition Inv (s : state) (acc : list entry) (rej : bool) : Prop :=
  (is_open s = true -> frames s <> None) /\
  (frames s = None -> acc = [] /\ rej = false) /\
  forall l, frames s = Some l ->
    l = frames_of 0 acc /\ frame_id s = List.length acc /\
    (forall k t p c, nth_error acc k = Some (t, p, c) -> stored (prefix k) Node n_points p (file s) /\ stored (prefix k) Cell n_cells c (file s)) /\
    (forall g, In g (groups (file s)) <-> exists k, g = prefix k /\ (k < List.length acc \/ (rej = true /\ k = List.length acc))) /\
    (forall p a, In (p, a) (arrays (file s)) -> In (fst (fst p)) (groups (file s))) /\
    (forall e, In e acc -> signature s = Some (keys e) /\ good n_points (snd (fst e)) /\ good n_cells (snd e)).
Lemma sig_eqb_true a b : sig_eqb a b = true <-> a = b.
Proof.
  unfold sig_eqb. destruct a as [a1 a2], b as [b1 b2]. cbn [fst snd]. destruct (list_eq_dec string_dec a1 b1) as [->|N]; destruct (list_eq_dec string_dec a2 b2) as [->|N2]; cbn; split; try reflexivity; try discriminate; try (intros [= -> ->]; contradiction); intros [= ->]; contradiction.
Qed.
Lemma stored_mono pre c n l (f f' : @h5 A) : (forall p a, lookup f p = Some a -> lookup f' p = Some a) -> stored pre c n l f -> stored pre c n l f'.
Proof. intros M S nm d H. destruct (S nm d H) as (a & H1 & H2). exists a. split; [exact H1|apply M, H2]. Qed.
Lemma group_iff (s : state) acc rej l : Inv s acc rej -> frames s = Some l -> existsb (String.eqb (prefix (frame_id s))) (groups (file s)) = rej.
Proof.
  intros (_ & _ & I) E. destruct (I l E) as (_ & F & _ & G & _). rewrite F. destruct rej.
  - apply existsb_exists. exists (prefix (List.length acc)). split; [|apply String.eqb_refl]. apply G. exists (List.length acc). split; [reflexivity|right; split; reflexivity].
  - destruct (existsb (String.eqb (prefix (List.length acc))) (groups (file s))) eqn:X; [|reflexivity]. apply existsb_exists in X. destruct X as (g & Hg & Eg). apply String.eqb_eq in Eg. subst g. apply G in Hg. destruct Hg as (k & Ek & Hk). apply prefix_inj in Ek. destruct Hk as [Hk|[Hk _]]; [lia|discriminate].
Qed.
Lemma step_inv o s acc rej : Inv s acc rej -> let '(ok, s') := step o s in
  Inv s' (match o with Enter => if ok then [] else acc | Write t p c => if ok then acc ++ [(t, p, c)] else acc | Exit _ => acc end)%list
         (match o with Enter => if ok then false else rej | Write _ _ _ => rej || (is_open s && negb ok) | Exit _ => rej end).
Proof.
  intros HI. destruct o as [|t p c|exc]; cbn [Writer_Model.step].
  - unfold enter. destruct (is_open s) eqn:O; [exact HI|]. split; [discriminate|]. split; [discriminate|]. intros l [= <-]. split; [reflexivity|]. split; [reflexivity|]. split; [intros [|k]; discriminate|].
    split; [intros g; cbn; split; [intros []|intros (k & _ & [H|[H _]]); [lia|discriminate]]|]. split; [intros p a []|intros e []].
  - unfold write. destruct (is_open s) eqn:O; cbn [negb]; [|rewrite andb_false_l, orb_false_r; exact HI]. pose proof HI as HI0. destruct HI as (I1 & I2 & I3).
    destruct (frames s) as [l|] eqn:Fr; [|exfalso; apply (I1 O); reflexivity]. specialize (I3 l eq_refl). destruct I3 as (L & F & S & G & P & K).
    rewrite (group_iff s acc rej l HI0 Fr). destruct rej; [exact HI0|]. cbn [orb andb negb].
    set (pre := prefix (frame_id s)). set (f1 := {| groups := pre :: groups (file s); arrays := arrays (file s) |}).
    assert (L1 : forall q, lookup f1 q = lookup (file s) q) by (intros q; unfold f1; destruct (file s); reflexivity).
    assert (Refuse : forall f' sg, groups f' = groups f1 -> (forall q a, lookup f1 q = Some a -> lookup f' q = Some a) -> (forall q a, In (q, a) (arrays f') -> In (q, a) (arrays f1) \/ fst (fst q) = pre) ->
              (forall e, In e acc -> sg = Some (keys e)) -> Inv (with_file s f' sg) acc true).
    { intros f' sg Gf Mf Of Sg. split; [intros _; cbn; rewrite Fr; discriminate|]. split; [cbn; rewrite Fr; discriminate|]. intros l' El. cbn in El. rewrite Fr in El. injection El as <-. split; [exact L|]. split; [exact F|]. split.
      - intros k t' p' c' Hk. destruct (S k t' p' c' Hk) as [S1 S2]. split; eapply stored_mono; try eassumption; intros q a Hq; apply Mf; rewrite L1; exact Hq.
      - split; [|split].
        + intros g. cbn. rewrite Gf. cbn. split.
          * intros [<-|Hg]; [exists (List.length acc); split; [unfold pre; rewrite F; reflexivity|right; split; reflexivity]|]. apply G in Hg. destruct Hg as (k & Ek & [Hk|[Hk _]]); [|discriminate]. exists k. split; [exact Ek|left; exact Hk].
          * intros (k & Ek & [Hk|[_ Hk]]); [right; apply G; exists k; split; [exact Ek|left; exact Hk]|left; subst; unfold pre; rewrite F; reflexivity].
        + intros q a Hq. cbn in *. rewrite Gf. cbn. apply Of in Hq. destruct Hq as [Hq|Hq]; [right; apply (P q a Hq)|left; symmetry; exact Hq].
        + intros e He. cbn. split; [apply Sg, He|apply K, He]. }
    assert (Fresh : forall c' nm, lookup f1 (pre, c', nm) = None).
    { intros c' nm. rewrite L1. destruct (lookup (file s) (pre, c', nm)) eqn:X; [|reflexivity]. exfalso. apply lookup_in in X. apply P in X. cbn in X. pose proof (group_iff s acc false l HI0 Fr) as Q. fold pre in Q. apply Bool.not_true_iff_false in Q. apply Q. apply existsb_exists. exists pre. split; [exact X|apply String.eqb_refl]. }
    destruct (match signature s with Some sg => sig_eqb sg (map fst p, map fst c) | None => true end) eqn:Sg; cbn [negb].
    2: { cbn [negb]. apply Refuse; [reflexivity|intros; assumption|intros; left; assumption|intros e He; apply K, He]. }
    assert (SgK : forall e, In e acc -> keys e = (map fst p, map fst c)) by (intros e He; destruct (K e He) as [Se _]; rewrite Se in Sg; apply sig_eqb_true in Sg; exact Sg).
    destruct (write_fields pre Node n_points p f1) as [r2 f2] eqn:W1. destruct (write_fields_spec _ _ _ _ _ _ _ W1) as (G2 & M2 & O2 & R2).
    destruct r2 as [pr|]; [|cbn [negb]; apply Refuse; [exact G2|exact M2|intros q a Hq; destruct (O2 q a Hq) as [X|[X _]]; auto|intros e He; rewrite (SgK e He); reflexivity]].
    destruct (write_fields pre Cell n_cells c f2) as [r3 f3] eqn:W2. destruct (write_fields_spec _ _ _ _ _ _ _ W2) as (G3 & M3 & O3 & R3).
    assert (O23 : forall q a, In (q, a) (arrays f3) -> In (q, a) (arrays f1) \/ fst (fst q) = pre) by (intros q a Hq; destruct (O3 q a Hq) as [X|[X _]]; [destruct (O2 q a X) as [Y|[Y _]]; auto|auto]).
    destruct r3 as [cr|]; [|cbn [negb]; apply Refuse; [congruence|intros; apply M3, M2; assumption|exact O23|intros e He; rewrite (SgK e He); reflexivity]].
    destruct (R2 pr eq_refl) as [-> S2]. destruct (R3 cr eq_refl) as [-> S3].
    split; [intros _; cbn; discriminate|]. split; [cbn; discriminate|]. intros l' El. cbn in El. injection El as <-. cbn [file frame_id signature groups]. split; [rewrite L, frames_of_app; cbn [Nat.add]; unfold pre; rewrite F; reflexivity|].
    split; [rewrite app_length, F; cbn; lia|]. split; [|split; [|split]].
    + intros k t' p' c' Hk. destruct (Nat.lt_ge_cases k (List.length acc)) as [Hlt|Hge].
      * rewrite nth_error_app1 in Hk by exact Hlt. destruct (S k t' p' c' Hk) as [S1 S1']. assert (M13 : forall q a, lookup (file s) q = Some a -> lookup f3 q = Some a) by (intros q a Hq; apply M3, M2; rewrite L1; exact Hq). split; eapply stored_mono; [exact M13|exact S1|exact M13|exact S1'].
      * rewrite nth_error_app2 in Hk by exact Hge. destruct (k - List.length acc) as [|m] eqn:Em; cbn in Hk; [|destruct m; discriminate]. injection Hk as <- <- <-. assert (k = frame_id s) by lia. subst k. fold pre. split; [eapply stored_mono; [exact M3|exact S2]|exact S3].
    + intros g. rewrite G3, G2. cbn. rewrite app_length. cbn. split.
      * intros [<-|Hg]; [exists (List.length acc); split; [unfold pre; rewrite F; reflexivity|left; lia]|]. apply G in Hg. destruct Hg as (k & Ek & [Hk|[Hk _]]); [|discriminate]. exists k. split; [exact Ek|left; lia].
      * intros (k & Ek & [Hk|[Hk _]]); [|discriminate]. destruct (Nat.eq_dec k (List.length acc)) as [->|Ne]; [left; unfold pre; rewrite F; auto|right; apply G; exists k; split; [exact Ek|left; lia]].
    + intros q a Hq. rewrite G3, G2. cbn. destruct (O23 q a Hq) as [Hq'|Hq']; [right; apply (P q a Hq')|left; symmetry; exact Hq'].
    + assert (Gp : good n_points p) by (apply (write_fields_ok pre Node n_points p f1); [intros nm _; apply Fresh|rewrite W1; discriminate]).
      assert (Gc : good n_cells c).
      { apply (write_fields_ok pre Cell n_cells c f2); [|rewrite W2; discriminate]. intros nm _. destruct (lookup f2 (pre, Cell, nm)) eqn:X; [|reflexivity]. exfalso. apply lookup_in in X. destruct (O2 _ _ X) as [Y|[_ Y]]; [|discriminate].
        assert (Q : In pre (groups (file s))) by (apply (P _ _ Y)). pose proof (group_iff s acc false l HI0 Fr) as QQ. fold pre in QQ. apply Bool.not_true_iff_false in QQ. apply QQ. apply existsb_exists. exists pre. split; [exact Q|apply String.eqb_refl]. }
      intros e He. apply in_app_or in He. destruct He as [He|[<-|[]]]; [destruct (K e He) as (_ & K2); rewrite (SgK e He); split; [reflexivity|exact K2]|cbn; split; [reflexivity|split; assumption]].
  - unfold exit. destruct HI as (I1 & I2 & I3). destruct (frames s) as [l|] eqn:Fr.
    + specialize (I3 l eq_refl). destruct (grids l); (split; [discriminate|]; split; [cbn; discriminate|]; intros l' El; cbn in El; injection El as <-; exact I3).
    + split; [discriminate|]. split; [intros _; apply I2; reflexivity|]. cbn. discriminate.
Qed.
Lemma run_inv ops : forall s acc rej, Inv s acc rej -> Inv (run ops s) (accepted ops s acc) (refused ops s rej).
Proof.
  induction ops as [|o ops IH]; intros s acc rej HI; [exact HI|]. cbn [Writer_Model.run accepted refused]. pose proof (step_inv o s acc rej HI) as HS. destruct (step o s) as [ok s']. cbn [snd]. apply IH, HS.
Qed.
Lemma init_inv : Inv init [] false.
Proof. split; [discriminate|]. split; [intros _; split; reflexivity|]. discriminate. Qed.
(** ** Theorems *)
(** How a field of a frame appears in the index: under its name, with the type and dimensions of its stored array, and pointing to it. *)
Definition shown (f : @h5 A) (c : center) (n : nat) (fd : field) (a : attribute) : Prop :=
  a_name a = fst fd /\ a_center a = c /\ exists arr, normalize n (snd fd) = Some arr /\ lookup f (a_path a) = Some arr /\ attribute_type (shape arr) = Some (a_type a, a_dims a) /\ fst (a_dims a) * snd (a_dims a) = size (shape arr).
Definition supported (n : nat) (l : list field) : Prop := forall fd, In fd l -> attribute_type (shape_of n (snd fd)) <> None.
Definition all_supported (acc : list entry) : Prop := forall t p c, In (t, p, c) acc -> supported n_points p /\ supported n_cells c.
Lemma dims_size sh ty dims : attribute_type sh = Some (ty, dims) -> fst dims * snd dims = size sh.
Proof.
  unfold attribute_type, size. destruct sh as [|n [|k [|b [|x sh]]]]; try discriminate; cbn [fold_right].
  - intros [= <- <-]. cbn. lia.
  - destruct (Nat.eqb k 1); [|destruct (Nat.eqb k 2 || Nat.eqb k 3); [|destruct (Nat.eqb k 6); [|destruct (Nat.eqb k 9); [|discriminate]]]]; intros [= <- <-]; cbn [fst snd]; lia.
  - destruct (Nat.eqb k 3 && Nat.eqb b 3) eqn:E; [|discriminate]. apply andb_true_iff in E. destruct E as [E1 E2]. apply Nat.eqb_eq in E1, E2. subst. intros [= <- <-]. cbn. lia.
Qed.
Lemma attributes_spec pre c n (f : @h5 A) : forall l, stored pre c n l f ->
  (supported n l -> exists r, attributes pre c (records n l) = Some r /\ Forall2 (shown f c n) l r) /\ (~ supported n l -> attributes pre c (records n l) = None) /\ (attributes pre c (records n l) <> None -> supported n l).
Proof.
  induction l as [|[nm d] l IH]; intros S; unfold records; cbn [map attributes fst snd].
  - split; [intros _; exists []; split; [reflexivity|constructor]|]. split; [intros H; exfalso; apply H; intros fd []|]. intros _ fd [].
  - destruct (S nm d (or_introl eq_refl)) as (a & Na & La). assert (Sl : stored pre c n l f) by (intros nm' d' H; apply S; right; exact H). destruct (IH Sl) as (I1 & I2 & I3). fold (records n l).
    assert (Es : shape_of n d = shape a) by (unfold shape_of; rewrite Na; reflexivity). rewrite Es.
    destruct (attribute_type (shape a)) as [[ty dims]|] eqn:E.
    + split; [|split].
      * intros Sp. destruct (I1 (fun fd H => Sp fd (or_intror H))) as (r & -> & F). eexists. split; [reflexivity|]. constructor; [|exact F]. split; [reflexivity|]. split; [reflexivity|]. exists a. repeat split; try assumption. apply (dims_size _ _ _ E).
      * intros Ns. rewrite I2; [reflexivity|]. intros Sp. apply Ns. intros fd [<-|H]; [cbn; rewrite Es, E; discriminate|apply Sp, H].
      * destruct (attributes pre c (records n l)) as [r|]; [|intros H; exfalso; apply H; reflexivity]. intros _ fd [<-|H]; [cbn; rewrite Es, E; discriminate|apply (I3 ltac:(discriminate)), H].
    + split; [intros Sp; exfalso; apply (Sp (nm, d) (or_introl eq_refl)); cbn; rewrite Es; exact E|]. split; [reflexivity|]. intros H. exfalso. apply H. reflexivity.
Qed.
Definition grid_of (f : @h5 A) (k : nat) (e : entry) (g : grid) : Prop :=
  let '(t, p, c) := e in g_time g = t /\ g_name g = prefix k /\ exists ap ac, g_attributes g = (ap ++ ac)%list /\ Forall2 (shown f Node n_points) p ap /\ Forall2 (shown f Cell n_cells) c ac.
Lemma grids_spec (f : @h5 A) : forall acc k, (forall i t p c, nth_error acc i = Some (t, p, c) -> stored (prefix (k + i)) Node n_points p f /\ stored (prefix (k + i)) Cell n_cells c f) ->
  (all_supported acc -> exists g, grids (frames_of k acc) = Some g /\ List.length g = List.length acc /\ forall i e, nth_error acc i = Some e -> exists gi, nth_error g i = Some gi /\ grid_of f (k + i) e gi) /\
  (grids (frames_of k acc) <> None -> all_supported acc).
Proof.
  induction acc as [|[[t p] c] acc IH]; intros k S; cbn [frames_of grids].
  - split; [intros _; exists []; split; [reflexivity|]; split; [reflexivity|]; intros [|i]; discriminate|]. intros _ t p c [].
  - cbn [time name point_records cell_records]. destruct (S 0 t p c eq_refl) as [Sp Sc]. rewrite Nat.add_0_r in Sp, Sc.
    destruct (IH (Datatypes.S k)) as [I1 I2]. { intros i t' p' c' Hi. replace (Datatypes.S k + i) with (k + Datatypes.S i) by lia. apply (S (Datatypes.S i) t' p' c' Hi). }
    destruct (attributes_spec (prefix k) Node n_points f p Sp) as (P1 & _ & P3). destruct (attributes_spec (prefix k) Cell n_cells f c Sc) as (C1 & _ & C3). split.
    + intros Al. destruct (Al t p c (or_introl eq_refl)) as [Up Uc]. destruct (P1 Up) as (ap & -> & Fp). destruct (C1 Uc) as (ac & -> & Fc). destruct (I1 (fun t' p' c' H => Al t' p' c' (or_intror H))) as (g & -> & Lg & Hg).
      eexists. split; [reflexivity|]. split; [cbn; rewrite Lg; reflexivity|]. intros [|i] e He; cbn in *.
      * injection He as <-. eexists. split; [reflexivity|]. rewrite Nat.add_0_r. cbn. split; [reflexivity|]. split; [reflexivity|]. exists ap, ac. auto.
      * destruct (Hg i e He) as (gi & H1 & H2). exists gi. split; [exact H1|]. replace (k + Datatypes.S i) with (Datatypes.S k + i) by lia. exact H2.
    + destruct (attributes (prefix k) Node (records n_points p)) as [ap|]; [|intros H; exfalso; apply H; reflexivity]. destruct (attributes (prefix k) Cell (records n_cells c)) as [ac|]; [|intros H; exfalso; apply H; reflexivity].
      destruct (grids (frames_of (Datatypes.S k) acc)) as [g|]; [|intros H; exfalso; apply H; reflexivity]. intros _ t' p' c' [[= <- <- <-]|H]; [split; [apply P3|apply C3]; discriminate|apply (I2 ltac:(discriminate) t' p' c' H)].
Qed.

(** For every history of entries, writes (accepted or refused) and exits: when the writer is left, with or without an exception, the index
    lists exactly the frames accepted since the last entry, in order, with their times, distinct names and all their fields, each
    field pointing to an array in the data file that holds the (padded) field, with matching type and dimensions. This needs
    every accepted field to have a supported number of components; if not, the index file is left as it was, and an error is
    raised unless an exception is under way. *)
Theorem C91_index ops exc : let s := run ops init in let acc := accepted ops init [] in let '(ok, s') := step (Exit exc) s in frames s <> None ->
  file s' = file s /\
  (all_supported acc -> ok = true /\ exists g, index s' = Some g /\ List.length g = List.length acc /\ forall k e, nth_error acc k = Some e -> exists gk, nth_error g k = Some gk /\ grid_of (file s') k e gk) /\
  (~ all_supported acc -> ok = exc /\ index s' = index s).
Proof using Type.
  intros s acc. pose proof (run_inv ops init [] false init_inv) as (_ & _ & HI). fold s in HI. fold acc in HI. destruct (step (Exit exc) s) as [ok s'] eqn:E. intros Hf. cbn in E. unfold exit in E.
  destruct (frames s) as [l|]; [|contradiction]. destruct (HI l eq_refl) as (L & _ & S & _). subst l. destruct (grids_spec (file s) acc 0 S) as [G1 G2]. split; [|split].
  - destruct (grids (frames_of 0 acc)); injection E as <- <-; reflexivity.
  - intros Al. destruct (G1 Al) as (g & Eg & Lg & Hg). rewrite Eg in E. injection E as <- <-. split; [reflexivity|]. exists g. auto.
  - intros Na. destruct (grids (frames_of 0 acc)) as [g|]; [exfalso; apply Na, G2; discriminate|]. injection E as <- <-. split; reflexivity.
Qed.
(** Frame names are distinct, for any number of frames, and of equal length (the number padded to six digits) as long as six digits suffice. *)
Theorem C91_frame_names a b : (prefix a = prefix b -> a = b) /\
  String.length (prefix a) = 6 + Nat.max 6 (String.length (NilEmpty.string_of_uint (Nat.to_uint a))) /\
  exists k, prefix a = "frame_" ++ NilEmpty.string_of_uint (zeros k (Nat.to_uint a)).
Proof using Type.
  split; [apply prefix_inj|]. split; [|eexists; reflexivity].
  assert (L : forall u, String.length (NilEmpty.string_of_uint u) = nb_digits u) by (induction u; cbn; congruence).
  assert (Z : forall k u, nb_digits (zeros k u) = k + nb_digits u) by (induction k; intros u; cbn; [reflexivity|rewrite IHk; reflexivity]).
  unfold prefix. cbn [append String.length]. rewrite !L, Z. lia.
Qed.
(** A write is accepted exactly when the writer is open, no earlier write was refused since the entry, the names are those of the
    first frame (of any session of this writer), no name occurs twice, and each field has the right leading size and is no tensor of another shape than 2x2 or 3x3. *)
Theorem C91_accept ops t p c : let s := run ops init in
  fst (step (Write t p c) s) = true <->
  is_open s = true /\ refused ops init false = false /\ (forall sg, signature s = Some sg -> sg = (map fst p, map fst c)) /\ good n_points p /\ good n_cells c.
Proof using Type.
  intros s. pose proof (run_inv ops init [] false init_inv) as HI0. fold s in HI0. pose proof HI0 as (I1 & _ & HI). cbn [Writer_Model.step]. unfold write. destruct (is_open s) eqn:O; cbn [negb fst]; [|split; [discriminate|intros [X _]; discriminate]].
  destruct (frames s) as [l|] eqn:Fr; [|exfalso; apply (I1 eq_refl); reflexivity]. rewrite (group_iff s _ _ l HI0 Fr). destruct (refused ops init false) eqn:Rj; [cbn; split; [discriminate|intros (_ & X & _); discriminate]|].
  destruct (HI l eq_refl) as (_ & _ & _ & _ & P & _). set (pre := prefix (frame_id s)). set (f1 := {| groups := pre :: groups (file s); arrays := arrays (file s) |}).
  assert (Np : ~ In pre (groups (file s))) by (intros Q; pose proof (group_iff s _ _ l HI0 Fr) as QQ; apply Bool.not_true_iff_false in QQ; apply QQ; apply existsb_exists; exists pre; split; [exact Q|apply String.eqb_refl]).
  assert (Fresh : forall c' nm, lookup f1 (pre, c', nm) = None) by (intros c' nm; destruct (lookup f1 (pre, c', nm)) eqn:X; [|reflexivity]; exfalso; apply lookup_in in X; apply P in X; exact (Np X)).
  assert (Sg : match signature s with Some sg => sig_eqb sg (map fst p, map fst c) | None => true end = true <-> forall sg, signature s = Some sg -> sg = (map fst p, map fst c)).
  { destruct (signature s) as [sg|]; [rewrite sig_eqb_true; split; [intros -> sg' [= <-]; reflexivity|intros H; apply H; reflexivity]|split; [discriminate|reflexivity]]. }
  destruct (match signature s with Some sg => sig_eqb sg (map fst p, map fst c) | None => true end) eqn:Es; cbn [negb].
  2: { cbn [fst]. split; [discriminate|]. intros (_ & _ & X & _). apply Sg in X. discriminate. }
  pose proof (write_fields_ok pre Node n_points p f1 (fun nm _ => Fresh Node nm)) as K1. destruct (write_fields pre Node n_points p f1) as [r2 f2] eqn:W1. cbn [fst] in K1.
  destruct (write_fields_spec _ _ _ _ _ _ _ W1) as (_ & _ & O2 & _).
  destruct r2 as [pr|]; [|cbn [fst]; split; [discriminate|intros (_ & _ & _ & X & _); apply K1 in X; contradiction]].
  assert (Fresh2 : forall nm, In nm (map fst c) -> lookup f2 (pre, Cell, nm) = None) by (intros nm _; destruct (lookup f2 (pre, Cell, nm)) eqn:X; [|reflexivity]; exfalso; apply lookup_in in X; destruct (O2 _ _ X) as [Y|[_ Y]]; [apply Np, (P _ _ Y)|discriminate]).
  pose proof (write_fields_ok pre Cell n_cells c f2 Fresh2) as K2. destruct (write_fields pre Cell n_cells c f2) as [r3 f3]. cbn [fst] in K2.
  destruct r3 as [cr|]; cbn [fst].
  - split; [intros _|reflexivity]. split; [reflexivity|]. split; [reflexivity|]. split; [apply Sg; reflexivity|]. split; [apply K1; discriminate|apply K2; discriminate].
  - split; [discriminate|]. intros (_ & _ & _ & _ & X). apply K2 in X. contradiction.
Qed.
(** So one refused write blocks the writer: until it is entered anew, every write is refused, whatever it holds. *)
Theorem C91_blocked ops t p c rest : let s := run ops init in is_open s = true -> fst (step (Write t p c) s) = false -> (forall o, In o rest -> exists t p c, o = Write t p c) ->
  accepted (ops ++ Write t p c :: rest) init [] = accepted ops init [] /\ forall t' p' c', fst (step (Write t' p' c') (run (ops ++ Write t p c :: rest) init)) = false.
Proof using Type.
  intros s Ho Hr Hw.
  assert (Ap : forall (l1 l2 : list op) (s0 : state), run (l1 ++ l2) s0 = run l2 (run l1 s0)) by (induction l1 as [|o l1 IH]; intros l2 s0; [reflexivity|cbn; apply IH]).
  assert (Ac : forall (l1 l2 : list op) (s0 : state) acc, accepted (l1 ++ l2) s0 acc = accepted l2 (run l1 s0) (accepted l1 s0 acc)).
  { induction l1 as [|o l1 IH]; intros l2 s0 acc; [reflexivity|]. cbn [List.app accepted Writer_Model.run]. destruct (step o s0) as [ok s1] eqn:E. cbn [snd]. apply IH. }
  pose proof (run_inv ops init [] false init_inv) as HI. fold s in HI.
  assert (G : forall rest : list op, (forall o, In o rest -> exists t p c, o = Write t p c) -> forall (s1 : state) acc, Inv s1 acc true -> is_open s1 = true -> accepted rest s1 acc = acc /\ is_open (run rest s1) = true /\ Inv (run rest s1) acc true).
  { clear. induction rest as [|o rest IH]; intros Hw s1 acc I1 O1; [split; [reflexivity|split; assumption]|]. destruct (Hw o (or_introl eq_refl)) as (t & p & c & ->). cbn [accepted Writer_Model.run Writer_Model.step].
    assert (E : write zero n_points n_cells t p c s1 = (false, s1)).
    { unfold write. rewrite O1. cbn [negb]. destruct (frames s1) as [l|] eqn:Fr; [|exfalso; apply (proj1 I1 O1); exact Fr]. rewrite (group_iff s1 acc true l I1 Fr). reflexivity. }
    rewrite E. cbn [snd]. apply IH; [intros o H; apply Hw; right; exact H|exact I1|exact O1]. }
  rewrite Ac. cbn [accepted]. fold s. pose proof (step_inv (Write t p c) s _ _ HI) as HI1.
  assert (O1 : is_open (snd (step (Write t p c) s)) = true).
  { cbn [Writer_Model.step]. unfold write. rewrite Ho. cbn [negb]. destruct (existsb (String.eqb (prefix (frame_id s))) (groups (file s))); [exact Ho|]. destruct (negb _); [exact Ho|]. destruct (write_fields _ Node _ _ _) as [[pr|] f2]; [|exact Ho]. destruct (write_fields _ Cell _ _ _) as [[cr|] f3]; [reflexivity|exact Ho]. }
  destruct (step (Write t p c) s) as [ok s1] eqn:E. cbn [fst snd] in *. subst ok. rewrite Ho in HI1. cbn [negb andb] in HI1. rewrite orb_true_r in HI1. destruct (G rest Hw s1 _ HI1 O1) as (A1 & A2 & A3). split; [exact A1|].
  intros t' p' c'. rewrite Ap. cbn [Writer_Model.run]. fold s. rewrite E. cbn [snd]. cbn [Writer_Model.step]. unfold write. rewrite A2. cbn [negb]. destruct (frames (run rest s1)) as [l|] eqn:Fr; [|exfalso; apply (proj1 A3 A2); exact Fr]. rewrite (group_iff _ _ true l A3 Fr). reflexivity.
Qed.
(** Until the writer is left, the index file does not change: a crash before that leaves it as it was. *)
Theorem C91_crash (ops : list op) : (forall o, In o ops -> forall exc, o <> Exit exc) -> forall s : state, index (run ops s) = index s.
Proof using Type.
  induction ops as [|o ops IH]; intros H s; [reflexivity|]. cbn [Writer_Model.run]. rewrite IH by (intros o' H'; apply H; right; exact H'). destruct o as [|t p c|exc]; cbn [Writer_Model.step]; [| |exfalso; apply (H (Exit exc) (or_introl eq_refl) exc eq_refl)].
  - unfold enter. destruct (is_open s); reflexivity.
  - unfold write. destruct (is_open s); [|reflexivity]. cbn [negb]. destruct (existsb (String.eqb (prefix (frame_id s))) (groups (file s))); [reflexivity|]. destruct (negb _); [reflexivity|].
    destruct (write_fields _ Node _ _ _) as [[pr|] f2]; [|reflexivity]. destruct (write_fields _ Cell _ _ _) as [[cr|] f3]; reflexivity.
Qed.
(** What a field becomes: refused unless its leading size is right; 2x2 tensors are padded with zeros to 3x3; numbers, vectors and 3x3
    tensors stay as they are; other arrays of three or more axes are refused. *)
Theorem C91_normalize n (d : array) :
  (normalize n d = None <-> match shape d with [] => True | m :: rest => m <> n \/ (2 <= List.length rest /\ rest <> [2; 2] /\ rest <> [3; 3]) end) /\
  forall a, normalize n d = Some a ->
    (shape d = [n; 2; 2] -> shape a = [n; 3; 3] /\ forall k i j, (i < 2 -> j < 2 -> value a [k; i; j] = value d [k; i; j]) /\ (2 <= i \/ 2 <= j -> value a [k; i; j] = zero)) /\
    (shape d <> [n; 2; 2] -> a = d).
Proof using Type.
  unfold Writer_Model.normalize, list_eqb. destruct (shape d) as [|m rest] eqn:Sh; [split; [split; [intros _; exact I|reflexivity]|discriminate]|].
  destruct (Nat.eqb m n) eqn:Em; [apply Nat.eqb_eq in Em; subst m|apply Nat.eqb_neq in Em; split; [split; [intros _; left; exact Em|reflexivity]|discriminate]].
  destruct (list_eq_dec Nat.eq_dec rest [2; 2]) as [->|N2].
  - split; [split; [discriminate|intros [X|(_ & X & _)]; [contradiction|exfalso; apply X; reflexivity]]|]. intros a [= <-]. split; [|intros X; exfalso; apply X; reflexivity]. intros _. split; [reflexivity|]. intros k i j. cbn [value]. split.
    + intros Hi Hj. apply Nat.ltb_lt in Hi, Hj. rewrite Hi, Hj. reflexivity.
    + intros [H|H]; apply Nat.ltb_ge in H; rewrite H; [reflexivity|rewrite andb_false_r; reflexivity].
  - assert (Nn : shape d <> [n; 2; 2]) by congruence. destruct (Nat.leb 2 (List.length rest)) eqn:El; cbn [andb].
    + apply Nat.leb_le in El. destruct (list_eq_dec Nat.eq_dec rest [3; 3]) as [->|N3]; cbn [negb].
      * split; [split; [discriminate|intros [X|(_ & _ & X)]; [contradiction|exfalso; apply X; reflexivity]]|]. intros a [= <-]. split; [congruence|reflexivity].
      * split; [split; [intros _; right; auto|reflexivity]|discriminate].
    + apply Nat.leb_gt in El. split; [split; [discriminate|intros [X|(X & _)]; [contradiction|lia]]|]. intros a [= <-]. split; [congruence|reflexivity].
Qed.
End Props.
Print Assumptions C91_index.
Print Assumptions C91_frame_names.
Print Assumptions C91_accept.
Print Assumptions C91_blocked.
Print Assumptions C91_crash.
Print Assumptions C91_normalize.

(** ** Concrete histories and labels *)
Definition arr (sh : list nat) : @array nat := {| shape := sh; value := fun _ => 1 |}.
Definition w1 : @op nat nat := Write 0 [("u", arr [5; 3]); ("F", arr [5; 2; 2])] [("rho", arr [4])].
(** Two frames are accepted and indexed. *)
Example C91_example : accepted 0 5 4 [Enter; w1; w1] init [] <> [] /\ refused 0 5 4 [Enter; w1; w1] init false = false /\ is_open (run 0 5 4 [Enter; w1; w1] init) = true /\
  match index (run 0 5 4 [Enter; w1; w1; Exit false] init) with Some [g0; g1] => g_name g1 = "frame_000001" /\ map a_type (g_attributes g1) = ["Vector"; "Tensor"; "Scalar"] | _ => False end.
Proof. repeat split. discriminate. Qed.
(** A wrongly sized field is refused, and then so is every good frame. *)
Example C91_example_blocked : fst (step 0 5 4 (Write 0 [("u", arr [6; 3])] []) (run 0 5 4 [Enter] (@init nat nat))) = false /\
  List.length (accepted 0 5 4 [Enter; w1; Write 0 [("u", arr [6; 3]); ("F", arr [5; 2; 2])] [("rho", arr [4])]; w1; w1] init []) = 1.
Proof. split; reflexivity. Qed.
(** A field with four components is accepted, but the index of all frames is then never written: leaving the writer raises. *)
Theorem C91_components_refuted : let ops := [Enter; Write 0 [("q", arr [5; 4])] []; Write 1 [("q", arr [5; 4])] []] in
  List.length (accepted 0 5 4 ops init []) = 2 /\ fst (step 0 5 4 (Exit false) (run 0 5 4 ops init)) = false /\ index (run 0 5 4 (ops ++ [Exit false]) (@init nat nat)) = None.
Proof. split; [reflexivity|]. split; reflexivity. Qed.
Print Assumptions C91_components_refuted.
(** Entering again and crashing leaves an index that points to arrays which are gone; and a second session must use the
    names of the first. *)
Theorem C91_reenter_refuted : let s := run 0 5 4 [Enter; w1; Exit false; Enter] init in
  (exists g a, index s = Some [g] /\ In a (g_attributes g) /\ lookup (file s) (a_path a) = None) /\ fst (step 0 5 4 (Write 0 [("v", arr [5; 3])] []) s) = false /\ fst (step 0 5 4 (Write 0 [("v", arr [5; 3])] []) (run 0 5 4 [Enter] (@init nat nat))) = true.
Proof. cbv zeta. split; [eexists; eexists; split; [reflexivity|]; split; [left; reflexivity|reflexivity]|]. split; reflexivity. Qed.
Print Assumptions C91_reenter_refuted.

(** The elements of the library: name, nodes per cell, dimension of the cell. *)
Definition elements : list (string * (nat * nat)) :=
  [("HEX8", (8, 3)); ("HEX20", (20, 3)); ("TET4", (4, 3)); ("TET10", (10, 3)); ("QUAD4", (4, 2)); ("QUAD8", (8, 2)); ("QUAD9", (9, 2)); ("TRI3", (3, 2)); ("TRI6", (6, 2))].
(** The cell names of meshio and of the XDMF format: nodes per cell, dimension of the cell. *)
Definition meshio_cells : list (string * (nat * nat)) :=
  [("triangle", (3, 2)); ("triangle6", (6, 2)); ("quad", (4, 2)); ("quad8", (8, 2)); ("quad9", (9, 2)); ("tetra", (4, 3)); ("tetra10", (10, 3));
   ("hexahedron", (8, 3)); ("hexahedron20", (20, 3)); ("hexahedron27", (27, 3))].
Definition xdmf_cells : list (string * (nat * nat)) :=
  [("Triangle", (3, 2)); ("Triangle_6", (6, 2)); ("Quadrilateral", (4, 2)); ("Tetrahedron", (4, 3)); ("Tetrahedron_10", (10, 3)); ("Hexahedron", (8, 3)); ("Hexahedron_20", (20, 3))].
(** With nodes in a space of the cell's dimension the guess is right for every element except the quadratic quadrilaterals: QUAD8 is
    taken for HEX8 and QUAD9 refused. Quadrilaterals in space are taken for tetrahedra. Every guess has a label for both writers, and
    the labels name the cell of the guessed element. *)
Theorem C91_labels :
  (forall e n d, In (e, (n, d)) elements -> e <> "QUAD8" -> e <> "QUAD9" -> element_type n d = Some e) /\ element_type 8 2 = Some "HEX8" /\ element_type 9 2 = None /\ element_type 4 3 = Some "TET4" /\
  (forall n d e, element_type n d = Some e -> exists m t cd, meshio_cell_type e = Some m /\ topology_type e = Some t /\
     In (e, (n, cd)) elements /\ In (m, (n, cd)) meshio_cells /\ In (t, (n, cd)) xdmf_cells).
Proof.
  split.
  - intros e n d H N8 N9. unfold elements in H. cbn [In] in H. repeat (destruct H as [[= <- <- <-]|H]; [first [reflexivity|contradiction]|]). contradiction.
  - split; [reflexivity|]. split; [reflexivity|]. split; [reflexivity|]. intros n d e. unfold element_type.
    do 21 (destruct n as [|n]; [try discriminate; try (destruct (Nat.eqb d 2)); intros [= <-];
      eexists; eexists; (first [exists 2; split; [reflexivity|]; split; [reflexivity|]; cbn; intuition congruence
                               |exists 3; split; [reflexivity|]; split; [reflexivity|]; cbn; intuition congruence])|]). discriminate.
Qed.
Print Assumptions C91_labels.
(** What XDMF calls a field of a given array shape, and the dimensions it is listed with. *)
Inductive xdmf_attribute : list nat -> string -> nat * nat -> Prop :=
| xa_flat n : xdmf_attribute [n] "Scalar" (n, 1)
| xa_column n : xdmf_attribute [n; 1] "Scalar" (n, 1)
| xa_plane n : xdmf_attribute [n; 2] "Vector" (n, 2)
| xa_space n : xdmf_attribute [n; 3] "Vector" (n, 3)
| xa_voigt n : xdmf_attribute [n; 6] "Tensor6" (n, 6)
| xa_nine n : xdmf_attribute [n; 9] "Tensor" (n, 9)
| xa_matrix n : xdmf_attribute [n; 3; 3] "Tensor" (n, 9).
(** Exactly these shapes can be indexed, under these types; every other shape makes closing the writer fail. *)
Theorem C91_attributes : forall sh ty dims, attribute_type sh = Some (ty, dims) <-> xdmf_attribute sh ty dims.
Proof.
  intros sh ty dims. split; [|intros []; reflexivity]. unfold attribute_type.
  destruct sh as [|n [|k [|b [|x sh]]]]; try discriminate.
  - intros [= <- <-]. constructor.
  - destruct (Nat.eqb_spec k 1) as [->|]; [intros [= <- <-]; constructor|]. destruct (Nat.eqb_spec k 2) as [->|]; [cbn; intros [= <- <-]; constructor|].
    destruct (Nat.eqb_spec k 3) as [->|]; [cbn; intros [= <- <-]; constructor|]. cbn [orb]. destruct (Nat.eqb_spec k 6) as [->|]; [intros [= <- <-]; constructor|].
    destruct (Nat.eqb_spec k 9) as [->|]; [intros [= <- <-]; constructor|]. discriminate.
  - destruct (Nat.eqb_spec k 3) as [->|]; [|discriminate]. destruct (Nat.eqb_spec b 3) as [->|]; [|discriminate]. cbn. intros [= <- <-]. constructor.
Qed.
Print Assumptions C91_attributes.
(** [save_sol] writes exactly when some field list is given, the cell is known and every field has the right leading size (and cell
    fields of other than two or three axes exactly one number per cell). *)
Lemma collect_ok {A} (f : @array A -> option array) l : collect f l <> None <-> forall nm d, In (nm, d) l -> f d <> None.
Proof.
  induction l as [|[nm d] l IH]; cbn [collect]; [split; [intros _ nm d []|discriminate]|]. destruct (f d) as [a|] eqn:E.
  - destruct (collect f l) as [r|].
    + split; [intros _ nm' d' [[= <- <-]|H]; [congruence|apply (proj1 IH ltac:(discriminate) nm' d' H)]|discriminate].
    + split; [intros H; exfalso; apply H; reflexivity|]. intros H. exfalso. apply (proj2 IH); [intros nm' d' H'; apply (H nm' d'); right; exact H'|reflexivity].
  - split; [intros H; exfalso; apply H; reflexivity|]. intros H. exfalso. apply (H nm d (or_introl eq_refl)). exact E.
Qed.
Lemma collect_in {A} (f : @array A -> option array) l r : collect f l = Some r -> map fst r = map fst l /\ forall i nm d, nth_error l i = Some (nm, d) -> exists a, f d = Some a /\ nth_error r i = Some (nm, a).
Proof.
  revert r. induction l as [|[nm d] l IH]; intros r; cbn [collect]; [intros [= <-]; split; [reflexivity|intros [|i]; discriminate]|].
  destruct (f d) as [a|] eqn:E; [|discriminate]. destruct (collect f l) as [r'|]; [|discriminate]. intros [= <-]. destruct (IH r' eq_refl) as [H1 H2]. split; [cbn; rewrite H1; reflexivity|].
  intros [|i] nm' d' H; cbn in *; [injection H as <- <-; exists a; auto|apply H2, H].
Qed.
Definition fields {A} (o : option (list (@field A))) : list field := match o with Some l => l | None => [] end.
Theorem C91_save {A} (zero : A) nodes dim n_points n_cells ci pi :
  (save_sol zero nodes dim n_points n_cells ci pi <> None <->
     (ci <> None \/ pi <> None) /\ element_type nodes dim <> None /\ (forall nm d, In (nm, d) (fields ci) -> cell_data zero n_cells d <> None) /\ (forall nm d, In (nm, d) (fields pi) -> exists rest, shape d = n_points :: rest)) /\
  forall out, save_sol zero nodes dim n_points n_cells ci pi = Some out ->
    (exists e, element_type nodes dim = Some e /\ meshio_cell_type e = Some (cell_type out)) /\
    (NoDup (map fst (fields pi)) -> forall nm d, In (nm, d) (fields pi) -> points_out out nm = Some d) /\
    (NoDup (map fst (fields ci)) -> forall nm d, In (nm, d) (fields ci) -> exists a, cell_data zero n_cells d = Some a /\ cells_out out nm = Some a).
Proof.
  assert (Dk : forall (l : list (@field A)) nm d, NoDup (map fst l) -> In (nm, d) l -> dict l nm = Some d).
  { intros l nm d N H. unfold dict. assert (N' : NoDup (map fst (List.rev l))) by (rewrite map_rev; apply NoDup_rev, N). apply in_rev in H.
    assert (X : forall l0 : list (@field A), NoDup (map fst l0) -> In (nm, d) l0 -> match find (fun p : field => fst p =? nm) l0 with Some p => Some (snd p) | None => None end = Some d); [|exact (X (List.rev l) N' H)].
    clear. intros l0. induction l0 as [|[nm' d'] l0 IH]; intros N H; [destruct H|]. cbn [find fst].
    destruct (nm' =? nm) eqn:E.
    - apply String.eqb_eq in E. subst nm'. destruct H as [[= ->]|H]; [reflexivity|]. exfalso. cbn in N. inversion N as [|x xs N1 N2 Ex]. apply N1. apply (in_map fst) in H. exact H.
    - apply String.eqb_neq in E. destruct H as [[= -> ->]|H]; [contradiction|]. apply IH; [cbn in N; inversion N; assumption|exact H]. }
  assert (Pk : forall d : @array A, point_data n_points d <> None <-> exists rest, shape d = n_points :: rest).
  { intros d. unfold point_data. destruct (shape d) as [|m rest]; [split; [intros H; exfalso; apply H; reflexivity|intros (r & H); discriminate]|]. destruct (Nat.eqb m n_points) eqn:E; [apply Nat.eqb_eq in E; subst; split; [intros _; eauto|discriminate]|].
    apply Nat.eqb_neq in E. split; [intros H; exfalso; apply H; reflexivity|intros (r & [= X _]); contradiction]. }
  assert (Pe : forall d a : @array A, point_data n_points d = Some a -> a = d) by (intros d a; unfold point_data; destruct (shape d); [discriminate|]; destruct (Nat.eqb _ _); [congruence|discriminate]).
  assert (F : save_sol zero nodes dim n_points n_cells ci pi = if (match ci, pi with None, None => true | _, _ => false end) then None else
     match element_type nodes dim with None => None | Some e => match meshio_cell_type e with None => None | Some ct => match collect (cell_data zero n_cells) (fields ci), collect (point_data n_points) (fields pi) with Some c, Some p => Some {| cell_type := ct; cells_out := dict c; points_out := dict p |} | _, _ => None end end end) by (destruct ci, pi; reflexivity).
  pose proof (proj2 (proj2 (proj2 (proj2 C91_labels)))) as Lb. rewrite F. clear F.
  pose proof (collect_ok (cell_data zero n_cells) (fields ci)) as Kc. pose proof (collect_ok (point_data n_points) (fields pi)) as Kp. split.
  - split.
    + destruct (match ci, pi with None, None => true | _, _ => false end) eqn:En; [intros H; exfalso; apply H; reflexivity|]. destruct (element_type nodes dim) as [e|]; [|intros H; exfalso; apply H; reflexivity]. destruct (meshio_cell_type e); [|intros H; exfalso; apply H; reflexivity].
      destruct (collect (cell_data zero n_cells) (fields ci)) as [c|]; [|intros H; exfalso; apply H; reflexivity]. destruct (collect (point_data n_points) (fields pi)) as [p|]; [|intros H; exfalso; apply H; reflexivity]. intros _.
      split; [destruct ci; [left; discriminate|destruct pi; [right; discriminate|discriminate]]|]. split; [discriminate|]. split; [apply Kc; discriminate|]. intros nm d H. apply Pk. apply (proj1 Kp ltac:(discriminate) nm d H).
    + intros (H1 & H2 & H3 & H4). destruct (match ci, pi with None, None => true | _, _ => false end) eqn:En; [exfalso; destruct ci; [discriminate|]; destruct pi; [discriminate|]; destruct H1 as [X|X]; apply X; reflexivity|].
      destruct (element_type nodes dim) as [e|] eqn:Ee; [|contradiction]. destruct (Lb nodes dim e Ee) as (m0 & t0 & cd0 & Lm & _). rewrite Lm. apply Kc in H3. assert (H4' : forall nm d, In (nm, d) (fields pi) -> point_data n_points d <> None) by (intros nm d H; apply Pk, (H4 nm d H)). apply Kp in H4'.
      destruct (collect (cell_data zero n_cells) (fields ci)); [|contradiction]. destruct (collect (point_data n_points) (fields pi)); [discriminate|contradiction].
  - intros out. destruct (match ci, pi with None, None => true | _, _ => false end); [discriminate|]. destruct (element_type nodes dim) as [e|]; [|discriminate]. destruct (meshio_cell_type e) as [ct|] eqn:Em; [|discriminate].
    destruct (collect (cell_data zero n_cells) (fields ci)) as [c|] eqn:Ec; [|discriminate]. destruct (collect (point_data n_points) (fields pi)) as [p|] eqn:Ep; [|discriminate]. intros [= <-]. cbn [cell_type cells_out points_out].
    destruct (collect_in _ _ _ Ec) as [C1 C2]. destruct (collect_in _ _ _ Ep) as [P1 P2]. split; [exists e; auto|]. split.
    + intros N nm d H. apply In_nth_error in H. destruct H as (i & Hi). destruct (P2 i nm d Hi) as (a & Ea & Hr). apply Pe in Ea. subst a. apply Dk; [rewrite P1; exact N|]. apply nth_error_In in Hr. exact Hr.
    + intros N nm d H. apply In_nth_error in H. destruct H as (i & Hi). destruct (C2 i nm d Hi) as (a & Ea & Hr). exists a. split; [exact Ea|]. apply Dk; [rewrite C1; exact N|]. apply nth_error_In in Hr. exact Hr.
Qed.
Print Assumptions C91_save.
(** Cell fields: the written array of a tensor field holds its entries row by row, of a scalar field its values. *)
Theorem C91_cell_data {A} (zero : A) n (d a : @array A) : cell_data zero n d = Some a ->
  (forall r c, shape d = [n; r; c] -> shape a = [n; r * c] /\ forall i j k, j < r -> k < c -> value a [i; j * c + k] = value d [i; j; k]) /\
  (forall k, shape d = [n; k] -> a = d) /\ (shape d = [n] -> shape a = [n; 1] /\ forall i, value a [i; 0] = value d [i]) /\ exists rest, shape d = n :: rest.
Proof.
  unfold cell_data. destruct (shape d) as [|m rest] eqn:Sh; [discriminate|]. destruct (Nat.eqb m n) eqn:E; [|discriminate]. apply Nat.eqb_eq in E. subst m. intros H. split; [|split; [|split; [|exists rest; reflexivity]]].
  - intros r c [= ->]. injection H as <-. cbn [shape value]. split; [reflexivity|]. intros i j k Hj Hk. rewrite Nat.div_add_l by lia. rewrite Nat.div_small, Nat.add_0_r by exact Hk. rewrite Nat.add_comm, Nat.mod_add by lia. rewrite Nat.mod_small by exact Hk. reflexivity.
  - intros k [= ->]. congruence.
  - intros [= ->]. cbn in H. rewrite Nat.mul_1_r, Nat.eqb_refl in H. injection H as <-. split; reflexivity.
Qed.
Print Assumptions C91_cell_data.
Example C91_example_save : save_sol 0 8 3 12 4 (Some [("rho", arr [4]); ("F", arr [4; 3; 3])]) (Some [("u", arr [12; 3])]) <> None /\ save_sol 0 8 3 12 4 (Some [("rho", arr [5])]) None = None.
Proof. split; [discriminate|reflexivity]. Qed.
