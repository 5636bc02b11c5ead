(** C37-C39: automatic solver selection and the create_solver dispatch. *)
From Coq Require Import String ZArith QArith Bool List Arith Lia Lqa.
From Verif Require Import Options_Model.
Import ListNotations.
Local Open Scope string_scope.

(** ** C37 *)
(** Which backends the environment can run. *)
Definition usable (e : env) (s : string) : Prop :=
  (s = "spsolve" /\ e_backend e = CPU) \/ (s = "umfpack" /\ e_backend e = CPU /\ e_umfpack e = true) \/
  (s = "cholmod" /\ e_backend e = CPU /\ e_cholmod e = true) \/ (s = "cudss" /\ e_backend e = GPU /\ e_spineax e = true).
(** A well-formed option object (what the constructors produce). *)
Definition good_sk (k : sksparse) : Prop := make_sksparse (s_vmap k) (s_order k) (s_lower k) = Ret k.
Definition good_direct (d : direct) : Prop :=
  In (d_solver d) ["auto"; "cudss"; "spsolve"; "umfpack"; "cholmod"] /\ good_sk (d_sk d).
Lemma mem_In s l : mem s l = true <-> In s l.
Proof. unfold mem. rewrite existsb_exists. split; [intros (x & H & E); apply String.eqb_eq in E; subst; exact H|intros H; exists s; rewrite String.eqb_refl; auto]. Qed.
Lemma good_sk_lower k low : good_sk k -> exists k', make_sksparse (s_vmap k) (s_order k) low = Ret k' /\ s_vmap k' = s_vmap k /\ s_order k' = s_order k /\ s_lower k' = low /\ good_sk k'.
Proof.
  unfold good_sk, make_sksparse. destruct (s_order k) as [o|]; [|discriminate].
  destruct (mem o _) eqn:E1; [|discriminate]. destruct (mem (s_vmap k) _) eqn:E2; [|discriminate].
  intros _. eexists. split; [reflexivity|]. cbn [s_vmap s_order s_lower]. rewrite E1, E2. auto.
Qed.
Lemma make_sk_good vm o low k : make_sksparse vm o low = Ret k -> good_sk k.
Proof.
  unfold good_sk, make_sksparse. destruct o as [o|]; [|discriminate]. destruct (mem o _) eqn:E1; [|discriminate]. destruct (mem vm _) eqn:E2; [|discriminate].
  intros H. injection H as <-. cbn [s_vmap s_order s_lower]. rewrite E1, E2. reflexivity.
Qed.
(** Constructed options are well formed. *)
Theorem C37_constructed : forall s c vm o low r b k d, make_sksparse vm o low = Ret k -> make_direct s c (Some k) r b = Ret d -> good_direct d.
Proof.
  intros s c vm o low r b k d Hk. unfold make_direct. destruct (mem s _) eqn:E; [|discriminate]. intros H. injection H as <-. split; cbn [d_solver d_sk]; [apply mem_In; exact E|eapply make_sk_good; exact Hk].
Qed.
Print Assumptions C37_constructed.
(** Settings the user made and that selection must keep. *)
Definition same_settings (o d : direct) : Prop :=
  d_reuse d = d_reuse o /\ d_common d = d_common o /\ s_vmap (d_sk d) = s_vmap (d_sk o) /\ s_order (d_sk d) = s_order (d_sk o) /\
  c_device (d_cudss d) = c_device (d_cudss o).
(** The documented preference order. *)
Definition preferred (e : env) (p : mprop) (s : string) : Prop :=
  match e_backend e with
  | GPU => s = "cudss" /\ e_spineax e = true
  | CPU => match p with
           | MSpd => (s = "cholmod" /\ e_cholmod e = true) \/ (s = "umfpack" /\ e_cholmod e = false /\ e_umfpack e = true) \/
                     (s = "spsolve" /\ e_cholmod e = false /\ e_umfpack e = false)
           | _ => (s = "umfpack" /\ e_umfpack e = true) \/ (s = "spsolve" /\ e_umfpack e = false)
           end
  | OtherBackend => False
  end.
Theorem C37_auto :
  forall e o p v, good_direct o -> d_solver o = "auto" ->
    (forall d, resolve_direct e o p v = Ret d ->
       usable e (d_solver d) /\ preferred e p (d_solver d) /\ good_direct d /\ d_solver d <> "auto" /\ same_settings o d) /\
    (e_backend e = CPU -> exists d, resolve_direct e o p v = Ret d) /\
    (e_backend e = GPU -> (e_spineax e = true -> exists d, resolve_direct e o p v = Ret d) /\ (e_spineax e = false -> resolve_direct e o p v = RunErr)) /\
    (e_backend e = OtherBackend -> resolve_direct e o p v = RunErr).
Proof.
  intros [be sx ch um] o p v [_ Gk] Ea. unfold resolve_direct. rewrite Ea. cbn [String.eqb negb Ascii.eqb Bool.eqb].
  destruct (good_sk_lower _ true Gk) as (kt & Kt & T1 & T2 & T3 & T4). destruct (good_sk_lower _ false Gk) as (kf & Kf & F1 & F2 & F3 & F4).
  assert (KL : forall low, exists k, make_sksparse (s_vmap (d_sk o)) (s_order (d_sk o)) low = Ret k /\ s_vmap k = s_vmap (d_sk o) /\ s_order k = s_order (d_sk o) /\ good_sk k).
  { intros low. destruct low; eauto 8. }
  set (low := match p, v with MSpd, VUpper => false | MSpd, _ => true | _, _ => s_lower (d_sk o) end).
  destruct (KL low) as (k & Ek & K1 & K2 & K3). unfold detect_all, has_cudss, has_cholmod, has_umfpack, preferred, usable. cbn [e_backend e_spineax e_cholmod e_umfpack].
  assert (RR : forall (s : string) (d0 : direct), In s ["auto"; "cudss"; "spsolve"; "umfpack"; "cholmod"] -> d0 = {| d_solver := s; d_cudss := d_cudss o; d_sk := k; d_reuse := d_reuse o; d_common := d_common o |} ->
     good_direct d0 /\ same_settings o d0).
  { intros s d0 Hs ->. split; [split; [exact Hs|exact K3]|]. repeat split; cbn; assumption. }
  destruct be.
  - cbn [app]. assert (Hc : forall l1 l2 : list string, l1 = [] \/ l1 = ["cholmod"] -> l2 = [] \/ l2 = ["umfpack"] -> mem "cudss" ("spsolve" :: l1 ++ l2)%list = false).
    { intros l1 l2 [-> | ->] [-> | ->]; reflexivity. }
    destruct ch, um, p; cbn [app mem existsb String.eqb Ascii.eqb Bool.eqb orb pick_host bind]; fold low; rewrite Ek; cbn [bind make_direct mem existsb String.eqb Ascii.eqb Bool.eqb orb];
    (split; [intros d H; injection H as <-|split; [intros _; eexists; reflexivity|split; [intros H; discriminate H|intros H; discriminate H]]]);
    cbn [d_solver]; (split; [tauto|]); (split; [tauto|]); match goal with |- good_direct ?d /\ _ => destruct (RR (d_solver d) d) as [R1 R2]; [cbn; tauto|reflexivity|] end; (split; [exact R1|]); (split; [discriminate|exact R2]).
  - destruct sx; cbn [app mem existsb String.eqb Ascii.eqb Bool.eqb orb pick_host bind].
    + assert (MC : exists c, make_cudss (cudss_type_of p) (match v with VUpper => VUpper | VLower => VLower | VFull => c_view (d_cudss o) end) (c_device (d_cudss o)) = Ret c /\ c_device c = c_device (d_cudss o)).
      { destruct p; cbn; eexists; split; reflexivity. }
      destruct MC as (c & Ec & Dc). rewrite Ec. cbn [bind make_direct mem existsb String.eqb Ascii.eqb Bool.eqb orb].
      split; [intros d H; injection H as <-|split; [intros H; discriminate H|split; [intros _; split; [intros _; eexists; reflexivity|intros H; discriminate H]|intros H; discriminate H]]].
      cbn [d_solver]. split; [tauto|]. split; [tauto|]. split; [split; cbn; [tauto|exact Gk]|]. split; [discriminate|]. repeat split. exact Dc.
    + destruct p; cbn [app mem existsb String.eqb Ascii.eqb Bool.eqb orb pick_host bind]; (split; [intros d H; discriminate H|split; [intros H; discriminate H|split; [intros _; split; [intros H; discriminate H|reflexivity]|intros H; discriminate H]]]).
  - destruct p; cbn [app mem existsb String.eqb Ascii.eqb Bool.eqb orb pick_host bind]; (split; [intros d H; discriminate H|split; [intros H; discriminate H|split; [intros H; discriminate H|reflexivity]]]).
Qed.
Print Assumptions C37_auto.

(** An explicit choice is kept unchanged, or rejected when the environment cannot run it. *)
Theorem C37_explicit :
  forall e o p v, good_direct o -> d_solver o <> "auto" ->
    (usable e (d_solver o) -> resolve_direct e o p v = Ret o) /\ (~ usable e (d_solver o) -> resolve_direct e o p v = RunErr).
Proof.
  intros [be sx ch um] [s c k r b] p v [Hs _] Ha. cbn [d_solver] in *. unfold resolve_direct. cbn [d_solver d_cudss d_sk d_reuse d_common].
  assert (E : (s =? "auto") = false) by (apply String.eqb_neq; exact Ha). rewrite E. cbn [negb]. unfold usable, detect_one. cbn [e_backend e_spineax e_cholmod e_umfpack].
  destruct Hs as [<-|[<-|[<-|[<-|[<-|[]]]]]]; [congruence| | | |];
  destruct be, sx, ch, um; cbn [String.eqb Ascii.eqb Bool.eqb bind make_direct mem existsb orb]; (split; intros H;
    [first [reflexivity|exfalso; intuition discriminate]
    |first [reflexivity|exfalso; apply H; tauto]]).
Qed.
Print Assumptions C37_explicit.

(** *** The chosen backend and the stored triangle *)
Definition symmetric (A : mat) : Prop := forall i j, A i j == A j i.
(** Storage in full, or a triangle handled by cuDSS or CHOLMOD, factorises the assembled matrix. *)
Theorem C37_view :
  forall e o p v d (A : mat), good_direct o -> d_solver o = "auto" -> resolve_direct e o p v = Ret d ->
    (p = MGeneral \/ symmetric A) -> (v = VFull \/ (p <> MGeneral /\ symmetric A /\ (d_solver d = "cudss" \/ d_solver d = "cholmod"))) ->
    forall i j, factorised d (store v A) i j == A i j.
Proof.
  intros e o p v d A G Ea Hr Hp Hv i j.
  assert (MI : forall low, symmetric A -> mirror low (store v A) i j == A i j \/ (low = true /\ v = VUpper) \/ (low = false /\ v = VLower)).
  { intros low SA. destruct v, low; auto; left; unfold mirror, store;
    repeat match goal with |- context [(?a <=? ?b)%nat] => destruct (Nat.leb_spec a b) end; try lia; auto using Qeq_refl; try reflexivity; apply SA. }
  unfold resolve_direct in Hr. rewrite Ea in Hr. cbn [String.eqb negb Ascii.eqb Bool.eqb] in Hr.
  destruct (mem "cudss" (detect_all e)) eqn:Ec.
  - unfold bind in Hr. destruct p; cbn in Hr; injection Hr as <-; unfold factorised; cbn [d_solver String.eqb Ascii.eqb Bool.eqb d_cudss c_type c_view].
    + destruct Hv as [->|[H _]]; [reflexivity|congruence].
    + assert (SA : symmetric A) by (destruct Hp as [H|H]; [discriminate|exact H]). destruct v; cbn.
      * destruct (c_view (d_cudss o)); [reflexivity| |].
        -- destruct (MI false SA) as [H|[[H _]|[_ H]]]; [exact H|discriminate|discriminate].
        -- destruct (MI true SA) as [H|[[_ H]|[H _]]]; [exact H|discriminate|discriminate].
      * destruct (MI false SA) as [H|[[H _]|[_ H]]]; [exact H|discriminate|discriminate].
      * destruct (MI true SA) as [H|[[_ H]|[H _]]]; [exact H|discriminate|discriminate].
    + assert (SA : symmetric A) by (destruct Hp as [H|H]; [discriminate|exact H]). destruct v; cbn.
      * destruct (c_view (d_cudss o)); [reflexivity| |].
        -- destruct (MI false SA) as [H|[[H _]|[_ H]]]; [exact H|discriminate|discriminate].
        -- destruct (MI true SA) as [H|[[_ H]|[H _]]]; [exact H|discriminate|discriminate].
      * destruct (MI false SA) as [H|[[H _]|[_ H]]]; [exact H|discriminate|discriminate].
      * destruct (MI true SA) as [H|[[_ H]|[H _]]]; [exact H|discriminate|discriminate].
  - destruct (pick_host (detect_all e) p) as [s| | |] eqn:Es; try discriminate Hr. unfold bind in Hr. cbv zeta in Hr.
    match type of Hr with context [make_sksparse ?a ?b ?l] => destruct (make_sksparse a b l) as [k| | |] eqn:Ek; try discriminate Hr; set (low := l) in * end.
    assert (KL : s_lower k = low).
    { unfold make_sksparse in Ek. destruct (s_order (d_sk o)); [|discriminate]. destruct (mem s0 _); [|discriminate]. destruct (mem (s_vmap (d_sk o)) _); [|discriminate]. injection Ek as <-. reflexivity. }
    unfold make_direct in Hr. destruct (mem s _); [|discriminate]. injection Hr as <-. unfold factorised. cbn [d_solver d_sk d_cudss] in *.
    destruct (String.eqb_spec s "cholmod") as [->|Nc].
    + assert (p = MSpd) as ->. { destruct p; [| |reflexivity]; unfold pick_host in Es; destruct (mem "umfpack" (detect_all e)); try discriminate; destruct (mem "spsolve" (detect_all e)); discriminate. }
      assert (SA : symmetric A) by (destruct Hp as [H|H]; [discriminate|exact H]). rewrite KL.
      destruct (MI low SA) as [H|[[H1 H2]|[H1 H2]]]; [exact H| |]; unfold low in H1; rewrite H2 in H1; discriminate.
    + assert (s <> "cudss"). { intros ->. unfold pick_host in Es. destruct p; repeat match type of Es with context [if ?b then _ else _] => destruct b end; discriminate. }
      apply String.eqb_neq in H. rewrite H. destruct Hv as [->|(_ & _ & [H'|H'])]; [reflexivity| |]; [rewrite H' in H; discriminate|congruence].
Qed.
Print Assumptions C37_view.
(** Triangular storage with a symmetric indefinite matrix on a CPU: UMFPACK is chosen and
    factorises the triangle alone. The same happens for SPD when CHOLMOD is missing. *)
Theorem C37_view_refuted :
  exists e o (A : mat), good_direct o /\ d_solver o = "auto" /\ symmetric A /\
    detect_property 2 (fun x => x 0%nat * x 0%nat + x 1%nat * x 1%nat) (1 # 100000000) (store VUpper A) (fun _ => 1) VUpper = MSymmetric /\
    exists d, resolve_direct e o MSymmetric VUpper = Ret d /\ d_solver d = "umfpack" /\
      ~ factorised d (store VUpper A) 1%nat 0%nat == A 1%nat 0%nat.
Proof.
  exists {| e_backend := CPU; e_spineax := false; e_cholmod := true; e_umfpack := true |}, default_direct, (fun i j => if (i =? j)%nat then 0 else 1).
  split; [split; [left; reflexivity|reflexivity]|]. split; [reflexivity|]. split; [intros i j; rewrite Nat.eqb_sym; reflexivity|]. split; [reflexivity|].
  eexists. split; [reflexivity|]. split; [reflexivity|]. vm_compute. discriminate.
Qed.
Print Assumptions C37_view_refuted.

(** *** Detection *)
Lemma qsumn_ext n f g : (forall i, (i < n)%nat -> f i == g i) -> qsumn n f == qsumn n g.
Proof.
  unfold qsumn. intros H. assert (G : forall i, In i (seq 0 n) -> f i == g i) by (intros i Hi; apply H; apply in_seq in Hi; lia). clear H.
  induction (seq 0 n) as [|a l IH]; cbn; [reflexivity|]. rewrite (G a (or_introl eq_refl)), IH; [reflexivity|]. intros i Hi. apply G. right. exact Hi.
Qed.
(** A symmetric matrix is never reported GENERAL, and is reported SPD exactly when its diagonal
    is positive: for every probe vector, every norm and every positive tolerance. *)
Theorem C37_detect_symmetric :
  forall n nrm tol (A : mat) x v, 0 < tol -> (forall y, 0 <= nrm y) -> (forall y, (forall i, (i < n)%nat -> y i == 0) -> nrm y == 0) ->
    (v <> VFull \/ forall i j, (i < n)%nat -> (j < n)%nat -> A i j == A j i) ->
    detect_property n nrm tol A x v <> MGeneral /\
    (detect_property n nrm tol A x v = MSpd <-> forall i, (i < n)%nat -> 0 < A i i).
Proof.
  intros n nrm tol A x v Ht Hn Hz Hs. unfold detect_property.
  match goal with |- context [if negb ?s then _ else _] => assert (E : s = true) end.
  { destruct v; try reflexivity. destruct Hs as [Hs|Hs]; [congruence|]. cbv zeta. apply negb_true_iff. apply not_true_iff_false. intros H. apply Qle_bool_iff in H.
    rewrite Hz in H.
    - unfold Qdiv in H. rewrite Qmult_0_l in H. lra.
    - intros i Hi. unfold mat_apply. assert (QE : qsumn n (fun j => A i j * x j) == qsumn n (fun j => mat_t A i j * x j)).
      { apply qsumn_ext. intros j Hj. unfold mat_t. rewrite (Hs i j Hi Hj). reflexivity. }
      rewrite QE. ring. }
  rewrite E. cbn [negb]. assert (FB : forallb (fun i => negb (Qle_bool (A i i) 0)) (seq 0 n) = true <-> forall i, (i < n)%nat -> 0 < A i i).
  { rewrite forallb_forall. split.
    - intros H i Hi. apply Qnot_le_lt. intros C. apply Qle_bool_iff in C. specialize (H i). rewrite C in H. cbn in H. assert (false = true) by (apply H; apply in_seq; lia). discriminate.
    - intros H i Hi. apply in_seq in Hi. apply negb_true_iff, not_true_iff_false. intros C. apply Qle_bool_iff in C. specialize (H i). assert (0 < A i i) by (apply H; lia). lra. }
  destruct (forallb _ _); split; try discriminate; split; intros H; try reflexivity; try discriminate H.
  - apply FB. reflexivity.
  - apply FB in H. discriminate H.
Qed.
Print Assumptions C37_detect_symmetric.
(** The test is not sound in the other direction: for every probe vector there is a non-symmetric
    matrix it reports SPD (the skew part kills the probe). And a positive diagonal
    does not make a matrix positive definite. *)
Theorem C37_detect_refuted :
  forall (nrm : (nat -> Q) -> Q) tol (x : nat -> Q), 0 < tol -> (forall y, 0 <= nrm y) -> (forall y, (forall i, (i < 3)%nat -> y i == 0) -> nrm y == 0) ->
    (exists A : mat, ~ (forall i j, (i < 3)%nat -> (j < 3)%nat -> A i j == A j i) /\ detect_property 3 nrm tol A x VFull = MSpd) /\
    (exists A : mat, symmetric A /\ detect_property 3 nrm tol A x VFull = MSpd /\ exists y, qsumn 3 (fun i => y i * mat_apply 3 A y i) < 0).
Proof.
  intros nrm tol x Ht Hn Hz. split.
  - set (z := if Qeq_bool (x 0%nat) 0 && Qeq_bool (x 1%nat) 0 && Qeq_bool (x 2%nat) 0 then fun i : nat => 1 else x).
    set (A := fun i j : nat => match i, j with
      | O, O => 1 | 1%nat, 1%nat => 1 | 2%nat, 2%nat => 1
      | O, 1%nat => - z 2%nat | 1%nat, O => z 2%nat | O, 2%nat => z 1%nat | 2%nat, O => - z 1%nat | 1%nat, 2%nat => - z 0%nat | 2%nat, 1%nat => z 0%nat | _, _ => 0 end).
    assert (ZX : forall i j, (i < 3)%nat -> (j < 3)%nat -> z i * x j == z j * x i).
    { intros i j Hi Hj. unfold z. destruct (Qeq_bool (x 0%nat) 0) eqn:E0; destruct (Qeq_bool (x 1%nat) 0) eqn:E1; destruct (Qeq_bool (x 2%nat) 0) eqn:E2; cbn [andb]; try ring.
      apply Qeq_bool_iff in E0, E1, E2. assert (X : forall k, (k < 3)%nat -> x k == 0) by (intros [|[|[|k]]] Hk; [exact E0|exact E1|exact E2|lia]). rewrite (X i Hi), (X j Hj). ring. }
    assert (NZ : ~ (z 0%nat == 0 /\ z 1%nat == 0 /\ z 2%nat == 0)).
    { intros (Z0 & Z1 & Z2). unfold z in Z0, Z1, Z2. destruct (Qeq_bool (x 0%nat) 0) eqn:E0; destruct (Qeq_bool (x 1%nat) 0) eqn:E1; destruct (Qeq_bool (x 2%nat) 0) eqn:E2; cbn [andb] in Z0, Z1, Z2; try discriminate Z0;
      apply Qeq_bool_iff in Z0, Z1, Z2; congruence. }
    exists A. split.
    + intros H. apply NZ. pose proof (H 0%nat 1%nat ltac:(lia) ltac:(lia)) as H1. pose proof (H 0%nat 2%nat ltac:(lia) ltac:(lia)) as H2. pose proof (H 1%nat 2%nat ltac:(lia) ltac:(lia)) as H3.
      unfold A in H1, H2, H3. repeat split; lra.
    + unfold detect_property. cbv zeta. match goal with |- context [if negb ?s then _ else _] => assert (E : s = true) end.
      { apply negb_true_iff, not_true_iff_false. intros H. apply Qle_bool_iff in H. rewrite Hz in H; [unfold Qdiv in H; rewrite Qmult_0_l in H; lra|].
        pose proof (ZX 0%nat 1%nat ltac:(lia) ltac:(lia)) as P1. pose proof (ZX 0%nat 2%nat ltac:(lia) ltac:(lia)) as P2. pose proof (ZX 1%nat 2%nat ltac:(lia) ltac:(lia)) as P3.
        intros i Hi. unfold mat_apply, mat_t, qsumn. cbn [seq map fold_right]. destruct i as [|[|[|i]]]; [| | |lia]; unfold A; lra. }
      rewrite E. reflexivity.
  - exists (fun i j : nat => if (i =? j)%nat then 1 else 2). assert (SY : forall i j : nat, (if (i =? j)%nat then 1 else 2) == (if (j =? i)%nat then 1 else 2)) by (intros i j; rewrite (Nat.eqb_sym i j); reflexivity).
    split; [exact SY|]. split.
    + apply (C37_detect_symmetric 3 nrm tol (fun i j : nat => if (i =? j)%nat then 1 else 2) x VFull Ht Hn Hz (or_intror (fun i j _ _ => SY i j))). intros i _. rewrite Nat.eqb_refl. reflexivity.
    + exists (fun i => match i with O => 1 | 1%nat => - (1) | _ => 0 end). reflexivity.
Qed.
Print Assumptions C37_detect_refuted.
Example C37_example :
  let cpu := {| e_backend := CPU; e_spineax := false; e_cholmod := true; e_umfpack := false |} in
  good_direct default_direct /\ usable cpu "cholmod" /\ ~ usable cpu "umfpack" /\
  (exists d, resolve_direct cpu default_direct MSpd VUpper = Ret d /\ d_solver d = "cholmod" /\ s_lower (d_sk d) = false) /\
  (exists d, resolve_direct cpu default_direct MGeneral VFull = Ret d /\ d_solver d = "spsolve").
Proof.
  cbv zeta. split; [split; [left; reflexivity|reflexivity]|]. split; [right; right; left; auto|]. split.
  { intros [[H _]|[(_ & _ & H)|[[H _]|[H _]]]]; discriminate. } split; eexists; (split; [reflexivity|]); [split; reflexivity|reflexivity].
Qed.

(** ** C38 *)
Definition method_for (p : mprop) : string := match p with MSpd => "cg" | MSymmetric => "bicgstab" | MGeneral => "gmres" end.
(** Explicit methods are left alone. "auto" becomes the method for the property, and every other
    setting is kept, except that a restart length is lost. *)
Theorem C38_auto :
  forall o p,
    (k_solver o <> "auto" -> resolve_iterative o p = Ret o) /\
    (k_solver o = "auto" -> exists k, resolve_iterative o p = Ret k /\ k_solver k = method_for p /\ k_tol k = k_tol o /\ k_atol k = k_atol o /\
       k_maxiter k = k_maxiter o /\ k_pre k = k_pre o /\ k_jacobi k = k_jacobi o /\ k_shift k = k_shift o /\ k_x0 k = k_x0 o /\ k_common k = k_common o /\
       (k_restart o = None -> k_restart k = k_restart o) /\ forall p' k', resolve_iterative k p' = Ret k' -> k' = k).
Proof.
  intros o p. unfold resolve_iterative at 1 2. split.
  - intros H. apply String.eqb_neq in H. rewrite H. reflexivity.
  - intros H. rewrite H. cbn [String.eqb negb Ascii.eqb Bool.eqb].
    destruct p; cbn [make_krylov mem existsb String.eqb Ascii.eqb Bool.eqb orb]; eexists; (split; [reflexivity|]); cbn [k_solver k_tol k_atol k_maxiter k_pre k_jacobi k_shift k_x0 k_common k_restart];
    (repeat (split; [reflexivity|])); (split; [congruence|]); intros p' k' Hk; unfold resolve_iterative in Hk; cbn in Hk; injection Hk as <-; reflexivity.
Qed.
Print Assumptions C38_auto.
(** A GMRES restart length given together with "auto" is dropped: the solve restarts every 20. *)
Theorem C38_restart_refuted :
  exists o, k_solver o = "auto" /\ k_restart o = Some 100%Z /\ exists k, resolve_iterative o MGeneral = Ret k /\ k_solver k = "gmres" /\ gmres_restart k = 20%Z /\ gmres_restart o = 100%Z.
Proof.
  exists {| k_solver := "auto"; k_tol := 1 # 10; k_atol := 0; k_maxiter := 5; k_pre := PNone; k_jacobi := false; k_shift := 0; k_restart := Some 100%Z; k_x0 := None; k_common := default_common |}.
  split; [reflexivity|]. split; [reflexivity|]. eexists. split; [reflexivity|]. split; [reflexivity|]. split; reflexivity.
Qed.
Print Assumptions C38_restart_refuted.
(** A user preconditioner always wins over the Jacobi flag; the Jacobi flag acts only on an
    assembled operator, and Krylov solves built by create_solver use a matvec: there it is ignored. *)
Theorem C38_preconditioner :
  forall o, (forall t c, k_pre o = PUser t -> choose_pre o c = UUser t) /\
    (k_pre o = PNone -> k_jacobi o = true -> choose_pre o false = UJacobi (k_shift o) /\ choose_pre o true = UNone) /\
    (k_pre o = PNone -> k_jacobi o = false -> forall c, choose_pre o c = UNone).
Proof.
  intros o. unfold choose_pre. split; [intros t c ->; reflexivity|]. split; [intros -> ->; auto|intros -> ->; reflexivity].
Qed.
Print Assumptions C38_preconditioner.
