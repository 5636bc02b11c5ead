(** C104: Gmsh sessions and temporary files are left clean on every exit, and no mesh generation
    sees options of an earlier call. *)
From Coq Require Import Reals Lra List String Lia.
From Verif Require Import Session_Model.
Import ListNotations.
Open Scope string_scope.
Open Scope list_scope.

(** ** Specification *)

(** The calls with a [try]/[finally] (all but the two volume extractions). *)
Definition guarded (c : call) : Prop :=
  match c with ExtractVolume _ _ | ToVolume _ _ => False | _ => True end.

(** Setting a known option to a literal and closing the session do not raise; every other call
    may. *)
Definition literals_ok (fails : prim -> Prop) : Prop :=
  ~ fails Fin /\ forall k v, ~ fails (SetLit k v).

(** The options each call asks for; [None] where a user callback may set any. *)
Definition asked (c : call) : option options :=
  let lens h := [("General.Terminal", 0%R); ("Mesh.CharacteristicLengthMin", h); ("Mesh.CharacteristicLengthMax", h)] in
  match c with
  | Box false _ h | Box true true h | Sphere false h | Cylinder false h => Some (lens h)
  | Box true false h => Some (lens h ++ [("Mesh.RecombineAll", 1%R); ("Mesh.Algorithm", 8%R); ("Mesh.Algorithm3D", 1%R)])
  | Sphere true h | Cylinder true h => Some (lens h ++ [("Mesh.RecombineAll", 1%R); ("Mesh.Algorithm3D", 1%R)])
  | Refine _ => Some [("General.Terminal", 0%R)]
  | AdaptiveBox _ | Adaptive false =>
      Some [("General.Terminal", 0%R); ("Mesh.MeshSizeExtendFromBoundary", 0%R); ("Mesh.MeshSizeFromPoints", 0%R);
            ("Mesh.MeshSizeFromCurvature", 0%R); ("Mesh.CharacteristicLengthMin", 0%R); ("Mesh.CharacteristicLengthMax", 1e22%R)]
  | Adaptive true => None
  | ExtractVolume _ _ | ToVolume _ _ => None
  end.

(** ** Lemmas *)
Lemma exec_seq fails a b s o s' : exec fails (CSeq a b) s o s' ->
  (exists s1, exec fails a s Norm s1 /\ exec fails b s1 o s') \/ (o <> Norm /\ exec fails a s o s').
Proof. intro H. inversion H; subst; [left; eexists; split; eassumption|right; split; assumption]. Qed.
Lemma exec_prim fails p s o s' : exec fails (CPrim p) s o s' ->
  (o = Norm /\ eff p s = Some s') \/ (o = Raised false /\ s' = s) \/ (p = User /\ exists x, s' = with_sess s x).
Proof.
  intro H. inversion H; subst; [left; split; [reflexivity|assumption]| right; left; split; reflexivity
   | right; left; split; reflexivity | right; right; split; [reflexivity|eexists; reflexivity].. ].
Qed.
Lemma exec_either fails a b s o s' : exec fails (CEither a b) s o s' -> exec fails a s o s' \/ exec fails b s o s'.
Proof. intro H. inversion H; subst; [left|right]; assumption. Qed.
Lemma exec_fin fails a s o s' : ~ fails Fin -> exec fails (CFinally a (CPrim Fin)) s o s' ->
  exists s1, exec fails a s o s1 /\ s' = with_sess s1 None.
Proof.
  intros NF H. inversion H; subst.
  - match goal with X : exec _ (CPrim Fin) ?s1 _ _ |- _ => exists s1; split; [assumption|]; apply exec_prim in X;
      destruct X as [[_ E]|[[E _]|[E _]]]; [|discriminate..] end.
    simpl in E. congruence.
  - exfalso. match goal with X : exec _ (CPrim Fin) _ _ _ |- _ => inversion X; subst; [contradiction|] end. simpl in *. discriminate.
Qed.

(** What a command that never touches sessions or logs may do: nothing. *)
Inductive quiet : cmd -> Prop :=
| q_py w : quiet (CPrim (Py w)) | q_gmsh w : quiet (CPrim (Gmsh w)) | q_skip : quiet CSkip
| q_raise : quiet CRaise | q_ret : quiet CRet
| q_seq a b : quiet a -> quiet b -> quiet (CSeq a b) | q_either a b : quiet a -> quiet b -> quiet (CEither a b).
Lemma quiet_same fails c : quiet c -> forall s o s', exec fails c s o s' -> s' = s.
Proof.
  induction 1; intros s o s' E.
  - apply exec_prim in E. destruct E as [[_ E]|[[_ E]|[E _]]]; [simpl in E; congruence|exact E|discriminate].
  - apply exec_prim in E. destruct E as [[_ E]|[[_ E]|[E _]]]; [|exact E|discriminate].
    simpl in E. destruct (sess s); [congruence|discriminate].
  - inversion E; reflexivity.
  - inversion E; reflexivity.
  - inversion E; reflexivity.
  - apply exec_seq in E. destruct E as [(s1 & E1 & E2)|[_ E]]; [|eauto].
    rewrite (IHquiet2 _ _ _ E2). eauto.
  - inversion E; subst; eauto.
Qed.
Lemma read_quiet : quiet read_mesh.
Proof. unfold read_mesh; simpl. repeat constructor. Qed.
Lemma check_quiet : quiet check_type.
Proof. repeat constructor. Qed.

(** Calls that leave the files alone. *)
Inductive no_files : cmd -> Prop :=
| n_prim p : (forall b, p <> Tmp b /\ p <> Unlink b) -> no_files (CPrim p)
| n_skip : no_files CSkip | n_raise : no_files CRaise | n_ret : no_files CRet
| n_seq a b : no_files a -> no_files b -> no_files (CSeq a b)
| n_fin a b : no_files a -> no_files b -> no_files (CFinally a b)
| n_either a b : no_files a -> no_files b -> no_files (CEither a b)
| n_star a : no_files a -> no_files (CStar a).
Lemma no_files_eff p s s' : (forall b, p <> Tmp b /\ p <> Unlink b) -> eff p s = Some s' ->
  files s' = files s /\ next s' = next s.
Proof.
  intros N E. destruct p; simpl in E;
    try (destruct (N stl) as [N1 N2]; congruence);
    try (destruct (sess s); inversion E; subst; split; reflexivity);
    inversion E; subst; split; reflexivity.
Qed.
Lemma no_files_same fails c s o s' : exec fails c s o s' -> no_files c -> files s' = files s /\ next s' = next s.
Proof.
  induction 1; intro N; try (split; reflexivity); inversion N; subst;
    try (match goal with H : eff _ _ = Some _ |- _ => eapply no_files_eff; eassumption end);
    try (match goal with IH : no_files ?a -> _, H : no_files ?a |- _ => specialize (IH H) end);
    try (match goal with IH : no_files ?a -> _, H : no_files ?a |- _ => specialize (IH H) end);
    try (match goal with IH : no_files (CStar ?a) -> _ |- _ => specialize (IH N) end);
    intuition congruence.
Qed.
Lemma no_files_seqs ps : Forall (fun p => forall b, p <> Tmp b /\ p <> Unlink b) ps -> no_files (seqs ps).
Proof. induction 1; simpl; constructor; [constructor|]; assumption. Qed.

(** Straight-line pieces without a callback: the state after a prefix is determined. *)
Fixpoint run (ps : list prim) (s : st) : option st :=
  match ps with [] => Some s | p :: r => match eff p s with Some s1 => run r s1 | None => None end end.
Lemma seqs_run fails ps : ~ In User ps -> forall s o s', exec fails (seqs ps) s o s' ->
  (o = Norm /\ run ps s = Some s') \/
  (o = Raised false /\ exists a b, ps = a ++ b /\ run a s = Some s').
Proof.
  induction ps as [|p r IH]; intros NU s o s' E; simpl in E.
  - inversion E; subst. left. split; reflexivity.
  - apply exec_seq in E. destruct E as [(s1 & E1 & E2)|[NO E]].
    + apply exec_prim in E1. destruct E1 as [[_ E1]|[[E1 _]|[E1 _]]]; [|discriminate|exfalso; apply NU; left; congruence].
      destruct (IH ltac:(intro; apply NU; right; assumption) _ _ _ E2) as [[-> R]|(-> & a & b & -> & R)].
      * left. split; [reflexivity|]. simpl. rewrite E1. exact R.
      * right. split; [reflexivity|]. exists (p :: a), b. split; [reflexivity|]. simpl. rewrite E1. exact R.
    + apply exec_prim in E. destruct E as [[E _]|[[-> ->]|[E _]]]; [congruence| |exfalso; apply NU; left; congruence].
      right. split; [reflexivity|]. exists [], (p :: r). split; reflexivity.
Qed.

(** Options in force at the generations of a straight-line piece started with options [o]. *)
Fixpoint gens (ps : list prim) (o : options) : list options :=
  match ps with
  | [] => []
  | SetLit k v :: r | SetArg k v :: r => gens r (set_opt o k v)
  | Gen _ :: r => o :: gens r o
  | _ :: r => gens r o
  end.
Definition plain (p : prim) : Prop :=
  match p with SetLit _ _ | SetArg _ _ | Gmsh _ | Gen _ | Py _ => True | _ => False end.
Lemma run_gens ps : Forall plain ps -> forall s s' o, sess s = Some o -> run ps s = Some s' ->
  log s' = log s ++ gens ps o.
Proof.
  induction 1 as [|p r Hp Hr IH]; intros s s' o Ho E; simpl in E.
  - inversion E; subst. simpl. rewrite app_nil_r. reflexivity.
  - destruct p; simpl in Hp; try contradiction; simpl in E |- *; try rewrite Ho in E;
      try (exact (IH _ _ _ Ho E)); (etransitivity; [eapply IH; [|exact E]; (reflexivity || exact Ho)|]); simpl;
      try rewrite <- app_assoc; reflexivity.
Qed.
Lemma gens_app a b o : exists c, gens (a ++ b) o = gens a o ++ c.
Proof.
  revert o. induction a as [|p a IH]; intro o; simpl; [eexists; reflexivity|].
  destruct p; try apply IH. destruct (IH o) as [c ->]. exists c. reflexivity.
Qed.
Lemma seqs_log fails ps s o s' o0 : Forall plain ps -> sess s = Some o0 -> exec fails (seqs ps) s o s' ->
  exists l c, log s' = log s ++ l /\ gens ps o0 = l ++ c.
Proof.
  intros HP Ho E.
  assert (NU : ~ In User ps) by (intro I; exact (proj1 (Forall_forall _ _) HP _ I)).
  destruct (seqs_run fails ps NU _ _ _ E) as [[_ R]|(_ & a & b & -> & R)].
  - exists (gens ps o0), []. split; [eapply run_gens; eassumption|rewrite app_nil_r; reflexivity].
  - apply Forall_app in HP. destruct HP as [HA HB]. destruct (gens_app a b o0) as [c Ec].
    exists (gens a o0), c. split; [eapply run_gens; eassumption|exact Ec].
Qed.

Lemma framed_inv fails pre body s o s' : literals_ok fails -> quiet pre -> exec fails (framed pre body) s o s' ->
  s' = s \/ exists s0 s1, sess s0 = Some (set_opt (match sess s with Some x => x | None => [] end) "General.Terminal" 0%R) /\
    log s0 = log s /\ files s0 = files s /\ next s0 = next s /\
    exec fails body s0 o s1 /\ s' = with_sess s1 None.
Proof.
  intros [NF NL] QP E. unfold framed in E.
  apply exec_seq in E. destruct E as [(s1 & E1 & E)|[_ E]]; [|left; eapply quiet_same; eassumption].
  apply (quiet_same _ _ QP) in E1. subst s1.
  apply exec_seq in E. destruct E as [(s1 & E1 & E)|[NO E]].
  2:{ apply exec_prim in E. destruct E as [[E _]|[[_ E]|[E _]]]; [congruence|left; exact E|discriminate]. }
  apply exec_prim in E1. destruct E1 as [[_ E1]|[[E1 _]|[E1 _]]]; [|discriminate..].
  simpl in E1. injection E1 as E1.
  assert (S1 : sess s1 = Some (match sess s with Some x => x | None => [] end)).
  { rewrite <- E1. destruct (sess s) eqn:Z; [exact Z|reflexivity]. }
  assert (L1 : log s1 = log s /\ files s1 = files s /\ next s1 = next s).
  { rewrite <- E1. destruct (sess s); repeat split; reflexivity. }
  apply exec_seq in E. destruct E as [(s2 & E2 & E)|[NO E]].
  2:{ exfalso. inversion E; subst; [congruence|eapply NL; eassumption|]. simpl in *. rewrite S1 in *. discriminate. }
  apply exec_prim in E2. destruct E2 as [[_ E2]|[[E2 _]|[E2 _]]]; [|discriminate..].
  simpl in E2. rewrite S1 in E2. injection E2 as E2.
  apply (exec_fin _ _ _ _ _ NF) in E. destruct E as (s3 & E & ->).
  right. exists s2, s3. rewrite <- E2 at 1 2 3 4. simpl. destruct L1 as (A & B & C). repeat split; assumption.
Qed.

(** A generation body followed by reading the mesh. *)
Lemma body_log fails ps s o s' o0 e : Forall plain ps -> sess s = Some o0 ->
  (forall l c, gens ps o0 = l ++ c -> Forall (eq e) l) ->
  (exists c, quiet c /\ exec fails (CSeq (seqs ps) c) s o s') ->
  exists l, log s' = log s ++ l /\ Forall (eq e) l.
Proof.
  intros HP Ho HG (c & Q & E).
  apply exec_seq in E. destruct E as [(s1 & E1 & E2)|[_ E1]].
  - apply (quiet_same _ _ Q) in E2. subst s'.
    destruct (seqs_log _ _ _ _ _ _ HP Ho E1) as (l & k & L & G). exists l. split; [exact L|eapply HG; exact G].
  - destruct (seqs_log _ _ _ _ _ _ HP Ho E1) as (l & k & L & G). exists l. split; [exact L|eapply HG; exact G].
Qed.
Lemma prefix_all (e : options) (g : list options) : Forall (eq e) g -> forall l c, g = l ++ c -> Forall (eq e) l.
Proof. intros F l c ->. apply Forall_app in F. apply F. Qed.
Lemma gens_repeat w n o : gens (repeat (Gen w) n) o = repeat o n.
Proof. induction n as [|n IH]; simpl; [reflexivity|rewrite IH; reflexivity]. Qed.
Lemma repeat_all (e : options) n : Forall (eq e) (repeat e n).
Proof. induction n; simpl; constructor; [reflexivity|assumption]. Qed.

Definition adaptive_ask : options :=
  [("General.Terminal", 0%R); ("Mesh.MeshSizeExtendFromBoundary", 0%R); ("Mesh.MeshSizeFromPoints", 0%R);
   ("Mesh.MeshSizeFromCurvature", 0%R); ("Mesh.CharacteristicLengthMin", 0%R); ("Mesh.CharacteristicLengthMax", 1e22%R)].

Lemma attempt_log fails b s o s' : literals_ok fails -> sess s = None -> exec fails (attempt_cmd b) s o s' ->
  sess s' = None /\ exists l, log s' = log s ++ l /\ Forall (eq adaptive_ask) l.
Proof.
  intros LO HS E. apply (framed_inv _ _ _ _ _ _ LO (q_py _)) in E.
  destruct E as [->|(s0 & s1 & S0 & L0 & F0 & N0 & E & ->)].
  - split; [exact HS|]. exists []. rewrite app_nil_r. split; [reflexivity|constructor].
  - split; [reflexivity|]. rewrite HS in S0. simpl in S0.
    simpl log. rewrite <- L0. eapply body_log; [|exact S0| |exists read_mesh; split; [exact read_quiet|exact E]].
    + destruct b; simpl; repeat constructor.
    + apply prefix_all. destruct b; simpl; repeat constructor.
Qed.

Lemma call_log fails c s o s' : literals_ok fails -> guarded c -> sess s = None ->
  exec fails (body_of c) s o s' ->
  sess s' = None /\ exists l, log s' = log s ++ l /\
    match asked c with Some e => Forall (eq e) l | None => True end.
Proof.
  intros LO G HS E.
  assert (Q2 : quiet (CSeq read_mesh CRet)) by (constructor; [exact read_quiet|constructor]).
  destruct c as [hex rec h|hex h|hex h|n|cb|per|t h|t h]; simpl in G; try contradiction; simpl body_of in E.
  - apply (framed_inv _ _ _ _ _ _ LO (q_seq _ _ check_quiet (q_py _))) in E.
    destruct E as [->|(s0 & s1 & S0 & L0 & F0 & N0 & E & ->)].
    + split; [exact HS|]. exists []. rewrite app_nil_r. split; [reflexivity|destruct (asked _); constructor].
    + split; [reflexivity|]. rewrite HS in S0. simpl in S0. simpl log. rewrite <- L0.
      destruct hex, rec; simpl asked;
        (eapply body_log; [|exact S0| |eexists; split; [exact Q2|exact E]];
         [simpl; repeat constructor|apply prefix_all; simpl; repeat constructor]).
  - apply (framed_inv _ _ _ _ _ _ LO check_quiet) in E.
    destruct E as [->|(s0 & s1 & S0 & L0 & F0 & N0 & E & ->)].
    + split; [exact HS|]. exists []. rewrite app_nil_r. split; [reflexivity|destruct (asked _); constructor].
    + split; [reflexivity|]. rewrite HS in S0. simpl in S0. simpl log. rewrite <- L0.
      destruct hex; simpl asked;
        (eapply body_log; [|exact S0| |eexists; split; [exact Q2|exact E]];
         [simpl; repeat constructor|apply prefix_all; simpl; repeat constructor]).
  - apply (framed_inv _ _ _ _ _ _ LO check_quiet) in E.
    destruct E as [->|(s0 & s1 & S0 & L0 & F0 & N0 & E & ->)].
    + split; [exact HS|]. exists []. rewrite app_nil_r. split; [reflexivity|destruct (asked _); constructor].
    + split; [reflexivity|]. rewrite HS in S0. simpl in S0. simpl log. rewrite <- L0.
      destruct hex; simpl asked;
        (eapply body_log; [|exact S0| |eexists; split; [exact Q2|exact E]];
         [simpl; repeat constructor|apply prefix_all; simpl; repeat constructor]).
  - apply (framed_inv _ _ _ _ _ _ LO (q_seq _ _ check_quiet (q_py _))) in E.
    destruct E as [->|(s0 & s1 & S0 & L0 & F0 & N0 & E & ->)].
    + split; [exact HS|]. exists []. rewrite app_nil_r. split; [reflexivity|constructor].
    + split; [reflexivity|]. rewrite HS in S0. simpl in S0. simpl log. rewrite <- L0. simpl asked.
      eapply body_log; [|exact S0| |eexists; split; [exact Q2|exact E]].
      * apply Forall_app. split; [repeat constructor|]. apply Forall_forall. intros p Hp. apply repeat_spec in Hp. subst. exact I.
      * apply prefix_all. simpl. rewrite gens_repeat. apply repeat_all.
  - apply (framed_inv _ _ _ _ _ _ LO (q_py _)) in E.
    destruct E as [->|(s0 & s1 & S0 & L0 & F0 & N0 & E & ->)].
    + split; [exact HS|]. exists []. rewrite app_nil_r. split; [reflexivity|destruct (asked _); constructor].
    + split; [reflexivity|]. rewrite HS in S0. simpl in S0. simpl log. rewrite <- L0.
      destruct cb; simpl asked.
      * (* a callback: only that the log grows at the end *)
        assert (Grow : forall c s o s', exec fails c s o s' -> exists l, log s' = log s ++ l).
        { clear. intros c s o s' E. induction E; try (exists []; rewrite app_nil_r; reflexivity);
            try (destruct IHE as [l1 H1]; exists l1; exact H1);
            try (destruct IHE1 as [l1 H1], IHE2 as [l2 H2]; exists (l1 ++ l2); rewrite H2, H1, app_assoc; reflexivity).
          destruct p; simpl in H; try (destruct (sess s); inversion H; subst; eexists; first [reflexivity|rewrite app_nil_r; reflexivity]);
            try (inversion H; subst; exists []; rewrite app_nil_r; reflexivity).
          destruct (if stl then v_stl s else v_msh s); [|discriminate]. destruct (existsb _ _); inversion H; subst.
          exists []. rewrite app_nil_r. reflexivity. }
        destruct (Grow _ _ _ _ E) as [l Hl]. exists l. split; [exact Hl|exact I].
      * apply exec_seq in E. destruct E as [(s2 & E1 & E)|[_ E]].
        2:{ assert (Q1 : quiet (seqs [Gmsh "model.add"])) by (simpl; repeat constructor).
            apply (quiet_same _ _ Q1) in E. subst. exists []. rewrite app_nil_r. split; [reflexivity|constructor]. }
        assert (Q1 : quiet (seqs [Gmsh "model.add"])) by (simpl; repeat constructor).
        apply (quiet_same _ _ Q1) in E1. subst s2.
        assert (Q3 : quiet (seqs [Gmsh "importShapes"; Gmsh "synchronize"])) by (simpl; repeat constructor).
        apply exec_seq in E. destruct E as [(s2 & E1 & E)|[_ E]].
        2:{ apply (quiet_same _ _ Q3) in E. subst. exists []. rewrite app_nil_r. split; [reflexivity|constructor]. }
        apply (quiet_same _ _ Q3) in E1. subst s2.
        eapply body_log; [|exact S0| |eexists; split; [exact Q2|exact E]]; [simpl; repeat constructor|apply prefix_all; simpl; repeat constructor].
  - unfold adaptive_box_cmd in E. simpl asked. fold adaptive_ask.
    apply exec_seq in E. destruct E as [(s1 & E1 & E)|[_ E]].
    2:{ apply (quiet_same _ _ (q_py _)) in E. subst. split; [exact HS|]. exists []. rewrite app_nil_r. split; [reflexivity|constructor]. }
    apply (quiet_same _ _ (q_py _)) in E1. subst s1.
    apply exec_seq in E. destruct E as [(s1 & E1 & E)|[_ E]]; [|eapply attempt_log; eassumption].
    destruct (attempt_log _ _ _ _ _ LO HS E1) as (S1 & l1 & L1 & F1).
    assert (Star : forall cc s1 o s', exec fails cc s1 o s' -> cc = CStar (CSeq (CPrim (Py "rescale")) (attempt_cmd per)) -> sess s1 = None ->
      sess s' = None /\ exists l, log s' = log s1 ++ l /\ Forall (eq adaptive_ask) l).
    { clear - LO. induction 1; intros EQ HS; inversion EQ; subst.
      - split; [exact HS|]. exists []. rewrite app_nil_r. split; [reflexivity|constructor].
      - apply exec_seq in H. destruct H as [(s3 & H1 & H2)|[N _]]; [|congruence].
        apply (quiet_same _ _ (q_py _)) in H1. subst s3.
        destruct (attempt_log _ _ _ _ _ LO HS H2) as (S2 & l1 & L1 & F1).
        destruct (IHexec2 eq_refl S2) as (S3 & l2 & L2 & F2). split; [exact S3|].
        exists (l1 ++ l2). split; [rewrite L2, L1, app_assoc; reflexivity|apply Forall_app; split; assumption].
      - apply exec_seq in H0. destruct H0 as [(s3 & H1 & H2)|[N H1]].
        + apply (quiet_same _ _ (q_py _)) in H1. subst s3. eapply attempt_log; eassumption.
        + apply (quiet_same _ _ (q_py _)) in H1. subst. split; [exact HS|]. exists []. rewrite app_nil_r. split; [reflexivity|constructor]. }
    apply exec_seq in E. destruct E as [(s2 & E2 & E)|[_ E]].
    + apply (quiet_same _ _ q_ret) in E. subst s'.
      destruct (Star _ _ _ _ E2 eq_refl S1) as (S2 & l2 & L2 & F2). split; [exact S2|].
      exists (l1 ++ l2)%list. split; [rewrite L2, L1, app_assoc; reflexivity|apply Forall_app; split; assumption].
    + destruct (Star _ _ _ _ E eq_refl S1) as (S2 & l2 & L2 & F2). split; [exact S2|].
      exists (l1 ++ l2)%list. split; [rewrite L2, L1, app_assoc; reflexivity|apply Forall_app; split; assumption].
Qed.

(** ** C104 *)

(** However a guarded call ends, and wherever it raises, the session is closed (even one left
    open by an earlier call), or the call never reached it; no file is created or removed. *)
Theorem C104_closed : forall fails c s o s', literals_ok fails -> guarded c ->
  exec fails (body_of c) s o s' ->
  (sess s' = None \/ (sess s' = sess s /\ log s' = log s)) /\
  (sess s = None -> sess s' = None) /\
  files s' = files s.
Proof.
  intros fails c s o s' LO G E.
  assert (NF : no_files (body_of c)).
  { destruct c; simpl in G; try contradiction; simpl; unfold box_cmd, round_cmd, refine_cmd, adaptive_cmd, adaptive_box_cmd, attempt_cmd, framed, read_mesh, check_type;
      repeat first [ apply n_seq | apply n_fin | apply n_either | apply n_star | apply n_skip | apply n_raise | apply n_ret
                   | apply n_prim; intro; split; discriminate ];
      try (apply no_files_seqs);
      try (destruct callback); try (apply no_files_seqs); try (apply n_prim; intro; split; discriminate);
      try (destruct hex); try (destruct recombine); try (destruct periodic); simpl;
      repeat constructor; try discriminate.
    apply Forall_forall. intros p Hp. apply repeat_spec in Hp. subst. intro; split; discriminate. }
  split; [|split].
  2:{ intro HS. eapply call_log; eassumption. }
  2:{ eapply no_files_same; eassumption. }
  assert (FR : forall pre body s o s', quiet pre -> exec fails (framed pre body) s o s' ->
    sess s' = None \/ (sess s' = sess s /\ log s' = log s)).
  { intros pre body s2 o2 s2' Q H. apply (framed_inv _ _ _ _ _ _ LO Q) in H.
    destruct H as [->|(s0 & s1 & _ & _ & _ & _ & _ & ->)]; [right; split; reflexivity|left; reflexivity]. }
  destruct c; simpl in G; try contradiction; simpl in E.
  - eapply FR; [|exact E]. constructor; [exact check_quiet|constructor].
  - eapply FR; [|exact E]. exact check_quiet.
  - eapply FR; [|exact E]. exact check_quiet.
  - eapply FR; [|exact E]. constructor; [exact check_quiet|constructor].
  - eapply FR; [|exact E]. constructor.
  - unfold adaptive_box_cmd in E. apply exec_seq in E. destruct E as [(s1 & E1 & E)|[_ E]].
    2:{ apply (quiet_same _ _ (q_py _)) in E. subst. right; split; reflexivity. }
    apply (quiet_same _ _ (q_py _)) in E1. subst s1.
    apply exec_seq in E. destruct E as [(s1 & E1 & E)|[_ E]]; [|eapply FR; [|exact E]; constructor].
    assert (N1 : sess s1 = None).
    { unfold attempt_cmd in E1. assert (E1' := E1). unfold framed in E1.
      apply exec_seq in E1. destruct E1 as [(s2 & A & E1)|[NN _]]; [|congruence].
      apply exec_seq in E1. destruct E1 as [(s3 & B & E1)|[NN _]]; [|congruence].
      apply exec_seq in E1. destruct E1 as [(s4 & C & E1)|[NN _]]; [|congruence].
      destruct LO as [NF1 _]. apply (exec_fin _ _ _ _ _ NF1) in E1. destruct E1 as (s5 & _ & ->). reflexivity. }
    left.
    assert (Star : forall cc s1 o s', exec fails cc s1 o s' -> cc = CStar (CSeq (CPrim (Py "rescale")) (attempt_cmd periodic)) -> sess s1 = None -> sess s' = None).
    { clear - LO. induction 1; intros EQ HS; inversion EQ; subst; [exact HS| |].
      - apply exec_seq in H. destruct H as [(s3 & H1 & H2)|[N _]]; [|congruence].
        apply (quiet_same _ _ (q_py _)) in H1. subst s3. apply IHexec2; [reflexivity|]. eapply attempt_log; eassumption.
      - apply exec_seq in H0. destruct H0 as [(s3 & H1 & H2)|[N H1]].
        + apply (quiet_same _ _ (q_py _)) in H1. subst s3. eapply attempt_log; eassumption.
        + apply (quiet_same _ _ (q_py _)) in H1. subst. exact HS. }
    apply exec_seq in E. destruct E as [(s2 & E2 & E)|[_ E]].
    + apply (quiet_same _ _ q_ret) in E. subst s'. eapply Star; [exact E2|reflexivity|exact N1].
    + eapply Star; [exact E|reflexivity|exact N1].
Qed.
Print Assumptions C104_closed.

(** Over every sequence of guarded calls, each ending in any way, every mesh generation runs
    with exactly the options its own call asked for. *)
Theorem C104_fresh : forall fails calls s s', literals_ok fails ->
  Forall guarded calls -> sess s = None -> history fails calls s s' ->
  sess s' = None /\ files s' = files s /\
  exists es, List.length es = List.length calls /\ log s' = log s ++ List.concat es /\
    forall i c l e, nth_error calls i = Some c -> nth_error es i = Some l -> asked c = Some e -> Forall (eq e) l.
Proof.
  intros fails calls s s' LO G HS H. revert G HS. induction H as [s|c cs s o s1 s2 E H IH]; intros G HS.
  - split; [exact HS|]. split; [reflexivity|]. exists []. split; [reflexivity|]. split; [rewrite app_nil_r; reflexivity|].
    intros i c l e Hc. destruct i; discriminate.
  - inversion G; subst.
    destruct (call_log fails c (fresh_locals s) o s1 LO H2 HS E) as (S1 & l & L1 & F1).
    destruct (C104_closed fails c (fresh_locals s) o s1 LO H2 E) as (_ & _ & FF).
    destruct (IH H3 S1) as (S2 & F2 & es & Le & L2 & A).
    split; [exact S2|]. split; [rewrite F2; exact FF|]. exists (l :: es). split; [simpl; congruence|]. split.
    + rewrite L2, L1. simpl. rewrite app_assoc. reflexivity.
    + intros i k lk e Hk Hl He. destruct i as [|i]; simpl in Hk, Hl.
      * injection Hk as ->. injection Hl as ->. rewrite He in F1. exact F1.
      * eapply A; eassumption.
Qed.
Print Assumptions C104_fresh.

Fixpoint no_ret (c : cmd) : bool :=
  match c with
  | CRet => false
  | CSeq a b | CFinally a b | CEither a b => no_ret a && no_ret b
  | CStar a => no_ret a
  | _ => true
  end.
Lemma no_ret_spec fails c s o s' : exec fails c s o s' -> no_ret c = true -> o <> Ret.
Proof.
  induction 1; simpl; intro N; try discriminate;
    try (apply Bool.andb_true_iff in N; destruct N as [N1 N2]); auto.
Qed.
Lemma seqs_no_ret ps : no_ret (seqs ps) = true.
Proof. induction ps; simpl; auto. Qed.

(** A call that returns has generated its mesh: once, or once per level. *)
Theorem C104_returns : forall fails c s s' e, literals_ok fails -> sess s = None ->
  exec fails (body_of c) s Ret s' -> asked c = Some e ->
  match c with
  | Box _ _ _ | Sphere _ _ | Cylinder _ _ | Adaptive _ => log s' = log s ++ [e]
  | Refine n => log s' = log s ++ repeat e n
  | _ => exists n, log s' = log s ++ repeat e (S n)
  end.
Proof.
  intros fails c s s' e LO HS E HA.
  assert (FR : forall pre ps rest sf, quiet pre -> no_ret pre = true -> Forall plain ps -> quiet rest ->
    forall o, o = Ret \/ (o = Norm /\ no_ret rest = true) ->
    exec fails (framed pre (CSeq (seqs ps) rest)) s o sf ->
    sess sf = None /\ log sf = log s ++ gens ps [("General.Terminal", 0%R)]).
  { clear E. intros pre ps rest sf QP NP PL QR o HO E. destruct LO as [NF NL].
    assert (NU : ~ In User ps) by (intro I; exact (proj1 (Forall_forall _ _) PL _ I)).
    assert (NR : o <> Raised false) by (destruct HO as [->|[-> _]]; discriminate).
    unfold framed in E.
    apply exec_seq in E. destruct E as [(s1 & E1 & E)|[NO E]].
    2:{ exfalso. destruct HO as [->|[-> _]]; [eapply no_ret_spec; [exact E|exact NP|reflexivity]|congruence]. }
    apply (quiet_same _ _ QP) in E1. subst s1.
    apply exec_seq in E. destruct E as [(s1 & E1 & E)|[NO E]].
    2:{ exfalso. apply exec_prim in E. destruct E as [[E _]|[[E _]|[E _]]]; [congruence..|discriminate]. }
    apply exec_prim in E1. destruct E1 as [[_ E1]|[[E1 _]|[E1 _]]]; [|discriminate..].
    simpl in E1. rewrite HS in E1. injection E1 as <-.
    apply exec_seq in E. destruct E as [(s1 & E1 & E)|[NO E]].
    2:{ exfalso. apply exec_prim in E. destruct E as [[E _]|[[E _]|[E _]]]; [congruence..|discriminate]. }
    apply exec_prim in E1. destruct E1 as [[_ E1]|[[E1 _]|[E1 _]]]; [|discriminate..].
    simpl in E1. injection E1 as <-.
    apply (exec_fin _ _ _ _ _ NF) in E. destruct E as (s3 & E & ->).
    apply exec_seq in E. destruct E as [(s4 & E1 & E)|[NO E]].
    2:{ exfalso. apply (seqs_run _ _ NU) in E. destruct E as [[E _]|[E _]]; congruence. }
    apply (quiet_same _ _ QR) in E. subst s4.
    apply (seqs_run _ _ NU) in E1. destruct E1 as [[_ R]|[X _]]; [|discriminate].
    split; [reflexivity|]. simpl. eapply run_gens in R; [|exact PL|reflexivity]. exact R. }
  assert (Q2 : quiet (CSeq read_mesh CRet)) by (constructor; [exact read_quiet|constructor]).
  destruct c as [hex rec h|hex h|hex h|n|cb|per|t h|t h]; simpl in HA; try discriminate; simpl body_of in E.
  - apply FR in E; [|constructor; [exact check_quiet|constructor]|reflexivity|destruct hex, rec; simpl; repeat constructor|exact Q2|left; reflexivity].
    destruct E as [_ ->]. destruct hex, rec; injection HA as <-; reflexivity.
  - apply FR in E; [|exact check_quiet|reflexivity|destruct hex; simpl; repeat constructor|exact Q2|left; reflexivity].
    destruct E as [_ ->]. destruct hex; injection HA as <-; reflexivity.
  - apply FR in E; [|exact check_quiet|reflexivity|destruct hex; simpl; repeat constructor|exact Q2|left; reflexivity].
    destruct E as [_ ->]. destruct hex; injection HA as <-; reflexivity.
  - injection HA as <-. apply FR in E; [|constructor; [exact check_quiet|constructor]|reflexivity| |exact Q2|left; reflexivity].
    2:{ apply Forall_app. split; [repeat constructor|]. apply Forall_forall. intros p Hp. apply repeat_spec in Hp. subst. exact I. }
    destruct E as [_ ->]. simpl. rewrite gens_repeat. reflexivity.
  - destruct cb; [discriminate|]. injection HA as <-.
    assert (Re : forall s o s1, exec fails (framed (CPrim (Py "size callback"))
         (CSeq (seqs [Gmsh "model.add"]) (CSeq (seqs [Gmsh "importShapes"; Gmsh "synchronize"])
            (CSeq (seqs (Gmsh "setSizeCallback" :: size_opts ++ [Gen "generate"])) (CSeq read_mesh CRet))))) s o s1 ->
       exec fails (framed (CPrim (Py "size callback"))
         (CSeq (seqs (Gmsh "model.add" :: Gmsh "importShapes" :: Gmsh "synchronize" :: Gmsh "setSizeCallback" :: size_opts ++ [Gen "generate"])) (CSeq read_mesh CRet))) s o s1).
    { clear. intros s o s1 E. unfold framed in *.
      assert (AS : forall ps qs c s o s', exec fails (CSeq (seqs ps) (CSeq (seqs qs) c)) s o s' -> exec fails (CSeq (seqs (ps ++ qs)) c) s o s').
      { clear. intros ps. induction ps as [|p ps IH]; intros qs c s o s' E; simpl in *.
        - apply exec_seq in E. destruct E as [(x & A & B)|[N A]]; inversion A; subst; [exact B|congruence].
        - apply exec_seq in E. destruct E as [(x & A & B)|[N A]].
          + apply exec_seq in A. destruct A as [(y & A1 & A2)|[N _]]; [|congruence].
            assert (C : exec fails (CSeq (seqs (ps ++ qs)) c) y o s') by (apply IH; eapply e_seq; eassumption).
            apply exec_seq in C. destruct C as [(z & C1 & C2)|[N C1]].
            * eapply e_seq; [eapply e_seq; eassumption|exact C2].
            * apply e_seq_stop; [exact N|]. eapply e_seq; eassumption.
          + apply exec_seq in A. destruct A as [(y & A1 & A2)|[N2 A2]].
            * assert (C : exec fails (CSeq (seqs (ps ++ qs)) c) y o s') by (apply IH; apply e_seq_stop; assumption).
              apply exec_seq in C. destruct C as [(z & C1 & C2)|[N3 C1]].
              -- eapply e_seq; [eapply e_seq; eassumption|exact C2].
              -- apply e_seq_stop; [exact N3|]. eapply e_seq; eassumption.
            * apply e_seq_stop; [exact N2|]. apply e_seq_stop; assumption. }
      assert (SQ : forall a b b' s o s', (forall s o s', exec fails b s o s' -> exec fails b' s o s') ->
        exec fails (CSeq a b) s o s' -> exec fails (CSeq a b') s o s').
      { intros a b b' s2 o2 s2' Hb H. apply exec_seq in H. destruct H as [(x & A & B)|[N A]];
          [eapply e_seq; [exact A|apply Hb; exact B]|apply e_seq_stop; assumption]. }
      revert E. apply SQ. intros ? ? ?. apply SQ. intros ? ? ?. apply SQ. intros sx ox sx' E.
      assert (FI : forall b b', (forall s o s', exec fails b s o s' -> exec fails b' s o s') ->
        exec fails (CFinally b (CPrim Fin)) sx ox sx' -> exec fails (CFinally b' (CPrim Fin)) sx ox sx').
      { intros b b' Hb H. inversion H; subst; [eapply e_fin|eapply e_fin_fail]; eauto. }
      revert E. apply FI. intros sy oy sy' E.
      assert (E2 : exec fails (CSeq (seqs [Gmsh "model.add"]) (CSeq (seqs ([Gmsh "importShapes"; Gmsh "synchronize"] ++ (Gmsh "setSizeCallback" :: size_opts ++ [Gen "generate"]))) (CSeq read_mesh CRet))) sy oy sy').
      { revert E. apply SQ. intros ? ? ? E. apply AS. exact E. }
      apply AS in E2. exact E2. }
    unfold adaptive_cmd in E. cbv iota in E. apply Re in E.
    apply FR in E; [|constructor|reflexivity|simpl; repeat constructor|exact Q2|left; reflexivity].
    destruct E as [_ ->]. reflexivity.
  - injection HA as <-. fold adaptive_ask. unfold adaptive_box_cmd in E.
    destruct (call_log fails (AdaptiveBox per) s Ret s' LO I HS E) as (_ & l & L & FA). simpl in FA. fold adaptive_ask in FA.
    assert (LR : forall l, Forall (eq adaptive_ask) l -> l = repeat adaptive_ask (List.length l)).
    { clear. induction 1 as [|x l <- H IH]; simpl; [reflexivity|]. rewrite <- IH. reflexivity. }
    destruct l as [|x l].
    2:{ exists (List.length l). rewrite L. f_equal. exact (LR _ FA). }
    exfalso. rewrite app_nil_r in L.
    apply exec_seq in E. destruct E as [(s1 & E1 & E)|[_ E]].
    2:{ exact (no_ret_spec _ _ _ _ _ E eq_refl eq_refl). }
    apply (quiet_same _ _ (q_py _)) in E1. subst s1.
    apply exec_seq in E. destruct E as [(s1 & E1 & E)|[_ E]].
    2:{ refine (no_ret_spec _ _ _ _ _ E _ eq_refl). unfold attempt_cmd, framed. destruct per; reflexivity. }
    unfold attempt_cmd in E1. apply FR in E1; [|constructor|reflexivity|destruct per; simpl; repeat constructor|exact read_quiet|right; split; reflexivity].
    assert (Grow : forall c s o s', exec fails c s o s' -> List.length (log s) <= List.length (log s')).
    { clear. intros c s o s' E. induction E; try lia; try (simpl; lia).
      destruct p; simpl in H; try (destruct (sess s); inversion H; subst; simpl; rewrite ?app_length; lia);
        try (inversion H; subst; simpl; lia).
      destruct (if stl then v_stl s else v_msh s); [|discriminate]. destruct (existsb _ _); inversion H; subst. simpl. lia. }
    apply Grow in E. destruct E1 as [_ E1]. rewrite L, E1, app_length in E. destruct per; simpl in E; lia.
Qed.
Print Assumptions C104_returns.

(** The two volume extractions clean up when they return, and when they report that no
    surfaces were found. *)
Theorem C104_volume_exit : forall fails surface tet10 h s o s',
  sess s = None -> Forall (fun f => f < next s) (files s) ->
  exec fails (volume_cmd surface tet10 h) s o s' ->
  o = Ret \/ o = Raised true ->
  sess s' = None /\ files s' = files s.
Proof.
  intros fails surface tet10 h s o s' HS WF E HO.
  assert (FX : forall k, next s <= k -> filter (fun g => negb (Nat.eqb k g)) (files s) = files s).
  { intros k K. clear - WF K. induction WF as [|f l Hf Hl IH]; simpl; [reflexivity|].
    destruct (Nat.eqb_spec k f); [lia|]. simpl. rewrite IH. reflexivity. }
  unfold volume_cmd in E. apply exec_seq in E. destruct E as [(s1 & E1 & E)|[_ E]].
  2:{ exfalso. apply seqs_run in E; [|simpl; intuition discriminate]. destruct E as [[-> _]|[-> _]]; destruct HO; discriminate. }
  apply seqs_run in E1; [|simpl; intuition discriminate]. destruct E1 as [[_ R]|[N _]]; [|discriminate].
  simpl in R. rewrite HS in R. simpl in R. injection R as <-.
  apply exec_either in E. destruct E as [X|X].
  - apply exec_seq in X. destruct X as [(s2 & E2 & E)|[_ E]].
    2:{ exfalso. apply seqs_run in E; [|simpl; intuition discriminate]. destruct E as [[-> _]|[-> _]]; destruct HO; discriminate. }
    apply seqs_run in E2; [|simpl; intuition discriminate]. destruct E2 as [[_ R]|[N _]]; [|discriminate].
    simpl in R. rewrite Nat.eqb_refl in R. simpl in R. injection R as <-. inversion E; subst. simpl.
    rewrite FX by lia. split; reflexivity.
  - apply exec_seq in X. destruct X as [(s2 & E2 & E)|[_ E]].
    2:{ exfalso. apply seqs_run in E; [|destruct tet10; simpl; intuition discriminate]. destruct E as [[-> _]|[-> _]]; destruct HO; discriminate. }
    apply seqs_run in E2; [|destruct tet10; simpl; intuition discriminate]. destruct E2 as [[_ R]|[N _]]; [|discriminate].
    destruct (Nat.eqb_spec (next s) (S (next s))) as [Z|NZ]; [lia|].
    assert (Z1 : Nat.eqb (next s) (S (next s)) = false) by (apply Nat.eqb_neq; lia).
    destruct tet10; simpl in R; rewrite ?Nat.eqb_refl, ?Z1 in R; simpl in R; rewrite ?Nat.eqb_refl, ?Z1 in R; simpl in R;
      rewrite ?Nat.eqb_refl, ?Z1 in R; simpl in R; injection R as <-; inversion E; subst; simpl;
      rewrite ?Nat.eqb_refl, ?Z1; simpl; rewrite ?Nat.eqb_refl; simpl;
      rewrite (FX (next s)) by lia; (split; [reflexivity|]); exact (FX (S (next s)) ltac:(lia)).
Qed.
Print Assumptions C104_volume_exit.

(** They do not when anything else raises: if only the mesher can fail, a failed extraction
    leaves the session open and the STL file on disk. *)
Definition init_state : st := {| sess := None; files := []; next := 0; v_stl := None; v_msh := None; log := [] |}.
Lemma run_exec fails ps : forall s s', run ps s = Some s' -> exec fails (seqs ps) s Norm s'.
Proof.
  induction ps as [|p r IH]; intros s s' E; simpl in E |- *; [injection E as ->; constructor|].
  destruct (eff p s) as [s1|] eqn:H; [|discriminate]. eapply e_seq; [apply e_ok; exact H|apply IH; exact E].
Qed.
Lemma run_fail_exec (fails : prim -> Prop) a p b : fails p -> forall s s', run a s = Some s' -> exec fails (seqs (a ++ p :: b)) s (Raised false) s'.
Proof.
  intro F. induction a as [|q a IH]; intros s s' E; simpl in E |- *.
  - injection E as ->. apply e_seq_stop; [discriminate|]. apply e_fail. exact F.
  - destruct (eff q s) as [s1|] eqn:H; [|discriminate]. eapply e_seq; [apply e_ok; exact H|apply IH; exact E].
Qed.

Lemma volume_leak (fails : prim -> Prop) surface h : fails (Gen "generate") ->
  exists s', exec fails (volume_cmd surface true h) init_state (Raised false) s' /\
    sess s' = Some [("General.Verbosity", 1%R); ("Mesh.CharacteristicLengthMin", (h * / 2)%R);
                    ("Mesh.CharacteristicLengthMax", h); ("Mesh.ElementOrder", 2%R)] /\ files s' = [0] /\ log s' = [] /\ next s' = 1.
Proof.
  intro F. eexists. split.
  - unfold volume_cmd. eapply e_seq; [apply run_exec; reflexivity|]. apply e_right. apply e_seq_stop; [discriminate|].
    apply (run_fail_exec fails [Gmsh "addSurfaceLoop"; Gmsh "addVolume"; Gmsh "synchronize";
                SetArg "Mesh.CharacteristicLengthMin" (h * / 2); SetArg "Mesh.CharacteristicLengthMax" h;
                SetLit "Mesh.ElementOrder" 2] (Gen "generate") _ F). simpl. reflexivity.
  - repeat split; reflexivity.
Qed.

Theorem C104_leak_refuted : forall c h, c = ExtractVolume true h \/ c = ToVolume true h ->
  exists fails s', literals_ok fails /\ (forall p, fails p -> p = Gen "generate") /\
    exec fails (body_of c) init_state (Raised false) s' /\ sess s' <> None /\ files s' <> [].
Proof.
  intros c h Hc. exists (fun p => p = Gen "generate").
  assert (LO : literals_ok (fun p => p = Gen "generate")) by (split; [discriminate|intros; discriminate]).
  destruct Hc as [->| ->].
  - destruct (volume_leak (fun p => p = Gen "generate") "extract_surface" h eq_refl) as (s' & E & S & F & _).
    exists s'. split; [exact LO|]. split; [auto|]. split; [exact E|]. rewrite S, F. split; discriminate.
  - destruct (volume_leak (fun p => p = Gen "generate") "to_mesh" h eq_refl) as (s' & E & S & F & _).
    exists s'. split; [exact LO|]. split; [auto|]. split; [exact E|]. rewrite S, F. split; discriminate.
Qed.
Print Assumptions C104_leak_refuted.

(** And the next call inherits the options: a box of linear tetrahedra made after a failed
    quadratic extraction is generated with second-order elements switched on. *)
Theorem C104_inherit_refuted : exists fails s' e,
  literals_ok fails /\ history fails [ExtractVolume true 1; Box false true 1] init_state s' /\
  log s' = [e] /\ In ("Mesh.ElementOrder", 2%R) e /\ asked (Box false true 1) <> Some e.
Proof.
  destruct (volume_leak (fun p => p = Gen "generate") "extract_surface" 1 eq_refl) as (s1 & E1 & S1 & F1 & L1 & N1).
  exists (fun p => p = Gen "generate"). eexists. exists [("General.Verbosity", 1%R); ("Mesh.CharacteristicLengthMin", 1%R);
                    ("Mesh.CharacteristicLengthMax", 1%R); ("Mesh.ElementOrder", 2%R); ("General.Terminal", 0%R)].
  split; [split; [discriminate|intros; discriminate]|]. split; [|split; [|split]].
  - eapply h_cons; [exact E1|]. eapply h_cons; [|apply h_nil].
    simpl body_of. unfold box_cmd, framed.
    eapply e_seq; [eapply e_seq; [apply e_right, e_skip|apply e_ok; reflexivity]|].
    eapply e_seq; [apply e_ok; simpl; rewrite S1; reflexivity|].
    eapply e_seq; [apply e_ok; simpl; rewrite S1; reflexivity|].
    eapply e_fin; [|apply e_ok; reflexivity].
    eapply e_seq; [apply run_exec; simpl; reflexivity|].
    eapply e_seq; [|apply e_ret]. unfold read_mesh.
    eapply e_seq; [apply run_exec; simpl; reflexivity|]. eapply e_seq; [apply e_right, e_skip|apply e_ok; reflexivity].
  - simpl. rewrite L1. reflexivity.
  - simpl. tauto.
  - simpl. discriminate.
Qed.
Print Assumptions C104_inherit_refuted.

(** An interrupt between opening the session and entering the [try] leaves it open even in the
    guarded functions. *)
Theorem C104_interrupt_refuted : exists fails s',
  ~ fails Fin /\ exec fails (body_of (Box false true 1)) init_state (Raised false) s' /\ sess s' <> None.
Proof.
  exists (fun p => p = SetLit "General.Terminal" 0). eexists. split; [discriminate|]. split.
  - simpl body_of. unfold box_cmd, framed.
    eapply e_seq; [eapply e_seq; [apply e_right, e_skip|apply e_ok; reflexivity]|].
    eapply e_seq; [apply e_ok; reflexivity|].
    apply e_seq_stop; [discriminate|]. apply e_fail. reflexivity.
  - simpl. discriminate.
Qed.
Print Assumptions C104_interrupt_refuted.

(** A geometry callback is called before the sizes are set: whatever options it leaves in the session are in force at the generation,
    except the five size options, and the session is closed all the same. *)
Theorem C104_callback : forall fails s o, sess s = None ->
  exists s', exec fails (body_of (Adaptive true)) s Ret s' /\ sess s' = None /\
    log s' = log s ++ [fold_left (fun o kv => set_opt o (fst kv) (snd kv))
      [("Mesh.MeshSizeExtendFromBoundary", 0%R); ("Mesh.MeshSizeFromPoints", 0%R); ("Mesh.MeshSizeFromCurvature", 0%R);
       ("Mesh.CharacteristicLengthMin", 0%R); ("Mesh.CharacteristicLengthMax", 1e22%R)] o].
Proof.
  intros fails s o HS. eexists. split.
  - simpl body_of. unfold adaptive_cmd, framed.
    eapply e_seq; [apply e_ok; reflexivity|]. eapply e_seq; [apply e_ok; simpl; rewrite HS; reflexivity|].
    eapply e_seq; [apply e_ok; reflexivity|]. eapply e_fin; [|apply e_ok; reflexivity].
    eapply e_seq; [apply run_exec; simpl; reflexivity|].
    eapply e_seq; [apply (e_user _ _ (Some o))|].
    eapply e_seq; [apply run_exec; simpl; reflexivity|].
    eapply e_seq; [|apply e_ret]. unfold read_mesh.
    eapply e_seq; [apply run_exec; simpl; reflexivity|]. eapply e_seq; [apply e_right, e_skip|apply e_ok; reflexivity].
  - split; reflexivity.
Qed.
Print Assumptions C104_callback.

(** The hypotheses are met: a sphere whose generation fails, then a box that succeeds, with
    every call but the exempt ones allowed to fail. *)
Example C104_example : exists s',
  let fails := fun p => match p with Fin | SetLit _ _ => False | _ => True end in
  literals_ok fails /\ Forall guarded [Sphere true 2; Box true false 1] /\ sess init_state = None /\
  history fails [Sphere true 2; Box true false 1] init_state s' /\ List.length (log s') = 1.
Proof.
  eexists. intro fails. split; [split; [exact (fun x => x)|intros k v x; exact x]|].
  split; [repeat constructor|]. split; [reflexivity|]. split.
  - eapply h_cons.
    + simpl body_of. unfold round_cmd, framed.
      eapply e_seq; [apply e_right, e_skip|]. eapply e_seq; [apply e_ok; reflexivity|].
      eapply e_seq; [apply e_ok; reflexivity|]. eapply e_fin; [|apply e_ok; reflexivity].
      apply e_seq_stop; [|apply (run_fail_exec fails [Gmsh "model.add"; Py "axis"] (Gmsh "addSphere") _ I); reflexivity].
      discriminate.
    + eapply h_cons; [|apply h_nil].
      simpl body_of. unfold box_cmd, framed.
      eapply e_seq; [eapply e_seq; [apply e_right, e_skip|apply e_ok; reflexivity]|].
      eapply e_seq; [apply e_ok; reflexivity|]. eapply e_seq; [apply e_ok; reflexivity|].
      eapply e_fin; [|apply e_ok; reflexivity].
      eapply e_seq; [apply run_exec; simpl; reflexivity|].
      eapply e_seq; [|apply e_ret]. unfold read_mesh.
      eapply e_seq; [apply run_exec; simpl; reflexivity|]. eapply e_seq; [apply e_right, e_skip|apply e_ok; reflexivity].
  - reflexivity.
Qed.
