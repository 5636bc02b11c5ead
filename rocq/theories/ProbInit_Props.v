(** C106: what a problem is built from. *)
From Coq Require Import List Arith Bool Lia String.
From Verif Require Import ProbInit_Model.
Import ListNotations.
Open Scope list_scope.

(** ** Specification *)
(** [asked p i a]: the arguments of the finite element that the caller asks for variable [i]. A
    single mesh comes with single values; a list of meshes with lists, the quadrature order
    being a list or one value for all. *)
Inductive asked (p : prob) : nat -> args -> Prop :=
| asked_one : is_list (p_mesh p) = false ->
    asked p 0 {| a_mesh := p_mesh p; a_vec := p_vec p; a_dim := p_dim p; a_ele := p_ele p; a_go := p_go p; a_hess := p_hess p |}
| asked_list ms vs es gs i m v e g : p_mesh p = PList ms -> p_vec p = PList vs -> p_ele p = PList es ->
    (p_go p = PList gs /\ nth_error gs i = Some g) \/ (is_list (p_go p) = false /\ g = p_go p) ->
    nth_error ms i = Some m -> nth_error vs i = Some v -> nth_error es i = Some e ->
    asked p i {| a_mesh := m; a_vec := v; a_dim := p_dim p; a_ele := e; a_go := g; a_hess := p_hess p |}.
Definition variables (p : prob) : nat := match p_mesh p with PList ms => List.length ms | _ => 1 end.
(** The finite element of variable [i] in a built problem. *)
Definition element (b : built) (i : nat) : option args :=
  match nth_error (b_fes b) i with Some o => nth_error (b_heap b) o | None => None end.
(** The finite element constructor refuses element types of one letter and component counts that
    are not numbers. *)
Definition sensible (fe_new : args -> option nat) : Prop :=
  (forall a c, a_ele a = PStr (String c EmptyString) -> fe_new a = None) /\
  (forall a s, a_vec a = PStr s -> fe_new a = None).
Definition defined_single (k : kernels) (s : string) : Prop :=
  (s = "get_tensor_map()"%string /\ k_tensor k = true) \/ (s = "get_energy_density()"%string /\ k_energy k = true) \/
  (s = "get_mass_map()"%string /\ k_mass k = true) \/ (s = "get_surface_maps()"%string /\ 0 < k_nsurf k).

(** ** Lemmas *)
Lemma find_some h a n o : find h a n = Some o -> n <= o /\ nth_error h (o - n) = Some a.
Proof.
  revert n. induction h as [|b h IH]; intro n; simpl; [discriminate|].
  destruct (args_eq_dec b a) as [->|_].
  - intro E. injection E as ->. rewrite Nat.sub_diag. split; [lia|reflexivity].
  - intro E. destruct (IH _ E) as [L N]. split; [lia|]. replace (o - n) with (S (o - S n)) by lia. exact N.
Qed.
Lemma find_none h a n : find h a n = None -> ~ In a h.
Proof.
  revert n. induction h as [|b h IH]; intro n; simpl; [auto|].
  destruct (args_eq_dec b a) as [->|D]; [discriminate|]. intros E [->|I]; [congruence|exact (IH _ E I)].
Qed.

Section Build.
  Variable fe_new : args -> option nat.
  (** The loop: the heap stays free of duplicates, and each variable points at its own arguments. *)
  Lemma build_spec p vars : forall heap fes heap' fes',
    build fe_new p vars heap fes = Some (heap', fes') -> NoDup heap ->
    (forall a, In a heap -> fe_new a <> None) ->
    (forall o, In o fes -> o < List.length heap) ->
    NoDup heap' /\ (forall a, In a heap' -> fe_new a <> None) /\
    (exists ext, heap' = heap ++ ext /\ forall a, In a ext -> exists i, In i vars /\ key p i = Some a) /\
    (exists fs, fes' = fes ++ fs /\ List.length fs = List.length vars /\
      forall j i, nth_error vars j = Some i -> exists o a, nth_error fs j = Some o /\ key p i = Some a /\ nth_error heap' o = Some a).
  Proof.
    induction vars as [|i vars IH]; intros heap fes heap' fes' E ND OK LT; simpl in E.
    - injection E as <- <-. repeat split; [exact ND|exact OK| |].
      + exists []. rewrite app_nil_r. split; [reflexivity|intros a []].
      + exists []. rewrite app_nil_r. repeat split. intros [|j] i N; discriminate.
    - destruct (key p i) as [a|] eqn:K; [|discriminate].
      destruct (find heap a 0) as [o|] eqn:F.
      + destruct (find_some _ _ _ _ F) as [_ NO]. rewrite Nat.sub_0_r in NO.
        assert (LT' : forall o', In o' (fes ++ [o]) -> o' < List.length heap).
        { intros o' I. apply in_app_or in I. destruct I as [I|[<-|[]]]; [exact (LT _ I)|].
          apply nth_error_Some. congruence. }
        destruct (IH _ _ _ _ E ND OK LT') as (ND' & OK' & (ext & -> & X) & (fs & -> & L & FS)).
        repeat split; [exact ND'|exact OK'| |].
        * exists ext. split; [reflexivity|]. intros b I. destruct (X b I) as (j & J & KJ). exists j. split; [right; exact J|exact KJ].
        * exists (o :: fs). rewrite <- app_assoc. split; [reflexivity|]. split; [simpl; congruence|].
          intros [|j] i' N; simpl in N.
          -- injection N as <-. exists o, a. repeat split; [exact K|]. rewrite nth_error_app1; [exact NO|]. apply nth_error_Some. congruence.
          -- exact (FS j i' N).
      + destruct (fe_new a) as [q|] eqn:FN; [|discriminate].
        pose proof (find_none _ _ _ F) as NI.
        assert (ND1 : NoDup (heap ++ [a])).
        { clear -ND NI. induction heap as [|b h IHh]; simpl; [constructor; [auto|constructor]|].
          inversion ND; subst. constructor.
          - intro I. apply in_app_or in I. destruct I as [I|[<-|[]]]; [contradiction|]. apply NI. left; reflexivity.
          - apply IHh; [assumption|]. intro I. apply NI. right; exact I. }
        assert (OK1 : forall b, In b (heap ++ [a]) -> fe_new b <> None).
        { intros b I. apply in_app_or in I. destruct I as [I|[<-|[]]]; [exact (OK b I)|congruence]. }
        assert (LT' : forall o', In o' (fes ++ [List.length heap]) -> o' < List.length (heap ++ [a])).
        { intros o' I. rewrite app_length. simpl. apply in_app_or in I. destruct I as [I|[<-|[]]]; [specialize (LT _ I)|]; lia. }
        destruct (IH _ _ _ _ E ND1 OK1 LT') as (ND' & OK' & (ext & -> & X) & (fs & -> & L & FS)).
        repeat split; [exact ND'|exact OK'| |].
        * exists (a :: ext). rewrite <- app_assoc. split; [reflexivity|]. intros b [<-|I].
          -- exists i. split; [left; reflexivity|exact K].
          -- destruct (X b I) as (j & J & KJ). exists j. split; [right; exact J|exact KJ].
        * exists (List.length heap :: fs). rewrite <- (app_assoc fes). split; [reflexivity|]. split; [simpl; congruence|].
          intros [|j] i' N; simpl in N.
          -- injection N as <-. exists (List.length heap), a. repeat split; [exact K|].
             rewrite <- app_assoc. rewrite nth_error_app2 by lia. rewrite Nat.sub_diag. reflexivity.
          -- exact (FS j i' N).
  Qed.
End Build.

Lemma index_str s i x : index (PStr s) i = Some x -> exists c, x = PStr (String c EmptyString).
Proof. simpl. destruct (String.get i s) as [c|]; [|discriminate]. intro E. injection E as <-. exists c. reflexivity. Qed.

Lemma key_inv p i a : key p i = Some a ->
  index (p_mesh p) i = Some (a_mesh a) /\ index (p_vec p) i = Some (a_vec a) /\ index (p_ele p) i = Some (a_ele a) /\
  (if is_list (p_go p) then index (p_go p) i else Some (p_go p)) = Some (a_go a) /\
  a_dim a = p_dim p /\ a_hess a = p_hess p.
Proof.
  unfold key. destruct (index (p_mesh p) i) as [m|]; [|discriminate]. destruct (index (p_vec p) i) as [v|]; [|discriminate].
  destruct (index (p_ele p) i) as [e|]; [|discriminate].
  destruct (if is_list (p_go p) then index (p_go p) i else Some (p_go p)) as [g|]; [|discriminate].
  destruct (is_list v || is_list e || is_list g); [discriminate|]. intro E. injection E as <-. repeat split.
Qed.

Lemma key_asked fe_new p v i a : sensible fe_new -> fe_new a <> None -> key (wrap p v) i = Some a -> i < variables p -> asked p i a.
Proof.
  intros [S1 S2] OK K L. apply key_inv in K. destruct K as (K1 & K2 & K3 & K4 & K5 & K6). destruct a as [m vv d e g h].
  unfold wrap, variables in *. destruct (is_list (p_mesh p)) eqn:IL; simpl in *; subst d h.
  - destruct (p_mesh p) as [| | | |ms] eqn:PM; try discriminate. simpl in K1.
    assert (V : exists vs, p_vec p = PList vs).
    { destruct (p_vec p) as [| |s| |vs]; try (simpl in K2; discriminate).
      - apply index_str in K2. destruct K2 as [c ->]. exfalso. apply OK. eapply S2. reflexivity.
      - exists vs; reflexivity. }
    assert (E : exists es, p_ele p = PList es).
    { destruct (p_ele p) as [| |s| |es]; try (simpl in K3; discriminate).
      - apply index_str in K3. destruct K3 as [c ->]. exfalso. apply OK. eapply S1. reflexivity.
      - exists es; reflexivity. }
    destruct V as [vs V]. destruct E as [es E]. rewrite V in K2. rewrite E in K3. simpl in K2, K3.
    destruct (p_go p) as [| | | |gs] eqn:G; simpl in K4.
    all: try (apply (asked_list p ms vs es [] i m vv e g PM V E); [right; rewrite G; split; [reflexivity|congruence]|assumption..]).
    apply (asked_list p ms vs es gs i m vv e g PM V E); [left; split; assumption|assumption..].
  - assert (Z : i = 0) by (destruct (p_mesh p); simpl in *; try discriminate; lia). subst i. simpl in *.
    injection K1 as <-. injection K2 as <-. injection K3 as <-. injection K4 as <-. apply asked_one. exact IL.
Qed.

Section Init.
  Variable fe_new : args -> option nat.
  Variable custom : nat -> option kernels.
  Lemma init_inv p b : post_init fe_new custom p = Some b ->
    exists v ms k, view (p_view p) = Some v /\ p_mesh (wrap p v) = PList ms /\ b_args b = wrap p v /\ b_num b = List.length ms /\
      build fe_new (wrap p v) (seq 0 (List.length ms)) [] [] = Some (b_heap b, b_fes b) /\
      same_quads fe_new (b_heap b) (b_fes b) = true /\ custom (p_info p) = Some k /\ validate (List.length ms) k = Some (b_warn b).
  Proof.
    unfold post_init. destruct (view (p_view p)) as [v|]; [|discriminate].
    assert (PI : p_info (wrap p v) = p_info p) by (unfold wrap; destruct (is_list _); reflexivity).
    destruct (p_mesh (wrap p v)) as [| | | |ms] eqn:PM; try discriminate.
    destruct (build fe_new (wrap p v) (seq 0 (List.length ms)) [] []) as [[heap fes]|] eqn:BU; [|discriminate].
    destruct (same_quads fe_new heap fes) eqn:SQ; [|discriminate]. rewrite PI.
    destruct (custom (p_info p)) as [k|] eqn:CU; [|discriminate]. destruct (validate (List.length ms) k) as [w|] eqn:VA; [|discriminate].
    intro E. injection E as <-. exists v, ms, k. simpl. repeat split; assumption.
  Qed.
  Lemma wrap_count p v ms : p_mesh (wrap p v) = PList ms -> List.length ms = variables p.
  Proof.
    unfold wrap, variables. destruct (p_mesh p); simpl; intro E; injection E as <-; reflexivity.
  Qed.
  Lemma init_build p b : post_init fe_new custom p = Some b ->
    exists v, NoDup (b_heap b) /\ (forall a, In a (b_heap b) -> fe_new a <> None) /\
      (forall a, In a (b_heap b) -> exists i, i < variables p /\ key (wrap p v) i = Some a) /\
      List.length (b_fes b) = variables p /\
      (forall i, i < variables p -> exists o a, nth_error (b_fes b) i = Some o /\ key (wrap p v) i = Some a /\ nth_error (b_heap b) o = Some a).
  Proof.
    intro E. destruct (init_inv p b E) as (v & ms & k & _ & PM & _ & _ & BU & _). exists v.
    destruct (build_spec fe_new _ _ _ _ _ _ BU (NoDup_nil _) ltac:(intros a []) ltac:(intros o [])) as (ND & OK & (ext & EX & X) & (fs & EF & L & FS)).
    simpl in EX, EF. rewrite seq_length in L. rewrite (wrap_count p v ms PM) in *.
    split; [exact ND|]. split; [exact OK|]. split; [|split; [congruence|]].
    - intros a I. rewrite EX in I. destruct (X a I) as (i & II & K). apply in_seq in II. exists i. split; [lia|exact K].
    - intros i LI. rewrite EF. apply (FS i i). rewrite (nth_error_nth' _ 0) by (rewrite seq_length; exact LI). rewrite seq_nth by exact LI. reflexivity.
  Qed.
End Init.

(** ** Theorems *)

(** A problem that is built has one variable per mesh, and the finite element of each variable is
    built from exactly that variable's mesh, components, element type and quadrature order. *)
Theorem C106_arguments : forall fe_new custom p b, sensible fe_new -> post_init fe_new custom p = Some b ->
  b_num b = variables p /\ List.length (b_fes b) = variables p /\
  forall i, i < variables p -> exists a, element b i = Some a /\ asked p i a.
Proof.
  intros fe_new custom p b SE E. destruct (init_build fe_new custom p b E) as (v & _ & OK & _ & L & FS).
  split; [|split; [exact L|]].
  - destruct (init_inv _ _ _ _ E) as (v' & ms & k & _ & PM & _ & -> & _). exact (wrap_count p v' ms PM).
  - intros i LI. destruct (FS i LI) as (o & a & N & K & H). exists a. unfold element. rewrite N. split; [exact H|].
    apply (key_asked fe_new p v i a SE); [|exact K|exact LI]. apply OK. apply nth_error_In in H. exact H.
Qed.
Print Assumptions C106_arguments.

(** Two variables share one finite element object exactly when they ask for the same one; nothing
    is built twice and nothing is built in vain. *)
Theorem C106_sharing : forall fe_new custom p b, post_init fe_new custom p = Some b ->
  (forall i j, i < variables p -> j < variables p ->
     (nth_error (b_fes b) i = nth_error (b_fes b) j <-> element b i = element b j)) /\
  NoDup (b_heap b) /\ (forall a, In a (b_heap b) -> exists i, i < variables p /\ element b i = Some a).
Proof.
  intros fe_new custom p b E. destruct (init_build fe_new custom p b E) as (v & ND & OK & X & L & FS).
  split; [|split; [exact ND|]].
  - intros i j LI LJ. unfold element. destruct (FS i LI) as (o & a & N & K & H). destruct (FS j LJ) as (o' & a' & N' & K' & H').
    rewrite N, N', H, H'. split; intro Q.
    + injection Q as <-. congruence.
    + injection Q as <-. f_equal. apply (proj1 (NoDup_nth_error (b_heap b)) ND); [|congruence]. apply nth_error_Some. congruence.
  - intros a I. destruct (X a I) as (i & LI & K). exists i. split; [exact LI|]. destruct (FS i LI) as (o & a' & N & K' & H).
    unfold element. rewrite N, H. congruence.
Qed.
Print Assumptions C106_sharing.

(** With a list of meshes the components and the element types must be lists too: the default
    element type 'HEX8', a string, is not accepted. *)
Theorem C106_lists : forall fe_new custom p ms, sensible fe_new -> p_mesh p = PList ms ->
  is_list (p_vec p) = false \/ is_list (p_ele p) = false -> post_init fe_new custom p = None.
Proof.
  intros fe_new custom p ms SE PM NL. destruct (post_init fe_new custom p) as [b|] eqn:E; [|reflexivity]. exfalso.
  destruct (C106_arguments fe_new custom p b SE E) as (_ & L & A).
  destruct ms as [|m ms].
  - unfold variables in L. rewrite PM in L. simpl in L. destruct (init_inv _ _ _ _ E) as (v & ms' & k & _ & _ & _ & _ & _ & SQ & _).
    destruct (b_fes b); [discriminate SQ|discriminate L].
  - destruct (A 0) as (a & _ & AS); [unfold variables; rewrite PM; simpl; lia|]. inversion AS as [Z|ms' vs es gs i mm vv e g Q1 Q2 Q3 Q4 Q5 Q6 Q7].
    + rewrite PM in Z. discriminate.
    + rewrite Q2, Q3 in NL. destruct NL; discriminate.
Qed.
Print Assumptions C106_lists.

(** Flattening a built problem and rebuilding it gives the same problem. *)
Theorem C106_round_trip : forall fe_new custom p b, post_init fe_new custom p = Some b ->
  tree_unflatten fe_new custom (tree_flatten b) = Some b.
Proof.
  intros fe_new custom p b E. unfold tree_flatten, tree_unflatten.
  destruct (init_inv _ _ _ _ E) as (v & ms & k & VW & PM & BA & BN & BU & SQ & CU & VA). rewrite BA.
  assert (W : wrap (wrap p v) v = wrap p v).
  { clear. unfold wrap. destruct (is_list (p_mesh p)) eqn:IL; simpl; [rewrite IL|]; reflexivity. }
  assert (PV : p_view (wrap p v) = v) by (unfold wrap; destruct (is_list _); reflexivity).
  assert (PI : p_info (wrap p v) = p_info p) by (unfold wrap; destruct (is_list _); reflexivity).
  assert (VV : view v = Some v).
  { destruct (p_view p) as [| | | |s]; simpl in VW; try (injection VW as <-; reflexivity).
    repeat match type of VW with (if ?c then _ else _) = _ => destruct c; [injection VW as <-; reflexivity|] end. discriminate. }
  unfold post_init. rewrite PV, VV. cbv zeta. rewrite W, PM, BU, SQ, PI, CU, VA. destruct b; simpl in *. subst. reflexivity.
Qed.
Print Assumptions C106_round_trip.

(** The storage view may be named in any case; other names are refused. *)
Theorem C106_view : forall fe_new custom p b s, post_init fe_new custom p = Some b -> p_view p = MStr s ->
  (upper s = "FULL"%string /\ p_view (b_args b) = MFull) \/ (upper s = "UPPER"%string /\ p_view (b_args b) = MUpper) \/
  (upper s = "LOWER"%string /\ p_view (b_args b) = MLower).
Proof.
  intros fe_new custom p b s E PV. destruct (init_inv _ _ _ _ E) as (v & ms & k & VW & _ & BA & _).
  assert (W : p_view (b_args b) = v) by (rewrite BA; unfold wrap; destruct (is_list _); reflexivity). rewrite W, PV in *. simpl in VW.
  destruct (String.eqb_spec (upper s) "FULL") as [->|_]; [left; split; congruence|].
  destruct (String.eqb_spec (upper s) "UPPER") as [->|_]; [right; left; split; congruence|].
  destruct (String.eqb_spec (upper s) "LOWER") as [->|_]; [right; right; split; congruence|]. discriminate.
Qed.
Print Assumptions C106_view.

(** Several variables need a universal kernel or a weak form; the warning names exactly the
    single-variable kernels that will be ignored, and one variable never warns. *)
Theorem C106_kernels : forall fe_new custom p k, custom (p_info p) = Some k -> 1 < variables p ->
  (k_universal k = false -> k_weak k = false -> post_init fe_new custom p = None) /\
  (forall b, post_init fe_new custom p = Some b ->
     (k_universal k = true \/ k_weak k = true) /\ forall s, In s (b_warn b) <-> defined_single k s).
Proof.
  intros fe_new custom p k CU NV.
  assert (C : forall b, post_init fe_new custom p = Some b -> validate (variables p) k = Some (b_warn b)).
  { intros b E. destruct (init_inv _ _ _ _ E) as (v & ms & k' & _ & PM & _ & _ & _ & _ & CU' & VA).
    rewrite (wrap_count p v ms PM) in VA. congruence. }
  unfold validate in C. destruct (Nat.leb_spec (variables p) 1) as [Q|_]; [lia|].
  split.
  - intros U W. destruct (post_init fe_new custom p) as [b|]; [|reflexivity]. specialize (C b eq_refl). rewrite U, W in C. discriminate.
  - intros b E. specialize (C b E). split.
    + destruct (k_universal k); [left; reflexivity|]. destruct (k_weak k); [right; reflexivity|discriminate].
    + destruct (negb (k_universal k) && negb (k_weak k)); [discriminate|]. injection C as <-. intro s.
      rewrite !in_app_iff. unfold defined_single.
      destruct (k_tensor k), (k_energy k), (k_mass k); destruct (Nat.ltb_spec 0 (k_nsurf k)) as [Q|Q]; simpl; intuition (subst; auto; try lia; try discriminate).
Qed.
Print Assumptions C106_kernels.
Theorem C106_single : forall fe_new custom p b, post_init fe_new custom p = Some b -> variables p = 1 -> b_warn b = [].
Proof.
  intros fe_new custom p b E V. destruct (init_inv _ _ _ _ E) as (v & ms & k & _ & PM & _ & _ & _ & _ & _ & VA).
  rewrite (wrap_count p v ms PM), V in VA. injection VA as <-. reflexivity.
Qed.
Print Assumptions C106_single.

(** All variables of a built problem have the same number of quadrature points. *)
Theorem C106_quadrature : forall fe_new custom p b, post_init fe_new custom p = Some b ->
  exists n, forall i, i < variables p -> exists a, element b i = Some a /\ fe_new a = Some n.
Proof.
  intros fe_new custom p b E. destruct (init_inv _ _ _ _ E) as (v & ms & k & _ & _ & _ & _ & _ & SQ & _).
  destruct (init_build fe_new custom p b E) as (_ & _ & _ & _ & L & _).
  unfold same_quads in SQ. destruct (b_fes b) as [|o0 fs] eqn:BF; [discriminate|]. rewrite forallb_forall in SQ.
  destruct (quads fe_new (b_heap b) o0) as [n|] eqn:Q0; [|specialize (SQ o0 (or_introl eq_refl)); rewrite Q0 in SQ; discriminate].
  exists n. intros i LI. unfold element. rewrite BF.
  destruct (nth_error (o0 :: fs) i) as [o|] eqn:N; [|apply nth_error_None in N; lia].
  specialize (SQ o (nth_error_In _ _ N)). unfold quads in SQ at 1. destruct (nth_error (b_heap b) o) as [a|]; [|discriminate].
  exists a. split; [reflexivity|]. destruct (fe_new a) as [q|]; [|discriminate]. apply Nat.eqb_eq in SQ. congruence.
Qed.
Print Assumptions C106_quadrature.

(** A two-field problem on one mesh, each field with its own components, and a third field that
    shares the element of the first. *)
Definition ex_new (a : args) : option nat :=
  match a_ele a, a_vec a with PStr (String _ (String _ _)), PInt _ => Some 8 | _, _ => None end.
Definition ex_prob : prob :=
  {| p_mesh := PList [PObj 1; PObj 1; PObj 1]; p_vec := PList [PInt 3; PInt 1; PInt 3]; p_dim := 3;
     p_ele := PList [PStr "HEX8"; PStr "HEX8"; PStr "HEX8"]; p_go := PInt 2; p_locs := 0; p_view := MStr "upper"; p_info := 0; p_hess := false |}.
Definition ex_kernels : kernels := {| k_universal := false; k_weak := true; k_tensor := false; k_energy := false; k_mass := true; k_nsurf := 0 |}.
Example C106_example : sensible ex_new /\ exists b, post_init ex_new (fun _ => Some ex_kernels) ex_prob = Some b /\
  b_fes b = [0; 1; 0] /\ List.length (b_heap b) = 2 /\ b_warn b = ["get_mass_map()"%string] /\ p_view (b_args b) = MUpper.
Proof.
  split.
  - split; intros a c H; unfold ex_new; rewrite H; [reflexivity|]. destruct (a_ele a) as [| |[|x [|y z]]| |]; reflexivity.
  - eexists. split; [vm_compute; reflexivity|]. repeat split.
Qed.
