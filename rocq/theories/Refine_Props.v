(** C102: uniform refinement hands Gmsh exactly the given mesh and returns exactly what Gmsh
    holds after the refinement. *)
From Coq Require Import Reals Lra ZArith List String Lia.
From Verif Require Import Base Mesh_Model Refine_Model.
Import ListNotations.
Open Scope nat_scope.

(** ** Specification *)

(** The corner coordinates of a mesh cell, in three dimensions. *)
Definition mesh_cell (m : fmesh) (c : nat) (xs : list (R * R * R)) : Prop :=
  exists cell, nth_error (f_cells m) c = Some cell /\
    Forall2 (fun o x => exists i p, o = Some i /\ nth_error (f_points m) i = Some p /\ x = pad3 p) cell xs.

(** The node of a store with a given tag. *)
Definition gnode (st : gstore) (t : nat) (x : R * R * R) : Prop :=
  exists p, nth_error (g_tags st) p = Some t /\ nth_error (g_coords st) p = Some x.

(** [els] are the elements of type [id] of the store (its first block of that type). *)
Definition elements (st : gstore) (id : nat) (els : list (list nat)) : Prop :=
  exists l r, g_blocks st = l ++ (id, els) :: r /\ Forall (fun b => fst b <> id) l.

Definition store_cell (st : gstore) (id c : nat) (xs : list (R * R * R)) : Prop :=
  exists els el, elements st id els /\ nth_error els c = Some el /\ Forall2 (gnode st) el xs.

(** A store Gmsh can hold: distinct tags, one coordinate per tag, elements use listed tags;
    all nodes in the plane z = 0 when [planar]. *)
Definition good_store (planar : Prop) (st : gstore) : Prop :=
  NoDup (g_tags st) /\ length (g_coords st) = length (g_tags st) /\
  (forall id els el t, In (id, els) (g_blocks st) -> In el els -> In t el -> In t (g_tags st)) /\
  (planar -> Forall (fun x => snd x = 0%R) (g_coords st)).

(** A mesh with valid cells: every index is in range, every point has [f_dim] coordinates. *)
Definition good_mesh (m : fmesh) : Prop :=
  Forall (fun p => length p = f_dim m) (f_points m) /\
  Forall (Forall (fun o => exists i, o = Some i /\ i < length (f_points m))) (f_cells m).

(** ** Lemmas *)
Lemma first_block_spec id bs els :
  first_block id bs = Some els <-> exists l r, bs = l ++ (id, els) :: r /\ Forall (fun b => fst b <> id) l.
Proof.
  unfold first_block. induction bs as [|[k v] bs IH]; simpl.
  - split; [discriminate|]. intros (l & r & E & _). destruct l; discriminate.
  - destruct (Nat.eqb_spec k id) as [->|N]; simpl.
    + split.
      * intro E. inversion E; subst. exists [], bs. split; [reflexivity|constructor].
      * intros (l & r & E & F). destruct l as [|b l]; simpl in E; inversion E; subst; [reflexivity|].
        inversion F; subst. simpl in *. congruence.
    + rewrite IH. split.
      * intros (l & r & E & F). exists ((k, v) :: l), r. split; [simpl; f_equal; exact E|constructor; assumption].
      * intros (l & r & E & F). destruct l as [|b l]; simpl in E; inversion E; subst; [congruence|].
        inversion F; subst. exists l, r. split; [reflexivity|assumption].
Qed.

Lemma last_index_off t tags : forall k, last_index t tags k = option_map (fun p => k + p) (last_index t tags 0).
Proof.
  induction tags as [|x r IH]; intro k; simpl; [reflexivity|].
  rewrite (IH (S k)), (IH 1). destruct (last_index t r 0); simpl; [f_equal; lia|].
  destruct (x =? t); simpl; [f_equal; lia|reflexivity].
Qed.
Lemma last_index_in t tags : In t tags -> exists p, last_index t tags 0 = Some p /\ nth_error tags p = Some t.
Proof.
  induction tags as [|x r IH]; simpl; [tauto|]. intro H. rewrite last_index_off.
  destruct (last_index t r 0) as [p|] eqn:E; simpl.
  - exists (S p). split; [reflexivity|]. simpl. destruct (in_dec Nat.eq_dec t r) as [I|I].
    + destruct (IH I) as (q & Q & N). congruence.
    + exfalso. clear -E I. revert p E. induction r as [|y r IHr]; simpl; intros p E; [discriminate|].
      rewrite last_index_off in E. destruct (last_index t r 0) eqn:E2; simpl in E.
      * apply (IHr ltac:(intro; apply I; right; assumption) n eq_refl).
      * destruct (Nat.eqb_spec y t); [apply I; left; assumption|discriminate].
  - destruct H as [->|I].
    + rewrite Nat.eqb_refl. exists 0. split; reflexivity.
    + destruct (IH I) as (q & Q & N). congruence.
Qed.
Lemma pad_trim d x : (d = 2 /\ snd x = 0%R) \/ d = 3 -> pad3 (trim d x) = x.
Proof. destruct x as [[a b] c]. simpl. intros [[-> ->]| ->]; reflexivity. Qed.
Lemma iter_inv {A} (P : A -> Prop) f n x : (forall y, P y -> P (f y)) -> P x -> P (Nat.iter n f x).
Proof. intros H H0. induction n as [|n IH]; simpl; [exact H0|apply H, IH]. Qed.

(** ** C102 *)

(** The element types: a table from the Gmsh manual with the number of each element type, its dimension, and its nodes counted as
    vertices, edge nodes, face nodes and inner nodes. *)
Definition gmsh_elements : list (string * nat * nat * (nat * nat * nat * nat)) :=
  [("LINE2", 1, 1, (2, 0, 0, 0)); ("TRI3", 2, 2, (3, 0, 0, 0)); ("TRI6", 9, 2, (3, 3, 0, 0));
   ("QUAD4", 3, 2, (4, 0, 0, 0)); ("QUAD8", 16, 2, (4, 4, 0, 0)); ("QUAD9", 10, 2, (4, 4, 1, 0));
   ("TET4", 4, 3, (4, 0, 0, 0)); ("TET10", 11, 3, (4, 6, 0, 0)); ("PRISM6", 6, 3, (6, 0, 0, 0));
   ("HEX8", 5, 3, (8, 0, 0, 0)); ("HEX20", 17, 3, (8, 12, 0, 0)); ("HEX27", 12, 3, (8, 12, 6, 1))]%string.
Theorem C102_types : forall t id n d,
  ele_info t = Some (id, n, d) <->
  exists v e f b, In (t, id, d, (v, e, f, b)) gmsh_elements /\ n = v + e + f + b.
Proof.
  intros t id n d. unfold ele_info. split.
  - repeat match goal with |- context [String.eqb t ?x] => destruct (String.eqb_spec t x) as [->|?] end; intro E; try discriminate E;
      injection E as <- <- <-; unfold gmsh_elements;
      do 4 eexists; (split; [simpl; repeat first [left; reflexivity | right]|reflexivity]).
  - intros (v & e & f & b & H & ->). unfold gmsh_elements in H. simpl in H.
    repeat (destruct H as [H|H]; [injection H as <- <- <- <- <- <- <-; reflexivity|]). contradiction.
Qed.
Print Assumptions C102_types.

(** Which calls are refused, and level 0. *)
Theorem C102_validation : forall refine m,
  (forall l, (l < 0)%Z -> refine_mesh refine m l = inr BadLevels) /\
  refine_mesh refine m 0 = inl m /\
  (forall l, (0 < l)%Z -> ele_info (f_type m) = None -> refine_mesh refine m l = inr Unsupported) /\
  (forall l id npc d, (0 < l)%Z -> ele_info (f_type m) = Some (id, npc, d) ->
     (refine_mesh refine m l = inr BadDim <-> f_dim m <> 2 /\ f_dim m <> 3) /\
     (refine_mesh refine m l = inr BadNodes <-> (f_dim m = 2 \/ f_dim m = 3) /\ f_npc m <> npc)) /\
  (forall l r, (0 < l)%Z -> refine_mesh refine m l = inl r ->
     f_type r = f_type m /\ f_dim r = f_dim m /\ f_npc r = f_npc m).
Proof.
  intros refine m. unfold refine_mesh. split; [|split; [reflexivity|split; [|split]]].
  - intros l L. destruct (Z.ltb_spec l 0); [reflexivity|lia].
  - intros l L E. destruct (Z.ltb_spec l 0); [lia|]. destruct (Z.eqb_spec l 0); [lia|]. rewrite E. reflexivity.
  - intros l id npc d L E. destruct (Z.ltb_spec l 0); [lia|]. destruct (Z.eqb_spec l 0); [lia|]. rewrite E.
    destruct (Nat.eqb_spec (f_dim m) 2) as [e2|n2]; [|destruct (Nat.eqb_spec (f_dim m) 3) as [e3|n3]]; simpl.
    + destruct (Nat.eqb_spec (f_npc m) npc) as [e|nn]; simpl.
      * destruct (read_back _ _ _ _ _); split; split; try discriminate; intros []; try congruence; lia.
      * split; split; try discriminate; try (intros []; congruence); intros _; split; [left; assumption|assumption].
    + destruct (Nat.eqb_spec (f_npc m) npc) as [e|nn]; simpl.
      * destruct (read_back _ _ _ _ _); split; split; try discriminate; intros []; try congruence; lia.
      * split; split; try discriminate; try (intros []; congruence); intros _; split; [right; assumption|assumption].
    + split; split; try discriminate; intros; try reflexivity; [split; assumption|lia].
  - intros l r L. destruct (Z.ltb_spec l 0); [lia|]. destruct (Z.eqb_spec l 0); [lia|].
    destruct (ele_info (f_type m)) as [[[id npc] d]|]; [|discriminate].
    destruct (negb _); [discriminate|]. destruct (Nat.eqb_spec (f_npc m) npc) as [e|nn]; simpl; [|discriminate].
    unfold read_back. destruct (first_block _ _); [|discriminate]. intro E. inversion E; subst; simpl.
    split; [reflexivity|split; [reflexivity|congruence]].
Qed.
Print Assumptions C102_validation.

(** What Gmsh is given is the mesh: same cells with the same coordinates, in a valid store. *)
Theorem C102_injected : forall id m, good_mesh m -> f_dim m = 2 \/ f_dim m = 3 ->
  good_store (f_dim m = 2) (inject id m) /\
  elements (inject id m) id (map (map (fun o => match o with Some i => S i | None => 0 end)) (f_cells m)) /\
  forall c xs, mesh_cell m c xs <-> store_cell (inject id m) id c xs.
Proof.
  intros id m [HP HC] HD.
  assert (El : elements (inject id m) id (map (map (fun o => match o with Some i => S i | None => 0 end)) (f_cells m))).
  { exists [], []. split; [reflexivity|constructor]. }
  split; [|split; [exact El|]].
  - split; [|split; [|split]].
    + simpl. apply FinFun.Injective_map_NoDup; [intros a b; congruence|apply seq_NoDup].
    + simpl. rewrite !map_length, seq_length. reflexivity.
    + simpl. intros k els el t [E|[]] Hel Ht. inversion E; subst. clear E.
      apply in_map_iff in Hel. destruct Hel as (cell & <- & Hcell).
      apply in_map_iff in Ht. destruct Ht as (o & <- & Ho).
      rewrite Forall_forall in HC. specialize (HC cell Hcell). rewrite Forall_forall in HC.
      destruct (HC o Ho) as (i & -> & L). apply in_map, in_seq. lia.
    + intro D2. simpl. rewrite Forall_map. rewrite Forall_forall in HP |- *. intros p Hp. simpl.
      apply nth_overflow. rewrite (HP p Hp). lia.
  - assert (G : forall i x, gnode (inject id m) (S i) x <-> exists p, nth_error (f_points m) i = Some p /\ x = pad3 p).
    { intros i x. unfold gnode. simpl. split.
      - intros (p & E1 & E2). rewrite nth_error_map in E1. destruct (nth_error (seq 0 _) p) as [q|] eqn:E3; [|discriminate].
        simpl in E1. inversion E1; subst.
        assert (i = p). { apply nth_error_split in E3 as H. assert (L : p < length (f_points m)).
          { rewrite <- (seq_length (length (f_points m)) 0). apply nth_error_Some. congruence. }
          rewrite (nth_error_nth' _ 0) in E3 by (rewrite seq_length; exact L). rewrite seq_nth in E3 by exact L. inversion E3. lia. }
        subst. rewrite nth_error_map in E2. destruct (nth_error (f_points m) p) as [y|]; [|discriminate].
        simpl in E2. inversion E2. exists y. split; reflexivity.
      - intros (p & E & ->). exists i.
        assert (L : i < length (f_points m)) by (apply nth_error_Some; congruence).
        rewrite !nth_error_map. rewrite (nth_error_nth' _ 0) by (rewrite seq_length; exact L).
        rewrite seq_nth by exact L. rewrite E. split; reflexivity. }
    assert (G0 : forall x, ~ gnode (inject id m) 0 x).
    { intros x (p & E & _). simpl in E. rewrite nth_error_map in E. destruct (nth_error (seq 0 _) p); discriminate. }
    intros c xs. split.
    + intros (cell & E & F). eexists _, (map (fun o => match o with Some i => S i | None => 0 end) cell). split; [exact El|]. split; [rewrite nth_error_map, E; reflexivity|].
      clear E. induction F as [|o x cell xs (i & p & -> & Hp & ->) F IH]; simpl; constructor; [|exact IH].
      apply G. exists p. split; [exact Hp|reflexivity].
    + intros (els & el & (l & r & B & Fl) & E & F). simpl in B.
      destruct l as [|b l]; [|exfalso; apply (f_equal (@List.length _)) in B; simpl in B; rewrite app_length in B; simpl in B; lia]. simpl in B. inversion B; subst.
      rewrite nth_error_map in E. destruct (nth_error (f_cells m) c) as [cell|] eqn:Ec; [|discriminate].
      simpl in E. inversion E; subst. exists cell. split; [exact Ec|]. clear - F G G0.
      revert xs F. induction cell as [|o cell IH]; intros xs F; simpl in F; inversion F; subst; constructor.
      * destruct o as [i|]; [|exfalso; eapply G0; eassumption].
        apply G in H1. destruct H1 as (p & E & ->). exists i, p. split; [reflexivity|split; [exact E|reflexivity]].
      * apply IH. assumption.
Qed.
Print Assumptions C102_injected.

Lemma returned_core st id npc dm ty els : good_store (dm = 2) st -> dm = 2 \/ dm = 3 ->
  first_block id (g_blocks st) = Some els ->
  let r := {| f_dim := dm; f_points := map (trim dm) (g_coords st); f_npc := npc;
              f_cells := map (map (fun t => last_index t (g_tags st) 0)) els; f_type := ty |} in
  (forall c xs, store_cell st id c xs <-> mesh_cell r c xs) /\
  (forall c, c < length (f_cells r) -> exists xs, mesh_cell r c xs).
Proof.
  intros (ND & LC & HT & HZ) HD FB r.
  pose proof (proj1 (first_block_spec _ _ _) FB) as HB.
  assert (PT : forall x, In x (g_coords st) -> pad3 (trim dm x) = x).
  { intros x Hx. apply pad_trim. destruct HD as [D|D]; [left; split; [exact D|]|right; exact D].
    exact (proj1 (Forall_forall _ _) (HZ D) x Hx). }
  assert (Inb : In (id, els) (g_blocks st)).
  { destruct HB as (a & b & -> & _). apply in_or_app. right. left. reflexivity. }
  assert (K : forall c el, nth_error els c = Some el -> forall xs,
     Forall2 (gnode st) el xs <->
     Forall2 (fun o x => exists i p, o = Some i /\ nth_error (map (trim dm) (g_coords st)) i = Some p /\ x = pad3 p)
       (map (fun t => last_index t (g_tags st) 0) el) xs).
  { intros c el Hel.
    assert (Hin : forall t, In t el -> In t (g_tags st)) by (intros t Ht; apply (HT id els el t Inb (nth_error_In _ _ Hel) Ht)).
    clear Hel. induction el as [|t el IH]; intro xs; simpl.
    - split; intro F; inversion F; constructor.
    - destruct (last_index_in t (g_tags st) (Hin t (or_introl eq_refl))) as (p & Ep & Np).
      split; intro F; inversion F as [|? x ? xs' Hx Hxs]; subst.
      + constructor; [|apply IH; [intros; apply Hin; right; assumption|assumption]].
        destruct Hx as (q & Nq & Cq).
        assert (q = p) by (apply (proj1 (NoDup_nth_error _) ND); [apply nth_error_Some; congruence|congruence]). subst q.
        exists p, (trim dm x). split; [exact Ep|split; [rewrite nth_error_map, Cq; reflexivity|]].
        symmetry. apply PT. eapply nth_error_In. exact Cq.
      + constructor; [|apply IH; [intros; apply Hin; right; assumption|assumption]].
        destruct Hx as (i & y & Ei & Ey & ->).
        rewrite Ep in Ei. inversion Ei; subst i. rewrite nth_error_map in Ey.
        destruct (nth_error (g_coords st) p) as [x|] eqn:Ex; [|discriminate]. simpl in Ey. inversion Ey; subst y.
        exists p. split; [exact Np|]. rewrite PT; [exact Ex|eapply nth_error_In; exact Ex]. }
  assert (KK : forall c xs, store_cell st id c xs <-> mesh_cell r c xs).
  { intros c xs. unfold store_cell, mesh_cell. simpl. split.
    - intros (els' & el & HB' & Hel & F).
      assert (els' = els) by (apply first_block_spec in HB'; congruence). subst els'.
      exists (map (fun t => last_index t (g_tags st) 0) el). split; [rewrite nth_error_map, Hel; reflexivity|].
      apply (K c el Hel). exact F.
    - intros (cell & Hc & F). rewrite nth_error_map in Hc.
      destruct (nth_error els c) as [el|] eqn:Hel; [|discriminate]. simpl in Hc. inversion Hc; subst cell.
      exists els, el. split; [exact HB|split; [exact Hel|apply (K c el Hel); exact F]]. }
  split; [exact KK|].
  intros c Lc. simpl in Lc. rewrite map_length in Lc.
  destruct (nth_error els c) as [el|] eqn:Hel; [|apply nth_error_None in Hel; lia].
  assert (EX : exists xs, Forall2 (gnode st) el xs).
  { assert (Hin : forall t, In t el -> In t (g_tags st)) by (intros t Ht; apply (HT id els el t Inb (nth_error_In _ _ Hel) Ht)).
    clear Hel. induction el as [|t el IH]; [exists []; constructor|].
    destruct IH as [xs F]; [intros; apply Hin; right; assumption|].
    destruct (In_nth_error _ _ (Hin t (or_introl eq_refl))) as [p Np].
    destruct (nth_error (g_coords st) p) as [x|] eqn:Ex.
    2:{ apply nth_error_None in Ex. assert (p < length (g_tags st)) by (apply nth_error_Some; congruence). lia. }
    exists (x :: xs). constructor; [exists p; split; assumption|exact F]. }
  destruct EX as [xs F]. exists xs. apply KK. exists els, el. split; [exact HB|split; [exact Hel|exact F]].
Qed.

(** What is returned is what Gmsh holds after the refinement steps: the same number of cells,
    and cell by cell the same coordinates, in whatever order and under whatever tags Gmsh
    lists its nodes. *)
Theorem C102_returned : forall refine m l r id npc d,
  (0 < l)%Z -> ele_info (f_type m) = Some (id, npc, d) ->
  good_mesh m ->
  (forall st, good_store (f_dim m = 2) st -> good_store (f_dim m = 2) (refine st)) ->
  refine_mesh refine m l = inl r ->
  let st := Nat.iter (Z.to_nat l) refine (inject id m) in
  (exists els, elements st id els /\ length (f_cells r) = length els) /\
  (forall c xs, store_cell st id c xs <-> mesh_cell r c xs) /\
  (forall c, c < length (f_cells r) -> exists xs, mesh_cell r c xs).
Proof.
  intros refine m l r id npc d L HI GM HR HE st.
  unfold refine_mesh in HE. destruct (Z.ltb_spec l 0); [lia|]. destruct (Z.eqb_spec l 0); [lia|].
  rewrite HI in HE.
  assert (HD : f_dim m = 2 \/ f_dim m = 3).
  { destruct (Nat.eqb_spec (f_dim m) 2); [left; assumption|].
    destruct (Nat.eqb_spec (f_dim m) 3); [right; assumption|discriminate]. }
  destruct (negb _); [discriminate|]. destruct (negb _); [discriminate|].
  fold st in HE. unfold read_back in HE.
  destruct (first_block id (g_blocks st)) as [els|] eqn:FB; [|discriminate].
  injection HE as HE'. simpl in HE'.
  assert (GS : good_store (f_dim m = 2) st).
  { apply iter_inv; [exact HR|apply (C102_injected id m GM HD)]. }
  rewrite <- HE'.
  split; [exists els; split; [apply first_block_spec; exact FB|]; simpl; apply map_length|].
  apply (returned_core st id npc (f_dim m) (f_type m) els GS HD FB).
Qed.
Print Assumptions C102_returned.

(** So every property of the shape of a cell that Gmsh's refinement keeps holds for every
    returned cell, and every fixed multiplication of the cell count carries over. *)
Theorem C102_transfer : forall refine m l r id npc d (Q : list (R * R * R) -> Prop) (k : nat),
  (0 < l)%Z -> ele_info (f_type m) = Some (id, npc, d) ->
  good_mesh m ->
  (forall st, good_store (f_dim m = 2) st -> good_store (f_dim m = 2) (refine st)) ->
  (* one step keeps Q on all cells and turns n elements into k * n *)
  (forall st, good_store (f_dim m = 2) st -> (forall c xs, store_cell st id c xs -> Q xs) ->
     forall c xs, store_cell (refine st) id c xs -> Q xs) ->
  (forall st els, good_store (f_dim m = 2) st -> elements st id els ->
     exists els', elements (refine st) id els' /\ length els' = k * length els) ->
  (forall c xs, mesh_cell m c xs -> Q xs) ->
  refine_mesh refine m l = inl r ->
  (forall c xs, mesh_cell r c xs -> Q xs) /\
  length (f_cells r) = k ^ Z.to_nat l * length (f_cells m).
Proof.
  intros refine m l r id npc d Q k L HI GM HR HQ HK HM HE.
  assert (HD : f_dim m = 2 \/ f_dim m = 3).
  { unfold refine_mesh in HE. destruct (Z.ltb_spec l 0); [lia|]. destruct (Z.eqb_spec l 0); [lia|].
    rewrite HI in HE. destruct (Nat.eqb_spec (f_dim m) 2); [left; assumption|].
    destruct (Nat.eqb_spec (f_dim m) 3); [right; assumption|discriminate]. }
  destruct (C102_returned refine m l r id npc d L HI GM HR HE) as ((els & HB & HLn) & HS & _).
  destruct (C102_injected id m GM HD) as (GI & EI & SI).
  split.
  - intros c xs H. apply HS in H. revert c xs H.
    apply (iter_inv (fun st => good_store (f_dim m = 2) st /\ forall c xs, store_cell st id c xs -> Q xs)).
    + intros st [G H]. split; [apply HR; exact G|]. apply HQ; assumption.
    + split; [exact GI|]. intros c xs H. apply (HM c). apply SI. exact H.
  - assert (C : good_store (f_dim m = 2) (Nat.iter (Z.to_nat l) refine (inject id m)) /\
      exists els, elements (Nat.iter (Z.to_nat l) refine (inject id m)) id els /\ length els = k ^ Z.to_nat l * length (f_cells m)).
    { clear - GI EI HR HK. induction (Z.to_nat l) as [|n IH]; simpl.
      - split; [exact GI|]. eexists. split; [exact EI|]. rewrite map_length. lia.
      - destruct IH as (G & els1 & E1 & L1). split; [apply HR; exact G|].
        destruct (HK _ _ G E1) as (els2 & E2 & L2). exists els2. split; [exact E2|]. rewrite L2, L1. simpl. lia. }
    destruct C as (_ & els2 & E2 & L2). rewrite HLn.
    assert (els2 = els) by (apply first_block_spec in E2; apply first_block_spec in HB; congruence).
    subst. exact L2.
Qed.
Print Assumptions C102_transfer.

(** Node order of ten-node tetrahedra. feax (and meshio) put node 8 on the edge 1-3 and node 9
    on the edge 2-3; Gmsh's ten-node tetrahedron (type 11) has node 8 on 2-3 and node 9 on 1-3.
    [refine_mesh] passes the cells through unpermuted, so the element Gmsh receives has its
    last two mid-edge nodes swapped. *)
Definition feax_tet10_edges : list (nat * nat) := [(0,1); (1,2); (0,2); (0,3); (1,3); (2,3)].
Definition gmsh_tet10_edges : list (nat * nat) := [(0,1); (1,2); (0,2); (0,3); (2,3); (1,3)].
Definition midpoint (a b x : R * R * R) : Prop :=
  let '(a1, a2, a3) := a in let '(b1, b2, b3) := b in let '(x1, x2, x3) := x in
  (2 * x1 = a1 + b1 /\ 2 * x2 = a2 + b2 /\ 2 * x3 = a3 + b3)%R.
Definition straight (edges : list (nat * nat)) (xs : list (R * R * R)) : Prop :=
  forall k e, nth_error edges k = Some e ->
    midpoint (nth (fst e) xs (0,0,0)%R) (nth (snd e) xs (0,0,0)%R) (nth (4 + k) xs (0,0,0)%R).

Theorem C102_tet10_refuted : exists m id npc d xs,
  good_mesh m /\ ele_info (f_type m) = Some (id, npc, d) /\ f_type m = "TET10"%string /\
  (* a straight-sided tetrahedron in the mesh's node order ... *)
  mesh_cell m 0 xs /\ straight feax_tet10_edges xs /\
  (* ... is not one in Gmsh's node order *)
  store_cell (inject id m) id 0 xs /\ ~ straight gmsh_tet10_edges xs.
Proof.
  pose (P := [[0;0;0]; [2;0;0]; [0;2;0]; [0;0;2]; [1;0;0]; [1;1;0]; [0;1;0]; [0;0;1]; [1;0;1]; [0;1;1]]%R).
  pose (m := {| f_dim := 3; f_points := P; f_npc := 10; f_cells := [map Some (seq 0 10)]; f_type := "TET10" |}).
  exists m, 11, 10, 3, (map pad3 P).
  assert (GM : good_mesh m).
  { split; simpl.
    - repeat constructor.
    - constructor; [|constructor]. repeat (constructor; [eexists; split; [reflexivity|simpl; lia]|]). constructor. }
  assert (MC : mesh_cell m 0 (map pad3 P)).
  { exists (map Some (seq 0 10)). split; [reflexivity|]. simpl.
    repeat (constructor; [eexists _, _; split; [reflexivity|split; reflexivity]|]). constructor. }
  split; [exact GM|]. split; [reflexivity|]. split; [reflexivity|]. split; [exact MC|]. split; [|split].
  - intros k e E. do 6 (destruct k as [|k]; [simpl in E; inversion E; subst; simpl; lra|]). destruct k; discriminate.
  - apply (C102_injected 11 m GM); [right; reflexivity|exact MC].
  - intro H. specialize (H 4 (2,3) eq_refl). simpl in H. lra.
Qed.
Print Assumptions C102_tet10_refuted.

(** Satisfiable: one quadrilateral in the plane and a Gmsh that lists its nodes in reverse
    order with new tags; the mesh comes back with the same cell coordinates. *)
Example C102_example :
  let rev_store := fun st : gstore =>
    {| g_tags := rev (g_tags st); g_coords := rev (g_coords st); g_blocks := (1, []) :: g_blocks st |} in
  let m := {| f_dim := 2; f_points := [[0;0]; [1;0]; [1;1]; [0;1]]%R; f_npc := 4;
              f_cells := [[Some 0; Some 1; Some 2; Some 3]]; f_type := "QUAD4" |} in
  good_mesh m /\ (forall st, good_store (f_dim m = 2) st -> good_store (f_dim m = 2) (rev_store st)) /\
  refine_mesh rev_store m 1 = inl {| f_dim := 2; f_points := [[0;1]; [1;1]; [1;0]; [0;0]]%R; f_npc := 4;
              f_cells := [[Some 3; Some 2; Some 1; Some 0]]; f_type := "QUAD4" |}.
Proof.
  intros rs m. split; [|split].
  - split; simpl; [repeat constructor|]. constructor; [|constructor].
    repeat (constructor; [eexists; split; [reflexivity|simpl; lia]|]). constructor.
  - intros st (ND & LC & HT & HZ). split; [|split; [|split]]; simpl.
    + apply NoDup_rev. exact ND.
    + rewrite !rev_length. exact LC.
    + intros id els el t [E|E] Hel Ht; [inversion E; subst; destruct Hel|]. apply -> in_rev. apply (HT id els el t E Hel Ht).
    + intro H. apply Forall_rev, HZ, H.
  - reflexivity.
Qed.
