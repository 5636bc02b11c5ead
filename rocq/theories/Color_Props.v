(** C109: sparse matrices by coloured probing. *)
From Verif Require Import Base Csr_Model Csr_Proofs Ops_Proofs Csr_Props Merge_Model Merge_Proofs Merge_Props Color_Model.

(** ** Specification *)
(** [f] is the linear map of the [nr] by [nc] matrix [J]. *)
Definition acts {K : CRing} (nr nc : nat) (J : nat -> nat -> K) (f : list K -> list K) : Prop :=
  forall v i, length v = nc -> i < nr -> get (f v) i = sumf (fun j => cmul (J i j) (get v j)) (seq 0 nc).
(** The position belongs to the pattern. *)
Definition listed (C : colored) (i j : nat) : Prop := In (i, j) (combine (k_rows C) (k_cols C)).
(** A well-formed pattern of its shape. *)
Definition wf_colored (C : colored) : Prop :=
  length (k_rows C) = length (k_cols C) /\ forall i j, listed C i j -> i < k_nr C /\ j < k_nc C.
(** What a colouring has to satisfy: two columns of one colour never meet in a row of the pattern (in
    reverse mode: two rows of one colour never meet in a column), and there are [k_num] colours. *)
Definition valid_coloring (C : colored) : Prop :=
  match k_mode C with
  | Fwd => (forall i j, listed C i j -> nth j (k_colors C) 0 < k_num C) /\
           (forall i j j', listed C i j -> listed C i j' -> nth j (k_colors C) 0 = nth j' (k_colors C) 0 -> j = j')
  | Rev => (forall i j, listed C i j -> nth i (k_colors C) 0 < k_num C) /\
           (forall i i' j, listed C i j -> listed C i' j -> nth i (k_colors C) 0 = nth i' (k_colors C) 0 -> i = i')
  end.
(** A star colouring: each position is alone of its colour in its row, or its mirror image is. *)
Definition alone (C : colored) (i j : nat) : Prop :=
  forall j', listed C i j' -> nth j' (k_colors C) 0 = nth j (k_colors C) 0 -> j' = j.
Definition star_coloring (C : colored) : Prop :=
  (forall i j, listed C i j -> listed C j i /\ nth i (k_colors C) 0 < k_num C) /\
  (forall i j, listed C i j -> alone C i j \/ alone C j i).
(** [A] is the matrix [J], and multiplies like it. *)
Definition is_matrix {K : CRing} (nr nc : nat) (J : nat -> nat -> K) (A : csr K) : Prop :=
  valid_csr A /\ m_nrows A = nr /\ m_ncols A = nc /\
  (forall i j, i < nr -> j < nc -> todense A i j = J i j) /\
  (forall v i, i < nr -> get (matvec A v) i = sumf (fun j => cmul (J i j) (get v j)) (seq 0 nc)).

Section Probe.
  Variable K : CRing.
  Local Open Scope ring_K.
  Add Ring KRC : (cth K).

  Lemma seed_length n colors c : length (@seed K n colors c) = n.
  Proof. unfold seed. now rewrite map_length, seq_length. Qed.
  Lemma get_seed n colors c j : (j < n)%nat -> get (@seed K n colors c) j = if (nth j colors 0%nat =? c)%nat then 1 else 0.
  Proof. intros H. unfold get, seed. rewrite (nth_map_in _ _ 0%nat) by (rewrite seq_length; exact H). now rewrite seq_nth. Qed.
  (** One probe: the row sum over the columns of a colour, which is one entry. *)
  Lemma probe nc (J : nat -> K) colors j : (j < nc)%nat ->
    (forall j', (j' < nc)%nat -> j' <> j -> nth j' colors 0%nat = nth j colors 0%nat -> J j' = 0) ->
    sumf (fun j' => J j' * get (@seed K nc colors (nth j colors 0%nat)) j') (seq 0 nc) = J j.
  Proof.
    intros Hj H. rewrite <- (@sumf_single_nat K J j nc Hj). apply sumf_ext. intros j' Hj'. apply in_seq in Hj'.
    rewrite get_seed by lia. destruct (Nat.eqb_spec j' j) as [->|Hne]; [rewrite Nat.eqb_refl; ring|].
    destruct (Nat.eqb_spec (nth j' colors 0%nat) (nth j colors 0%nat)) as [E|E]; [|ring].
    rewrite (H j') by (try assumption; lia). ring.
  Qed.
  Lemma nth_probes (f : list K -> list K) (s : nat -> list K) num c : (c < num)%nat ->
    nth c (map (fun c => f (s c)) (seq 0 num)) [] = f (s c).
  Proof. intros H. rewrite (nth_map_in _ _ 0%nat) by (rewrite seq_length; exact H). now rewrite seq_nth. Qed.
  Lemma listed_nth C k : wf_colored C -> (k < length (k_rows C))%nat -> listed C (nth k (k_rows C) 0%nat) (nth k (k_cols C) 0%nat).
  Proof.
    intros [E _] H. unfold listed. rewrite <- (combine_nth (k_rows C) (k_cols C) k 0%nat 0%nat E).
    apply nth_In. rewrite combine_length, E, Nat.min_id. lia.
  Qed.

  Lemma decompress_entry C J jvp vjp k : wf_colored C -> valid_coloring C ->
    (forall i j, ~ listed C i j -> J i j = 0) ->
    acts (k_nr C) (k_nc C) J jvp -> acts (k_nc C) (k_nr C) (fun j i => J i j) vjp ->
    (k < length (k_rows C))%nat ->
    get (@decompress K C (compressed C jvp vjp)) k = J (nth k (k_rows C) 0%nat) (nth k (k_cols C) 0%nat).
  Proof.
    intros W V HJ Hf Hb Hk. pose proof (listed_nth C k W Hk) as HL. destruct W as [EL WB].
    pose proof (WB _ _ HL) as [Hi Hj]. unfold decompress, get at 1.
    rewrite (nth_map_in _ _ (0%nat, 0%nat)) by (rewrite combine_length, EL, Nat.min_id; lia).
    rewrite combine_nth by exact EL. cbn [fst snd]. unfold compressed, valid_coloring in *.
    set (i := nth k (k_rows C) 0%nat) in *. set (j := nth k (k_cols C) 0%nat) in *.
    assert (D : forall a b, {listed C a b} + {~ listed C a b}).
    { intros a b. apply in_dec. decide equality; apply Nat.eq_dec. }
    destruct (k_mode C); destruct V as [V1 V2].
    - rewrite (nth_probes jvp) by eauto. rewrite Hf by (try apply seed_length; exact Hi).
      apply (probe (k_nc C) (fun j' => J i j')); [exact Hj|]. intros j' _ Hne E.
      destruct (D i j') as [L|L]; [|exact (HJ _ _ L)]. exfalso. apply Hne. exact (V2 i j' j L HL E).
    - rewrite (nth_probes vjp) by eauto. rewrite Hb by (try apply seed_length; exact Hj).
      apply (probe (k_nr C) (fun i' => J i' j)); [exact Hi|]. intros i' _ Hne E.
      destruct (D i' j) as [L|L]; [|exact (HJ _ _ L)]. exfalso. apply Hne. exact (V2 i' i j L HL E).
  Qed.
End Probe.

Lemma is_matrix_of (K : CRing) (C : colored) (J : nat -> nat -> K) vals : wf_colored C ->
  (forall i j, ~ listed C i j -> J i j = c0) -> length vals = length (k_rows C) ->
  (forall k, k < length (k_rows C) -> get vals k = J (nth k (k_rows C) 0) (nth k (k_cols C) 0)) ->
  exists A, csr_producer (k_nr C) (k_nc C) (k_rows C) (k_cols C) vals = Some A /\ is_matrix (k_nr C) (k_nc C) J A.
Proof.
  intros W HJ HV HE. pose proof W as [EL WB].
  destruct (C34_producer K (k_nr C) (k_nc C) (k_rows C) (k_cols C) vals J EL HV) as (A & EA & VA & Er & Ec & _ & D1 & D2).
  - intros r Hr. apply (In_nth _ _ 0) in Hr. destruct Hr as (k & Hk & <-). exact (proj1 (WB _ _ (listed_nth C k W Hk))).
  - intros c Hc. apply (In_nth _ _ 0) in Hc. destruct Hc as (k & Hk & <-). rewrite <- EL in Hk. exact (proj2 (WB _ _ (listed_nth C k W Hk))).
  - exact HE.
  - exists A. split; [exact EA|].
    assert (DA : forall i j, i < k_nr C -> j < k_nc C -> todense A i j = J i j).
    { intros i j Hi Hj. destruct (in_dec (fun x y : nat * nat => ltac:(decide equality; apply Nat.eq_dec)) (i, j) (combine (k_rows C) (k_cols C))) as [L|L].
      - apply (In_nth _ _ (0, 0)) in L. destruct L as (k & Hk & E). rewrite combine_length, <- EL, Nat.min_id in Hk.
        rewrite combine_nth in E by exact EL. injection E as <- <-. apply D1. exact Hk.
      - rewrite D2, HJ; [reflexivity|exact L|]. intros (k & Hk & <- & <-). apply L. exact (listed_nth C k W Hk). }
    split; [exact VA|]. split; [exact Er|]. split; [exact Ec|]. split; [exact DA|].
    intros v i Hi. destruct (C07_ops_dense VA) as (_ & M & _). rewrite M by (rewrite Er; exact Hi).
    rewrite Ec. apply sumf_ext. intros j Hj. apply in_seq in Hj. rewrite DA by lia. reflexivity.
Qed.

(** Coloured forward or reverse differentiation gives exactly the Jacobian at every point whose non-zeros lie in the pattern. *)
Theorem C109_jacobian (K : CRing) (C : colored) (J : nat -> nat -> K) jvp vjp :
  wf_colored C -> valid_coloring C -> (forall i j, ~ listed C i j -> J i j = c0) ->
  acts (k_nr C) (k_nc C) J jvp -> acts (k_nc C) (k_nr C) (fun j i => J i j) vjp ->
  exists A, jacobian_at C jvp vjp = Some A /\ is_matrix (k_nr C) (k_nc C) J A.
Proof.
  intros W V HJ Hf Hb. apply is_matrix_of; [exact W|exact HJ| |].
  - unfold decompress. rewrite map_length, combine_length, (proj1 W), Nat.min_id. reflexivity.
  - intros k Hk. apply decompress_entry; assumption.
Qed.
Print Assumptions C109_jacobian.

(** With a star colouring, half the positions may be read from their mirror image: the Hessian is exact. *)
Theorem C109_hessian (K : CRing) (C : colored) (H : nat -> nat -> K) hvp :
  wf_colored C -> k_nr C = k_nc C -> star_coloring C -> (forall i j, ~ listed C i j -> H i j = c0) -> (forall i j, H i j = H j i) ->
  acts (k_nr C) (k_nc C) H hvp -> exists A, hessian_at C hvp = Some A /\ is_matrix (k_nr C) (k_nc C) H A.
Proof.
  intros W Sq [S1 S2] HJ Sy Hf. apply is_matrix_of; [exact W|exact HJ| |].
  - unfold star_decompress. rewrite map_length, combine_length, (proj1 W), Nat.min_id. reflexivity.
  - intros k Hk. pose proof (listed_nth C k W Hk) as HL. pose proof W as [EL WB].
    pose proof (WB _ _ HL) as [Hi Hj]. unfold star_decompress, get at 1.
    rewrite (nth_map_in _ _ (0, 0)) by (rewrite combine_length, EL, Nat.min_id; lia).
    rewrite combine_nth by exact EL. cbn [fst snd].
    set (i := nth k (k_rows C) 0) in *. set (j := nth k (k_cols C) 0) in *.
    assert (D : forall a b, {listed C a b} + {~ listed C a b}).
    { intros a b. apply in_dec. decide equality; apply Nat.eq_dec. }
    assert (R : forall a b, listed C a b -> alone C a b ->
      get (nth (nth b (k_colors C) 0) (map (fun c => hvp (seed (k_nc C) (k_colors C) c)) (seq 0 (k_num C))) []) a = H a b).
    { intros a b L Al. pose proof (WB _ _ L) as [Ha Hb]. rewrite (nth_probes K hvp) by (destruct (S1 a b L) as [L' _]; destruct (S1 b a L') as [_ Q]; exact Q).
      rewrite Hf by (try apply seed_length; exact Ha). apply (probe K (k_nc C) (fun b' => H a b')); [exact Hb|].
      intros b' _ Hne E. destruct (D a b') as [L'|L']; [|exact (HJ _ _ L')]. exfalso. exact (Hne (Al b' L' E)). }
    assert (Q : sole C i j = true <-> alone C i j).
    { unfold sole. rewrite forallb_forall. split.
      - intros F j' L E. specialize (F (i, j') L). cbn [fst snd] in F. rewrite Nat.eqb_refl, E, Nat.eqb_refl in F. cbn in F. apply Nat.eqb_eq. exact F.
      - intros Al [a b] L. cbn [fst snd]. destruct (Nat.eqb_spec a i) as [->|]; [|reflexivity].
        destruct (Nat.eqb_spec (nth b (k_colors C) 0) (nth j (k_colors C) 0)) as [E|]; [|reflexivity]. rewrite (Al b L E), Nat.eqb_refl. reflexivity. }
    destruct (sole C i j) eqn:E.
    + apply R; [exact HL|apply Q; reflexivity].
    + rewrite (Sy i j). apply R; [exact (proj1 (S1 i j HL))|].
      destruct (S2 i j HL) as [Al|Al]; [apply Q in Al; discriminate|exact Al].
Qed.
Print Assumptions C109_hessian.

(** The assembler of linear operators: any pattern, any operator inside it. *)
Lemma pattern_listed p colors num i j : wf_in p -> (listed (pattern_colored p colors num) i j <-> stores p i j).
Proof.
  intros W. unfold listed, pattern_colored. cbn [k_rows k_cols]. rewrite <- (entries_any p i j W).
  assert (E : combine (map fst (sp_pairs (to_scipy_pattern p))) (map snd (sp_pairs (to_scipy_pattern p))) = sp_pairs (to_scipy_pattern p)).
  { induction (sp_pairs (to_scipy_pattern p)) as [|[a b] t IH]; [reflexivity|]. cbn [map combine fst snd]. now rewrite IH. }
  rewrite E. unfold to_scipy_pattern. apply canon_in. apply entries_range. exact W.
Qed.
Lemma pattern_wf p colors num : wf_in p -> wf_colored (pattern_colored p colors num).
Proof.
  intros W. split; [cbn [k_rows k_cols pattern_colored]; now rewrite !map_length|].
  intros i j L. apply (pattern_listed p) in L; [|exact W]. apply (entries_any p i j W) in L. destruct L as [b L].
  apply (entries_range p W) in L. exact L.
Qed.
Theorem C109_operator (K : CRing) p colors num (J : nat -> nat -> K) f : wf_in p ->
  (forall i j, stores p i j -> nth j colors 0 < num) ->
  (forall i j j', stores p i j -> stores p i j' -> nth j colors 0 = nth j' colors 0 -> j = j') ->
  (forall i j, ~ stores p i j -> J i j = c0) -> acts (in_nr p) (in_nc p) J f ->
  exists A, operator_assembler p colors num f = Some A /\ is_matrix (in_nr p) (in_nc p) J A.
Proof.
  intros W H1 H2 HJ Hf. unfold operator_assembler. set (C := pattern_colored p colors num).
  assert (WC : wf_colored C) by (apply pattern_wf; exact W).
  apply (is_matrix_of K C J (decompress C (compressed C f f)) WC).
  - intros i j L. apply HJ. intros S. apply L. apply pattern_listed; assumption.
  - unfold decompress. rewrite map_length, combine_length, (proj1 WC), Nat.min_id. reflexivity.
  - intros k Hk. change (compressed C f f) with (compressed C f (fun w => map (fun j => sumf (fun i => cmul (J i j) (get w i)) (seq 0 (k_nr C))) (seq 0 (k_nc C)))).
    apply decompress_entry; [exact WC| | |exact Hf| |exact Hk].
    + split.
      * intros i j L. apply (H1 i j). apply (pattern_listed p colors num); assumption.
      * intros i j j' L L'. apply (H2 i j j'); apply (pattern_listed p colors num); assumption.
    + intros i j L. apply HJ. intros S. apply L. apply pattern_listed; assumption.
    + intros w j Hw Hj. unfold get at 1. rewrite (nth_map_in _ _ 0) by (rewrite seq_length; exact Hj). now rewrite seq_nth.
Qed.
Print Assumptions C109_operator.

(** The matrix of the reduced (periodic) operator is [P' J P], for every prolongation and every [J] inside the pattern of the
    stiffness; the pattern of the triple product suffices. *)
Theorem C109_reduced (K : CRing) (P Kp : pat_in) colors num (pv kv : nat -> nat -> K) f : wf_in P -> wf_in Kp ->
  in_nr P = in_nr Kp -> in_nc Kp = in_nr Kp ->
  (forall i j, ~ holds P i j -> pv i j = c0) -> (forall i j, ~ holds Kp i j -> kv i j = c0) ->
  let n := in_nr P in let m := in_nc P in
  let R := fun i j => sumf (fun k => sumf (fun l => cmul (pv k i) (cmul (kv k l) (pv l j))) (seq 0 n)) (seq 0 n) in
  let coupled := fun i j => exists k l, holds P k i /\ holds Kp k l /\ holds P l j in
  (forall i j, coupled i j -> nth j colors 0 < num) ->
  (forall i j j', coupled i j -> coupled i j' -> nth j colors 0 = nth j' colors 0 -> j = j') ->
  acts m m R f -> exists A, assemble_reduced P Kp colors num f = Some A /\ is_matrix m m R A.
Proof.
  intros WP WK E1 E2 HP HK n m R coupled H1 H2 Hf. unfold assemble_reduced.
  destruct (C34_reduced_pattern P Kp WP WK E1 E2) as (Er & Ec & In1 & Z). 
  set (Q := reduced_operator_pattern P Kp) in *.
  assert (ST : forall i j, stores (reduced_pattern_in P Kp) i j <-> coupled i j).
  { intros i j. unfold reduced_pattern_in. fold Q. cbn [stores]. unfold coupled. rewrite <- In1. split.
    - intros [b H]. apply in_combine_l in H. exact H.
    - intros H. apply (In_nth _ _ (0, 0)) in H. destruct H as (k & Hk & E).
      assert (HL : length (sp_data Q) = length (sp_pairs Q)).
      { unfold Q, reduced_operator_pattern. match goal with |- context [canonical ?a ?b ?es] => 
          assert (Rg : forall e, In e es -> fst (fst e) < a /\ snd (fst e) < b) end.
        { intros [[a b] c] He. apply in_flat_map in He. destruct He as ([k' l'] & Hkl & He). apply in_flat_map in He. destruct He as ([k2 i2] & Hki & He).
          cbn [fst snd] in He. destruct (k2 =? k'); [|destruct He]. apply in_flat_map in He. destruct He as ([l2 j2] & Hlj & He).
          cbn [fst snd] in He. destruct (l2 =? l'); [|destruct He]. destruct He as [He|[]]. injection He as <- <- <-. cbn [fst snd].
          apply (true_pairs_in P) in Hki, Hlj; [|assumption..]. apply (entries_true P) in Hki, Hlj; [|assumption..].
          apply (entries_range P WP) in Hki, Hlj. cbn in Hki, Hlj. tauto. }
        match goal with |- context [canonical ?a ?b ?es] => rewrite (canon_pairs a b es Rg) end.
        rewrite map_length. unfold canonical, compress. cbn [sp_data]. now rewrite map_length. }
      exists (nth k (sp_data Q) true). rewrite <- E, <- combine_nth by (symmetry; exact HL). apply nth_In. rewrite combine_length, HL, Nat.min_id. exact Hk. }
  assert (WQ : wf_in (reduced_pattern_in P Kp)).
  { unfold reduced_pattern_in. fold Q. cbn [wf_in]. intros i j b H. apply in_combine_l in H. apply In1 in H. destruct H as (k & l & A1 & _ & A3).
    apply (entries_true P) in A1, A3; [|assumption..]. apply (entries_range P WP) in A1, A3. cbn in A1, A3. rewrite Er, Ec. tauto. }
  pose proof (C109_operator K (reduced_pattern_in P Kp) colors num R f WQ) as T.
  assert (Nr : in_nr (reduced_pattern_in P Kp) = m) by exact Er. assert (Nc : in_nc (reduced_pattern_in P Kp) = m) by exact Ec.
  rewrite Nr, Nc in T. apply T.
  - intros i j S. apply ST in S. exact (H1 i j S).
  - intros i j j' S S'. apply ST in S, S'. exact (H2 i j j' S S').
  - intros i j S. unfold R. apply (Z K pv kv HP HK i j). intros I. apply S, ST. apply In1. exact I.
  - exact Hf.
Qed.
Print Assumptions C109_reduced.

(** An operator with an entry outside the pattern is not just truncated: the entry is added to another one. *)
Theorem C109_outside_refuted : exists p colors num (J : nat -> nat -> ZK) f A, wf_in p /\
  (forall i j, stores p i j -> nth j colors 0 < num) /\
  (forall i j j', stores p i j -> stores p i j' -> nth j colors 0 = nth j' colors 0 -> j = j') /\
  acts (in_nr p) (in_nc p) J f /\ operator_assembler p colors num f = Some A /\
  stores p 0 0 /\ todense A 0 0 <> J 0 0.
Proof.
  exists (PCoo 2 2 [0; 1] [0; 1]), [0; 0], 1, (fun i j => if (i =? j)%nat then 1%Z else if (i =? 0)%nat then 5%Z else 0%Z : ZK),
    (fun v => [(get v 0 + 5 * get v 1)%Z : ZK; get v 1]).
  assert (S : forall i j, stores (PCoo 2 2 [0; 1] [0; 1]) i j -> i = j /\ i < 2).
  { intros i j (k & Hk & <- & <-). cbn in Hk. destruct k as [|[|k]]; cbn; lia. }
  eexists. split; [|split; [|split; [|split; [|split; [vm_compute; reflexivity|split]]]]].
  - split; [reflexivity|]. split; intros x [<-|[<-|[]]]; lia.
  - intros i j H. apply S in H. destruct H as [<- H]. destruct i as [|[|i]]; cbn; lia.
  - intros i j j' H H' _. apply S in H, H'. lia.
  - intros v i Hv Hi. cbn [in_nr in_nc] in *. destruct v as [|a [|b [|]]]; try discriminate. destruct i as [|[|i]]; [| |lia]; cbn -[Z.mul Z.add]; lia.
  - exists 0. cbn. lia.
  - vm_compute. discriminate.
Qed.
Print Assumptions C109_outside_refuted.

(** The price: every pattern has a valid colouring (one colour per column), and no colouring uses fewer products than the
    fullest row has entries; each colour costs one product. *)
Theorem C109_cost (K : CRing) (C : colored) jvp vjp : wf_colored C ->
  length (@compressed K C jvp vjp) = k_num C /\
  valid_coloring {| k_nr := k_nr C; k_nc := k_nc C; k_rows := k_rows C; k_cols := k_cols C; k_mode := Fwd;
                    k_colors := seq 0 (k_nc C); k_num := k_nc C |} /\
  (k_mode C = Fwd -> valid_coloring C -> forall i cols, NoDup cols -> (forall j, In j cols -> listed C i j) -> length cols <= k_num C).
Proof.
  intros [EL WB]. split; [|split].
  - unfold compressed. destruct (k_mode C); now rewrite map_length, seq_length.
  - cbn [valid_coloring k_mode k_colors k_num]. unfold listed in *. cbn [k_rows k_cols]. split.
    + intros i j L. destruct (WB i j L). rewrite seq_nth by assumption. lia.
    + intros i j j' L L'. destruct (WB i j L), (WB i j' L'). rewrite !seq_nth by assumption. lia.
  - intros Em V i cols ND HL. unfold valid_coloring in V. rewrite Em in V. destruct V as [V1 V2].
    rewrite <- (map_length (fun j => nth j (k_colors C) 0) cols). rewrite <- (seq_length (k_num C) 0). apply NoDup_incl_length.
    + clear -ND HL V2. induction cols as [|j t IH]; [constructor|]. inversion ND as [|a b Ha Hb]; subst. cbn [map]. constructor.
      * intros H. apply in_map_iff in H. destruct H as (j' & E & Hj'). assert (j' = j) by (apply (V2 i j' j); [apply HL; right|apply HL; left|]; auto). subst. contradiction.
      * apply IH; [exact Hb|]. intros j' Hj'. apply HL. right. exact Hj'.
    + intros c H. apply in_map_iff in H. destruct H as (j & <- & Hj). apply in_seq. specialize (V1 i j (HL j Hj)). lia.
Qed.
Print Assumptions C109_cost.

(** A tridiagonal matrix of size five with three colours, and its star colouring. *)
Definition tri_rows : list nat := [0;0;1;1;1;2;2;2;3;3;3;4;4].
Definition tri_cols : list nat := [0;1;0;1;2;1;2;3;2;3;4;3;4].
Definition tri (m : mode) : colored :=
  {| k_nr := 5; k_nc := 5; k_rows := tri_rows; k_cols := tri_cols; k_mode := m; k_colors := [0;1;2;0;1]; k_num := 3 |}.
Definition triJ (i j : nat) : ZK := if (i =? j)%nat then 2%Z else if (i =? S j)%nat || (j =? S i)%nat then (-1)%Z else 0%Z.
Definition tri_mul (v : list ZK) : list ZK := map (fun i => sumf (fun j => cmul (triJ i j) (get v j)) (seq 0 5)) (seq 0 5).
Example C109_example : wf_colored (tri Fwd) /\ valid_coloring (tri Fwd) /\ valid_coloring (tri Rev) /\ star_coloring (tri Fwd) /\
  acts 5 5 triJ tri_mul /\ (exists A, jacobian_at (tri Fwd) tri_mul tri_mul = Some A /\ todense A 1 2 = (-1)%Z /\ todense A 4 4 = 2%Z) /\
  (exists A, hessian_at (tri Fwd) tri_mul = Some A /\ todense A 3 2 = (-1)%Z).
Proof.
  assert (L : forall m i j, listed (tri m) i j <-> In (i, j) (combine tri_rows tri_cols)) by reflexivity.
  assert (V : forall i j j', In (i, j) (combine tri_rows tri_cols) -> In (i, j') (combine tri_rows tri_cols) ->
     nth j [0;1;2;0;1] 0 = nth j' [0;1;2;0;1] 0 -> j = j').
  { intros i j j' H H'. cbn in H, H'. repeat destruct H as [H|H]; try contradiction; injection H as <- <-;
    repeat destruct H' as [H'|H']; try contradiction; try discriminate H'; injection H' as <-; cbn; try reflexivity; discriminate. }
  assert (Sy : forall i j, In (i, j) (combine tri_rows tri_cols) -> In (j, i) (combine tri_rows tri_cols)).
  { intros i j H. cbn in H. repeat destruct H as [H|H]; try contradiction; injection H as <- <-; cbn; tauto. }
  assert (B : forall i j, In (i, j) (combine tri_rows tri_cols) -> nth j [0;1;2;0;1] 0 < 3).
  { intros i j H. cbn in H. repeat destruct H as [H|H]; try contradiction; injection H as <- <-; cbn; lia. }
  split; [|split; [|split; [|split; [|split; [|split]]]]].
  - split; [reflexivity|]. intros i j H. apply L in H. cbn in H. repeat destruct H as [H|H]; try contradiction; injection H as <- <-; cbn; lia.
  - split; [exact B|exact V].
  - split; [intros i j H; exact (B j i (Sy _ _ H))|]. intros i i' j H H' E. exact (V j i i' (Sy _ _ H) (Sy _ _ H') E).
  - split; [intros i j H; split; [exact (Sy _ _ H)|exact (B j i (Sy _ _ H))]|]. intros i j H. left. intros j' H' E. exact (V i j' j H' H E).
  - intros v i Hv Hi. unfold tri_mul, get at 1. rewrite (nth_map_in _ _ 0) by (rewrite seq_length; exact Hi). rewrite seq_nth by exact Hi. reflexivity.
  - eexists. split; [vm_compute; reflexivity|]. split; vm_compute; reflexivity.
  - eexists. split; [vm_compute; reflexivity|]. vm_compute; reflexivity.
Qed.

(** An arrow pattern: a star colouring with two colours where the first row is read from the first column. *)
Definition arrow : colored :=
  {| k_nr := 3; k_nc := 3; k_rows := [0;0;0;1;1;2;2]; k_cols := [0;1;2;0;1;0;2]; k_mode := Fwd; k_colors := [0;1;1]; k_num := 2 |}.
Definition arrow_mul (v : list ZK) : list ZK :=
  [(4 * get v 0 + 7 * get v 1 + 9 * get v 2)%Z : ZK; (7 * get v 0 + 5 * get v 1)%Z; (9 * get v 0 + 6 * get v 2)%Z].
Example C109_star : star_coloring arrow /\ ~ valid_coloring arrow /\ sole arrow 0 1 = false /\
  exists A, hessian_at arrow arrow_mul = Some A /\ todense A 0 1 = 7%Z /\ todense A 0 2 = 9%Z /\ todense A 2 2 = 6%Z.
Proof.
  split; [|split; [|split]].
  - split.
    + intros i j H. cbn in H. repeat destruct H as [H|H]; try contradiction; injection H as <- <-; (split; [cbn; tauto|cbn; lia]).
    + intros i j H. assert (Q : forall a b, sole arrow a b = true -> alone arrow a b).
      { intros a b F j' L E. unfold sole in F. rewrite forallb_forall in F. specialize (F (a, j') L). cbn [fst snd] in F.
        rewrite Nat.eqb_refl, E, Nat.eqb_refl in F. cbn in F. apply Nat.eqb_eq. exact F. }
      cbn in H. repeat destruct H as [H|H]; try contradiction; injection H as <- <-;
        first [left; apply Q; reflexivity | right; apply Q; reflexivity].
  - intros [_ V]. assert (E : 1 = 2) by (apply (V 0 1 2); [cbn; tauto|cbn; tauto|reflexivity]). discriminate.
  - reflexivity.
  - eexists. split; [vm_compute; reflexivity|]. repeat split; vm_compute; reflexivity.
Qed.
