(** C35: the periodic prolongation matrix. *)
From Verif Require Import Base Pbc_Model Pbc_Spec Pbc_Proofs.
From Coq Require Import ZArith ZifyBool ZifyNat.
Local Open Scope list_scope. Local Open Scope nat_scope.
Set Implicit Arguments.

(** [P x] for the row-wise representation: row [i] holds a single 1 in column [col i]. *)
Definition prolong (A : Type) (P : prolongation) (x : Z -> A) (i : nat) : A := x (nth i (pm_col P) 0%Z).

Section C35.
  Variable Pt : Type.
  Variable close : Pt -> Pt -> bool.
  Variable points : list Pt.
  Variable pt0 : Pt.
  Variable vec : nat.
  Variable pairings : list (pairing Pt).
  Hypothesis Hv : forall p, In p pairings -> pp_vec p < vec.
  Local Notation linked := (linked close points pt0 vec pairings).
  Local Notation is_slave := (is_slave close points pt0 vec pairings).
  Local Notation N := (length points * vec).
  Local Notation build := (prolongation_matrix close points pt0 vec pairings).
  Local Notation ad := (all_dofs close points pt0 vec pairings).

  Lemma build_eq P : build = Some P ->
    pairings <> [] /\ well_matched close points pt0 pairings /\ NoDup (map snd ad) /\
    P = {| pm_rows := N; pm_cols := N - length ad; pm_col := col_of N ad |}.
  Proof.
    intros H. unfold prolongation_matrix in H.
    destruct (pair_dofs close points pt0 vec pairings) as [ab|] eqn:E; [|discriminate].
    assert (HS : pair_dofs close points pt0 vec pairings <> None) by congruence.
    assert (HE : pair_dofs close points pt0 vec pairings = Some ad) by (apply pair_dofs_eq; assumption). apply pair_dofs_some in HS; [|exact Hv]. destruct HS as [Hne HW].
    rewrite E in HE. inversion HE; subst ab. unfold num_nodes in H.
    destruct (Nat.eqb_spec (count_free (slave_map N ad) + length ad) N) as [C|C]; [|discriminate].
    inversion H. split; [exact Hne|]. split; [exact HW|]. split; [|reflexivity].
    apply accept_iff in C; [exact C| |]; intros [a b] Hin; apply (@all_dofs_In) in Hin; try exact HW;
      apply (linked_range Hv) in Hin; cbn; tauto.
  Qed.

  Lemma ad_range : well_matched close points pt0 pairings ->
    (forall p, In p ad -> fst p < N) /\ (forall p, In p ad -> snd p < N).
  Proof.
    intros HW. split; intros [a b] Hin; apply (@all_dofs_In) in Hin; try exact HW;
      apply (linked_range Hv) in Hin; cbn; tauto.
  Qed.

  Lemma free_slave i : well_matched close points pt0 pairings -> (free ad i = true <-> ~ is_slave i).
  Proof.
    intros HW. rewrite free_iff. unfold Pbc_Spec.is_slave. split.
    - intros H [a Hl]. apply H. apply in_map_iff. exists (a, i). split; [reflexivity|]. apply all_dofs_In; auto.
    - intros H Hin. apply H. apply in_map_iff in Hin. destruct Hin as ([a' b] & E & Hin). cbn in E. subst b.
      exists a'. apply all_dofs_In; auto.
  Qed.

  (** The construction succeeds exactly if there is a pairing, every master has exactly one
      partner and no DOF is the slave of two constraints. *)
  Theorem C35_accepted_iff : build <> None <->
    pairings <> [] /\ well_matched close points pt0 pairings /\ single_master close points pt0 vec pairings.
  Proof.
    split.
    - intros H. destruct build as [P|] eqn:E; [|congruence]. apply build_eq in E.
      destruct E as (H1 & H2 & H3 & _). split; [exact H1|]. split; [exact H2|]. apply single_master_iff; auto.
    - intros (H1 & H2 & H3). apply single_master_iff in H3; auto.
      assert (HE : pair_dofs close points pt0 vec pairings = Some ad)
        by (apply pair_dofs_eq, pair_dofs_some; auto).
      unfold prolongation_matrix. rewrite HE. unfold num_nodes.
      destruct (ad_range H2) as [R1 R2].
      apply (@accept_iff N ad R1 R2) in H3. rewrite H3, Nat.eqb_refl. discriminate.
  Qed.

  Section Accepted.
    Variable P : prolongation.
    Hypothesis HP : build = Some P.

    Lemma acc : well_matched close points pt0 pairings /\ NoDup (map snd ad) /\
      pm_rows P = N /\ pm_cols P = N - length ad /\ pm_col P = col_of N ad /\ rank (free ad) N = pm_cols P.
    Proof.
      destruct (build_eq HP) as (_ & HW & ND & ->). cbn. split; [exact HW|]. split; [exact ND|]. split; [reflexivity|]. split; [reflexivity|]. split; [reflexivity|].
      destruct (ad_range HW) as [R1 R2].
      assert (C := proj2 (@accept_iff N ad R1 R2) ND). rewrite count_free_eq in C. lia.
    Qed.

    Lemma acc_slave_col a b : linked a b -> is_slave a -> (nth b (pm_col P) 0 < 0)%Z.
    Proof.
      intros Hl Hs. destruct acc as (HW & ND & _ & _ & -> & _). destruct (ad_range HW) as [R1 R2].
      assert (Ra := linked_range Hv Hl).
      rewrite (@col_slave N ad R1 R2 a b ND) by (apply all_dofs_In; auto).
      destruct (free ad a) eqn:F; [apply free_slave in F; [contradiction|exact HW]|].
      destruct (@slave_map_slave N ad a 0%Z (proj1 Ra) F) as (c & _ & ->). lia.
    Qed.
    Lemma acc_link_col a b : linked a b -> ~ is_slave a ->
      nth b (pm_col P) 0%Z = nth a (pm_col P) 0%Z.
    Proof.
      intros Hl Hs. destruct acc as (HW & ND & _ & _ & -> & _). destruct (ad_range HW) as [R1 R2].
      assert (Ra := linked_range Hv Hl). apply free_slave in Hs; [|exact HW].
      rewrite (@col_slave N ad R1 R2 a b ND) by (apply all_dofs_In; auto).
      rewrite Hs. rewrite (@col_free N ad a (proj1 Ra) Hs). reflexivity.
    Qed.
    Lemma acc_free_col i : i < N -> ~ is_slave i ->
      nth i (pm_col P) 0%Z = Z.of_nat (rank (free ad) i).
    Proof.
      intros Hi Hs. destruct acc as (HW & ND & _ & _ & -> & _). apply free_slave in Hs; [|exact HW].
      apply (@col_free N ad i Hi Hs).
    Qed.

    (** Whatever the pairings, the DOFs that are nobody's slave correspond one to one, in
        order, to the columns. *)
    Theorem C35_columns :
      pm_rows P = N /\ length (pm_col P) = N /\
      (forall i, i < N -> ~ is_slave i -> (0 <= nth i (pm_col P) 0 < Z.of_nat (pm_cols P))%Z) /\
      (forall i j, i < N -> j < N -> ~ is_slave i -> ~ is_slave j ->
         (i < j <-> (nth i (pm_col P) 0 < nth j (pm_col P) 0)%Z)) /\
      (forall c, c < pm_cols P -> exists i, i < N /\ ~ is_slave i /\ nth i (pm_col P) 0%Z = Z.of_nat c).
    Proof.
      destruct acc as (HW & ND & E1 & E2 & E3 & E4). repeat split.
      - exact E1.
      - rewrite E3. apply col_of_length.
      - rewrite acc_free_col by assumption. lia.
      - rewrite acc_free_col by assumption. rewrite <- E4.
        assert (F : free ad i = true) by (apply free_slave; assumption).
        assert (X := rank_lt (free ad) H F). lia.
      - intros Hij. rewrite !acc_free_col by assumption.
        assert (F : free ad i = true) by (apply free_slave; assumption).
        assert (X := rank_lt (free ad) Hij F). lia.
      - intros Hc. rewrite !acc_free_col in Hc by assumption.
        destruct (Nat.lt_ge_cases i j) as [|Hle]; [assumption|].
        assert (X := rank_le (free ad) Hle). lia.
      - intros c Hc. rewrite <- E4 in Hc. destruct (rank_surj (free ad) N Hc) as (i & Hi & F & Er).
        exists i. assert (Hs : ~ is_slave i) by (apply free_slave; assumption).
        repeat split; auto. rewrite acc_free_col by assumption. rewrite Er. reflexivity.
    Qed.

    (** Every column index is valid exactly if no master is itself a slave. *)
    Theorem C35_valid_columns_iff :
      (forall i, i < N -> (0 <= nth i (pm_col P) 0 < Z.of_nat (pm_cols P))%Z) <->
      independent_masters close points pt0 vec pairings.
    Proof.
      destruct C35_columns as (_ & _ & HC & _). split.
      - intros H a b Hl Hs. assert (Ra := linked_range Hv Hl). assert (X := acc_slave_col Hl Hs).
        specialize (H b (proj2 Ra)). lia.
      - intros H i Hi.
        destruct acc as (HW & ND & E1 & E2 & E3 & E4).
        destruct (free ad i) eqn:F.
        + apply HC; [exact Hi|]. apply free_slave; assumption.
        + destruct (@slave_map_slave N ad i 0%Z Hi F) as (a & Hin & _).
          apply all_dofs_In in Hin; [|assumption..]. rewrite (@acc_link_col a i Hin (H a i Hin)).
          apply HC; [apply (linked_range Hv Hin)|]. apply (H a i Hin).
    Qed.

    (** With independent masters: a slave takes its master's column, and a vector is of the
        form [P x] exactly if it satisfies every pairing; [x] is then unique. *)
    Theorem C35_range (A : Type) : independent_masters close points pt0 vec pairings ->
      (forall a b, linked a b -> nth b (pm_col P) 0%Z = nth a (pm_col P) 0%Z) /\
      (forall u : nat -> A,
         (exists x, forall i, i < N -> u i = prolong P x i) <-> (forall a b, linked a b -> u b = u a)) /\
      (forall x y : Z -> A, (forall i, i < N -> prolong P x i = prolong P y i) ->
         forall c, (0 <= c < Z.of_nat (pm_cols P))%Z -> x c = y c).
    Proof.
      intros HI. destruct acc as (HW & ND & E1 & E2 & E3 & E4).
      destruct C35_columns as (_ & _ & HC & Hord & Hsur).
      assert (HL : forall a b, linked a b -> nth b (pm_col P) 0%Z = nth a (pm_col P) 0%Z).
      { intros a b Hl. apply acc_link_col; [exact Hl|]. apply (HI a b Hl). }
      split; [exact HL|]. split.
      - intros u. split.
        + intros [x Hx] a b Hl. assert (Ra := linked_range Hv Hl).
          rewrite !Hx by apply Ra. unfold prolong. rewrite (HL a b Hl). reflexivity.
        + intros Hu.
          exists (fun c => u (hd 0 (filter (fun i => free ad i && (nth i (pm_col P) 0 =? c)%Z) (seq 0 N)))).
          assert (Key : forall i, i < N -> free ad i = true ->
            u i = u (hd 0 (filter (fun j => free ad j && (nth j (pm_col P) 0 =? nth i (pm_col P) 0)%Z) (seq 0 N)))).
          { intros i Hi F. f_equal.
            set (l := filter _ _). assert (Hin : In i l).
            { apply filter_In. split; [apply in_seq; lia|]. rewrite F, Z.eqb_refl. reflexivity. }
            destruct l as [|j l'] eqn:El; [destruct Hin|]. cbn.
            assert (Hj : In j l) by (rewrite El; left; reflexivity). apply filter_In in Hj.
            destruct Hj as [Hj1 Hj2]. apply in_seq in Hj1. apply andb_true_iff in Hj2. destruct Hj2 as [Fj Ej].
            apply Z.eqb_eq in Ej.
            apply free_slave in F; [|exact HW]. apply free_slave in Fj; [|exact HW].
            assert (O1 := Hord i j Hi (proj2 Hj1) F Fj). assert (O2 := Hord j i (proj2 Hj1) Hi Fj F). lia. }
          intros i Hi. unfold prolong. destruct (free ad i) eqn:F; [apply Key; assumption|].
          destruct (@slave_map_slave N ad i 0%Z Hi F) as (a & Hin & _).
          apply all_dofs_In in Hin; [|assumption..]. rewrite (Hu a i Hin), (HL a i Hin).
          apply Key; [apply (linked_range Hv Hin)|]. apply free_slave; [exact HW|]. apply (HI a i Hin).
      - intros x y Hxy c Hc. destruct (Hsur (Z.to_nat c)) as (i & Hi & _ & Ei); [lia|].
        specialize (Hxy i Hi). unfold prolong in Hxy. rewrite Ei, Z2Nat.id in Hxy by lia. exact Hxy.
    Qed.
  End Accepted.
End C35.
Print Assumptions C35_accepted_iff.
Print Assumptions C35_columns.
Print Assumptions C35_valid_columns_iff.
Print Assumptions C35_range.

(** ** Examples *)
(** Points 0..4 on a line, 0 and 4 identified, two components. *)
Definition zshift (m s : Z) (v : nat) : pairing Z :=
  {| pp_master := Z.eqb m; pp_slave := Z.eqb s; pp_map := fun z => (z + (s - m))%Z; pp_vec := v |}.
Definition ex_line := [0; 1; 2; 3; 4]%Z.
Example C35_example :
  prolongation_matrix Z.eqb ex_line 0%Z 2 [zshift 0 4 0; zshift 0 4 1] =
    Some {| pm_rows := 10; pm_cols := 8; pm_col := [0; 1; 2; 3; 4; 5; 6; 7; 0; 1]%Z |}.
Proof. reflexivity. Qed.
Example C35_example_independent :
  independent_masters Z.eqb ex_line 0%Z 2 [zshift 0 4 0; zshift 0 4 1].
Proof.
  apply (proj1 (@C35_valid_columns_iff Z Z.eqb ex_line 0%Z 2 [zshift 0 4 0; zshift 0 4 1]
    ltac:(intros p [<-|[<-|[]]]; cbn; lia) _ C35_example)).
  cbn. intros i Hi. do 10 (destruct i as [|i]; [cbn; lia|]). lia.
Qed.

(** The consistency check does not look for masters that are slaves: a chain 0 -> 2 -> 4 is
    accepted and yields a row whose column index is -1, and a node paired with itself is
    accepted and yields a column index -1. *)
Theorem C35_chain_accepted_refuted :
  exists (points : list Z) (pairings : list (pairing Z)) (P : prolongation) (i : nat),
    prolongation_matrix Z.eqb points 0%Z 1 pairings = Some P /\ i < pm_rows P /\ (nth i (pm_col P) 0 < 0)%Z.
Proof.
  exists ex_line, [zshift 2 4 0; zshift 0 2 0],
    {| pm_rows := 5; pm_cols := 3; pm_col := [0; 1; 0; 2; -1]%Z |}, 4.
  split; [reflexivity|]. cbn. lia.
Qed.
Print Assumptions C35_chain_accepted_refuted.
Theorem C35_self_pairing_accepted_refuted :
  exists (points : list Z) (pairings : list (pairing Z)) (P : prolongation) (i : nat),
    prolongation_matrix Z.eqb points 0%Z 1 pairings = Some P /\ i < pm_rows P /\ (nth i (pm_col P) 0 < 0)%Z.
Proof.
  exists ex_line, [zshift 2 2 0], {| pm_rows := 5; pm_cols := 4; pm_col := [0; 1; -3; 2; 3]%Z |}, 2.
  split; [vm_compute; reflexivity|]. cbn. lia.
Qed.
Print Assumptions C35_self_pairing_accepted_refuted.
