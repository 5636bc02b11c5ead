(** C62: the cyclic (rotationally coupled) prolongation matrix. *)
From Coq Require Import ZArith List Bool Lia.
From Verif Require Import Base Pbc_Model Pbc_Spec Pbc_Proofs.
Import ListNotations.
Local Open Scope list_scope. Local Open Scope nat_scope.

(** The product of a matrix, given as a list of rows of (column, value) entries, with [x]. *)
Definition row_dot (K : CRing) (row : list (nat * K)) (x : nat -> K) : K :=
  sumf (K := K) (fun cv => cmul (snd cv) (x (fst cv))) row.

Section C62.
  Variable Pt : Type.
  Variable close : Pt -> Pt -> bool.
  Variable points : list Pt.
  Variable pt0 : Pt.
  Variable p : pairing Pt.
  Variable K : CRing.
  Variable is_zero : K -> bool.
  Hypothesis Hzero : forall x, is_zero x = true <-> x = c0.
  Variable R : nat -> nat -> K.
  Variable vec : nat.
  Hypothesis Hvec : 0 < vec.
  Local Notation n := (length points).
  Local Notation paired := (partner close points pt0 p).
  Local Notation build := (cyclic_prolongation close points pt0 K is_zero R vec p).
  Add Ring Kring : (cth K).

  (** Every master has exactly one partner. *)
  Definition matched : Prop := forall A, A < n -> pp_master p (point points pt0 A) = true ->
    exists B, paired A B /\ forall B', paired A B' -> B' = B.
  (** No node is the partner of two masters. *)
  Definition one_master : Prop := forall A A' B, paired A B -> paired A' B -> A = A'.
  (** No master is the partner of a master. *)
  Definition free_masters : Prop := forall A A' B, paired A B -> ~ paired A' A.

  Lemma pair_nodes_spec ps : pair_nodes close points pt0 p = Some ps ->
    matched /\ (forall A B, In (A, B) ps <-> paired A B) /\ NoDup (map fst ps).
  Proof using.
    unfold pair_nodes. destruct (forallb _ _) eqn:F; [|discriminate]. intros E. injection E as <-.
    rewrite forallb_forall in F.
    assert (X : forall A, A < n -> pp_master p (point points pt0 A) = true ->
      exists B, matches close points pt0 p A = [B] /\ paired A B /\ forall B', paired A B' -> B' = B).
    { intros A HA HM. assert (HF := F A). rewrite Nat.eqb_eq in HF. specialize (HF (proj2 (nodes_where_In close points pt0 _ A) (conj HA HM))).
      destruct (matches close points pt0 p A) as [|B [|C l]] eqn:EM; cbn in HF; try discriminate.
      assert (Y : forall B', paired A B' <-> In B' [B]) by (intros B'; rewrite <- EM; symmetry; apply matches_In; assumption).
      exists B. split; [reflexivity|]. split; [apply Y; left; reflexivity|]. intros B' HB'. apply Y in HB'. destruct HB' as [->|[]]. reflexivity. }
    split; [|split].
    - intros A HA HM. destruct (X A HA HM) as (B & _ & H). exists B. exact H.
    - intros A B. rewrite in_map_iff. split.
      + intros (A' & E & HA'). injection E as -> <-. apply (nodes_where_In close points pt0) in HA'. destruct HA' as [HA HM].
        destruct (X A HA HM) as (B & -> & HB & _). exact HB.
      + intros HB. assert (HA : A < n) by apply HB. assert (HM : pp_master p (point points pt0 A) = true) by apply HB.
        exists A. split; [|apply (nodes_where_In close points pt0); auto]. destruct (X A HA HM) as (B' & -> & _ & U). rewrite (U B HB). reflexivity.
    - rewrite map_map. cbn. rewrite map_id. apply NoDup_filter, seq_NoDup.
  Qed.
  Lemma pair_nodes_matched : matched -> pair_nodes close points pt0 p <> None.
  Proof using.
    intros H. unfold pair_nodes. destruct (forallb _ _) eqn:F; [discriminate|]. exfalso.
    apply not_true_iff_false in F. apply F, forallb_forall. intros A HA. apply (nodes_where_In close points pt0) in HA. destruct HA as [HA HM].
    apply Nat.eqb_eq. apply single_iff; [apply matches_NoDup|]. destruct (H A HA HM) as (B & HB & U).
    exists B. split; [apply matches_In; assumption|]. intros y Hy. apply U. apply matches_In in Hy; assumption.
  Qed.

  Lemma slave_in (ps : list (nat * nat)) s : existsb (Nat.eqb s) (map snd ps) = true <-> exists A, In (A, s) ps.
  Proof using.
    rewrite existsb_exists. split.
    - intros (x & Hx & E). apply Nat.eqb_eq in E. subst x. apply in_map_iff in Hx. destruct Hx as ([A B] & E & H).
      cbn in E. subst B. exists A. exact H.
    - intros (A & H). exists s. split; [|apply Nat.eqb_refl]. apply in_map_iff. exists (A, s). auto.
  Qed.
  Lemma master_of_fold (ps : list (nat * nat)) s : forall acc,
    fold_left (fun acc ms => if snd ms =? s then Some (fst ms) else acc) ps acc =
    match fold_left (fun acc ms => if snd ms =? s then Some (fst ms) else acc) ps None with Some m => Some m | None => acc end.
  Proof using.
    induction ps as [|[A B] ps IH]; intros acc; cbn; [reflexivity|]. destruct (B =? s).
    - rewrite (IH (Some A)). destruct (fold_left _ ps None); reflexivity.
    - apply IH.
  Qed.
  Lemma master_of_some ps s m : master_of ps s = Some m -> In (m, s) ps.
  Proof using.
    unfold master_of. induction ps as [|[A B] ps IH]; cbn; [discriminate|]. destruct (Nat.eqb_spec B s) as [->|]; [|auto].
    rewrite master_of_fold. destruct (fold_left _ ps None); [auto|]. intros E. injection E as ->. auto.
  Qed.
  Lemma master_of_none ps s : master_of ps s = None -> forall A, ~ In (A, s) ps.
  Proof using.
    unfold master_of. induction ps as [|[A B] ps IH]; cbn; [auto|]. destruct (Nat.eqb_spec B s) as [->|Hne].
    - rewrite master_of_fold. destruct (fold_left _ ps None); discriminate.
    - intros E A' [H|H]; [congruence|]. apply (IH E A' H).
  Qed.

  (** Accepted exactly if every master has one partner and (given that no node has two masters)
      no master is a partner. *)
  Theorem C62_accepted_iff : one_master -> (build <> None <-> matched /\ free_masters).
  Proof using Hvec.
    clear Hzero. intros HO. unfold cyclic_prolongation. split.
    - destruct (pair_nodes close points pt0 p) as [ps|] eqn:E; [|congruence].
      destruct (pair_nodes_spec ps E) as (HM & HI & ND). intros H. split; [exact HM|].
      destruct (all_some _) as [rows|] eqn:EA; [|congruence]. intros A A' B HAB HA'.
      assert (HB : B < n) by apply HAB.
      assert (HX := all_some_inv _ _ EA (B * vec)). unfold cyclic_row in HX. rewrite Nat.div_mul in HX by lia.
      apply HX; [apply in_seq; unfold num_nodes; nia|]. clear HX.
      assert (S1 : existsb (Nat.eqb B) (map snd ps) = true) by (apply slave_in; exists A; apply HI, HAB). rewrite S1.
      destruct (master_of ps B) as [m|] eqn:Em; [|reflexivity]. apply master_of_some, HI in Em.
      assert (m = A) by (eapply HO; eauto). subst m.
      assert (S2 : existsb (Nat.eqb A) (map snd ps) = true) by (apply slave_in; exists A'; apply HI, HA'). rewrite S2. reflexivity.
    - intros [HM HF]. destruct (pair_nodes close points pt0 p) as [ps|] eqn:E; [|destruct (pair_nodes_matched HM E)].
      destruct (pair_nodes_spec ps E) as (_ & HI & ND).
      destruct (all_some _) as [rows|] eqn:EA; [discriminate|]. exfalso.
      assert (X : forall r, exists row, cyclic_row K is_zero R vec ps (r / vec) (r mod vec) = Some row).
      { intros r. unfold cyclic_row. destruct (existsb (Nat.eqb (r / vec)) (map snd ps)) eqn:S1; [|eauto].
        destruct (master_of ps (r / vec)) as [m|] eqn:Em.
        - apply master_of_some, HI in Em. destruct (existsb (Nat.eqb m) (map snd ps)) eqn:S2; [|eauto].
          apply slave_in in S2. destruct S2 as (A' & S2). apply HI in S2. exfalso. exact (HF _ _ _ Em S2).
        - apply slave_in in S1. destruct S1 as (A & S1). exfalso. eapply master_of_none; eauto. }
      erewrite all_some_map with (g := fun r => match cyclic_row K is_zero R vec ps (r / vec) (r mod vec) with Some x => x | None => [] end) in EA.
      + discriminate.
      + intros r _. destruct (X r) as (row & ->). reflexivity.
  Qed.

  Section Accepted.
    Variables N M : nat.
    Variable rows : list (list (nat * K)).
    Hypothesis HB : build = Some (N, M, rows).
    Hypothesis HO : one_master.

    Lemma built : exists ps, pair_nodes close points pt0 p = Some ps /\ N = n * vec /\ M = node_rank (map snd ps) n * vec /\
      length rows = N /\ forall r, r < N -> cyclic_row K is_zero R vec ps (r / vec) (r mod vec) = Some (nth r rows []).
    Proof using HB.
      unfold cyclic_prolongation in HB. destruct (pair_nodes close points pt0 p) as [ps|]; [|discriminate].
      destruct (all_some _) as [rs|] eqn:EA; [|discriminate]. injection HB as <- <- <-. exists ps.
      split; [reflexivity|]. split; [reflexivity|]. split; [reflexivity|].
      assert (L := all_some_length _ EA). rewrite map_length, seq_length in L. split; [exact L|].
      intros r Hr. assert (HE := all_some_nth _ (i := r) [] EA). rewrite map_length, seq_length in HE.
      specialize (HE Hr). rewrite nth_error_map in HE.
      rewrite (nth_error_nth' _ 0) in HE by (rewrite seq_length; exact Hr). rewrite seq_nth in HE by exact Hr.
      cbn in HE. injection HE as HE. exact HE.
    Qed.

    Lemma divmod A a : a < vec -> (A * vec + a) / vec = A /\ (A * vec + a) mod vec = a.
    Proof.
      intros Ha. split; [rewrite Nat.div_add_l by lia; rewrite Nat.div_small by exact Ha; lia|].
      rewrite Nat.add_comm, Nat.mod_add by lia. apply Nat.mod_small, Ha.
    Qed.

    Lemma dot_unit c x : row_dot K [(c, c1)] x = x c.
    Proof. unfold row_dot. cbn. ring. Qed.
    Lemma dot_filter (g : nat -> K) l f x :
      row_dot K (map (fun b => (f b, g b)) (filter (fun b => negb (is_zero (g b))) l)) x =
      sumf (K := K) (fun b => cmul (g b) (x (f b))) l.
    Proof.
      unfold row_dot. induction l as [|b l IH]; cbn; [reflexivity|]. destruct (is_zero (g b)) eqn:Z.
      - apply Hzero in Z. cbn. rewrite IH, Z. ring.
      - cbn. rewrite IH. reflexivity.
    Qed.

    (** The product with the matrix, node by node. *)
    Lemma rows_spec : exists ps, (forall A B, In (A, B) ps <-> paired A B) /\ N = n * vec /\
      M = rank (free ps) n * vec /\
      (forall x i a, i < n -> a < vec -> free ps i = true ->
         row_dot K (nth (i * vec + a) rows []) x = x (rank (free ps) i * vec + a)) /\
      (forall x A B a, paired A B -> a < vec -> free ps A = true /\
         row_dot K (nth (B * vec + a) rows []) x = sumf (K := K) (fun b => cmul (R a b) (x (rank (free ps) A * vec + b))) (seq 0 vec)).
    Proof.
      destruct built as (ps & E & -> & -> & L & HR). destruct (pair_nodes_spec ps E) as (HM & HI & ND).
      exists ps. split; [exact HI|]. split; [reflexivity|]. split; [reflexivity|]. split.
      - intros x i a Hi Ha F. assert (Hr : i * vec + a < n * vec) by nia. specialize (HR _ Hr).
        destruct (divmod i a Ha) as [D1 D2]. rewrite D1, D2 in HR. unfold cyclic_row in HR.
        unfold free in F. apply negb_true_iff in F. rewrite F in HR. injection HR as <-. apply dot_unit.
      - intros x A B a HAB Ha. assert (HBn : B < n) by apply HAB. assert (Hr : B * vec + a < n * vec) by nia. specialize (HR _ Hr).
        destruct (divmod B a Ha) as [D1 D2]. rewrite D1, D2 in HR. unfold cyclic_row in HR.
        assert (S1 : existsb (Nat.eqb B) (map snd ps) = true) by (apply slave_in; exists A; apply HI, HAB). rewrite S1 in HR.
        destruct (master_of ps B) as [m|] eqn:Em; [|discriminate]. apply master_of_some, HI in Em.
        assert (m = A) by (eapply HO; eauto). subst m.
        destruct (existsb (Nat.eqb A) (map snd ps)) eqn:S2; [discriminate|]. injection HR as <-.
        split; [unfold free; rewrite S2; reflexivity|]. apply dot_filter.
    Qed.

    (** The matrix spans exactly the fields with [u_slave = R u_master] at every pair, and
        different reduced vectors give different fields. *)
    Theorem C62_range :
      N = n * vec /\ length rows = N /\
      (forall u : nat -> K,
         (exists x, forall r, r < N -> u r = row_dot K (nth r rows []) x) <->
         (forall A B a, paired A B -> a < vec ->
            u (B * vec + a) = sumf (K := K) (fun b => cmul (R a b) (u (A * vec + b))) (seq 0 vec))) /\
      (forall x y : nat -> K, (forall r, r < N -> row_dot K (nth r rows []) x = row_dot K (nth r rows []) y) ->
         forall c, c < M -> x c = y c).
    Proof.
      destruct built as (ps' & _ & _ & _ & L & _). destruct rows_spec as (ps & HI & EN & EM & H1 & H2).
      split; [exact EN|]. split; [exact L|]. subst N M. split.
      - intros u. split.
        + intros (x & Hx) A B a HAB Ha. assert (HA : A < n) by apply HAB. assert (HBn : B < n) by apply HAB.
          destruct (H2 x A B a HAB Ha) as [F E]. rewrite Hx, E by nia. apply sumf_ext. intros b Hb. apply in_seq in Hb.
          rewrite Hx by nia. rewrite H1 by (auto; lia). reflexivity.
        + intros Hu. exists (fun c => match find (fun i => (free ps i && (rank (free ps) i =? c / vec))%bool) (seq 0 n) with
                              | Some i => u (i * vec + c mod vec) | None => c0 end).
          assert (X : forall i b, i < n -> b < vec -> free ps i = true ->
            match find (fun j => (free ps j && (rank (free ps) j =? (rank (free ps) i * vec + b) / vec))%bool) (seq 0 n) with
            | Some j => u (j * vec + (rank (free ps) i * vec + b) mod vec) | None => c0 end = u (i * vec + b)).
          { intros i b Hi Hb F. destruct (divmod (rank (free ps) i) b Hb) as [-> ->].
            destruct (find _ _) as [j|] eqn:EF.
            - apply find_some in EF. destruct EF as [_ EF]. apply andb_true_iff in EF. destruct EF as [F' E'].
              apply Nat.eqb_eq in E'. apply rank_inj in E'; [|assumption..]. subst j. reflexivity.
            - apply (find_none _ _) with (x := i) in EF; [|apply in_seq; lia]. rewrite F, Nat.eqb_refl in EF. discriminate. }
          intros r Hr. set (i := r / vec). set (a := r mod vec).
          assert (Er : r = i * vec + a) by (unfold i, a; rewrite (Nat.div_mod r vec) at 1 by lia; lia).
          assert (Ha : a < vec) by (unfold a; apply Nat.mod_upper_bound; lia).
          assert (Hi : i < n) by (unfold i; apply Nat.div_lt_upper_bound; nia).
          clearbody i a. subst r. destruct (free ps i) eqn:F.
          * rewrite H1 by assumption. symmetry. apply X; assumption.
          * unfold free in F. apply negb_false_iff, slave_in in F. destruct F as (A & F). apply HI in F.
            match goal with |- _ = row_dot _ _ ?x => destruct (H2 x A i a F Ha) as [FA ->] end.
            rewrite (Hu A i a F Ha). apply sumf_ext. intros b Hb. apply in_seq in Hb. rewrite X; [reflexivity|apply F|lia|exact FA].
      - intros x y Hxy c Hc. assert (Hq : c / vec < rank (free ps) n) by (apply Nat.div_lt_upper_bound; nia).
        destruct (rank_surj _ _ Hq) as (i & Hi & F & E). assert (Ha : c mod vec < vec) by (apply Nat.mod_upper_bound; lia).
        specialize (Hxy (i * vec + c mod vec) ltac:(nia)). rewrite !H1, E in Hxy by assumption.
        assert (Ec : c = c / vec * vec + c mod vec) by (rewrite (Nat.div_mod c vec) at 1 by lia; lia).
        rewrite <- Ec in Hxy. exact Hxy.
    Qed.

    (** Every column index is in range, and the reduced system loses [vec] unknowns per partner
        node. *)
    Theorem C62_columns :
      (forall r c v, r < N -> In (c, v) (nth r rows []) -> c < M) /\
      exists slaves, NoDup slaves /\ (forall B, In B slaves <-> exists A, paired A B) /\ M + length slaves * vec = N.
    Proof.
      destruct built as (ps & E & EN & EM & L & HR). destruct (pair_nodes_spec ps E) as (HM & HI & ND). subst N M.
      assert (FR : forall i, i < n -> free ps i = true -> rank (free ps) i < rank (free ps) n) by (intros; apply rank_lt; auto).
      change (node_rank (map snd ps) n) with (rank (free ps) n). split.
      - intros r c v Hr Hin. specialize (HR r Hr). unfold cyclic_row in HR.
        assert (Ha : r mod vec < vec) by (apply Nat.mod_upper_bound; lia).
        assert (Hi : r / vec < n) by (apply Nat.div_lt_upper_bound; nia).
        destruct (existsb (Nat.eqb (r / vec)) (map snd ps)) eqn:S1.
        + destruct (master_of ps (r / vec)) as [m|] eqn:Em; [|discriminate].
          destruct (existsb (Nat.eqb m) (map snd ps)) eqn:S2; [discriminate|]. injection HR as HR. rewrite <- HR in Hin.
          apply in_map_iff in Hin. destruct Hin as (b & Eb & Hb). injection Eb as <- _. apply filter_In in Hb.
          destruct Hb as [Hb _]. apply in_seq in Hb. apply master_of_some, HI in Em.
          change (node_rank (map snd ps) m) with (rank (free ps) m).
          assert (X := FR m ltac:(apply Em) ltac:(unfold free; rewrite S2; reflexivity)). nia.
        + injection HR as HR. rewrite <- HR in Hin. destruct Hin as [Hin|[]]. injection Hin as <- _.
          change (node_rank (map snd ps) (r / vec)) with (rank (free ps) (r / vec)).
          assert (X := FR (r / vec) Hi ltac:(unfold free; rewrite S1; reflexivity)). nia.
      - exists (filter (fun i => negb (free ps i)) (seq 0 n)). split; [apply NoDup_filter, seq_NoDup|]. split.
        + intros B. rewrite filter_In, in_seq. unfold free. rewrite negb_involutive, slave_in. split.
          * intros (_ & A & H). exists A. apply HI, H.
          * intros (A & H). split; [assert (B < n) by apply H; lia|]. exists A. apply HI, H.
        + unfold rank. rewrite <- Nat.mul_add_distr_r. f_equal.
          rewrite <- (seq_length n 0) at 3. generalize (seq 0 n) as l. intros l. clear.
          induction l as [|i l IH]; [reflexivity|]. cbn. destruct (free ps i); cbn; lia.
    Qed.
  End Accepted.
End C62.
Print Assumptions C62_accepted_iff.
Print Assumptions C62_range.
Print Assumptions C62_columns.

(** ** Examples *)
(** Nodes at 10 and 11 on the master plane, 20 and 21 on the slave plane, 30 inside; quarter
    turn of two components. *)
Definition sector (m s : list Z) (f : Z -> Z) : pairing Z :=
  {| pp_master := fun z => existsb (Z.eqb z) m; pp_slave := fun z => existsb (Z.eqb z) s; pp_map := f; pp_vec := 0 |}.
Definition turn (a b : nat) : ZK :=
  match a, b with 0, 1 => (-1)%Z | 1, 0 => 1%Z | _, _ => 0%Z end.
Definition ex_sector := sector [10; 11]%Z [20; 21]%Z (fun z => (z + 10)%Z).
Definition ex_nodes : list Z := [10; 21; 30; 11; 20]%Z.
Example C62_example :
  one_master Z Z.eqb ex_nodes 0%Z ex_sector /\ matched Z Z.eqb ex_nodes 0%Z ex_sector /\
  free_masters Z Z.eqb ex_nodes 0%Z ex_sector /\
  cyclic_prolongation Z.eqb ex_nodes 0%Z ZK (Z.eqb 0) turn 2 ex_sector =
    Some (10, 6, [[(0, 1%Z)]; [(1, 1%Z)]; [(5, (-1)%Z)]; [(4, 1%Z)]; [(2, 1%Z)]; [(3, 1%Z)]; [(4, 1%Z)]; [(5, 1%Z)];
                  [(1, (-1)%Z)]; [(0, 1%Z)]]).
Proof.
  assert (HO : one_master Z Z.eqb ex_nodes 0%Z ex_sector).
  { intros A A' B (H1 & H2 & _ & _ & H3) (H4 & _ & _ & _ & H5). cbn in H1, H2, H4.
    apply Z.eqb_eq in H3, H5. rewrite <- H5 in H3. cbn in H3. clear H5.
    do 5 (destruct A as [|A]; [do 5 (destruct A' as [|A']; [cbn in H3; try reflexivity; lia|]); lia|]). lia. }
  split; [exact HO|].
  assert (E : cyclic_prolongation Z.eqb ex_nodes 0%Z ZK (Z.eqb 0) turn 2 ex_sector <> None) by (vm_compute; discriminate).
  apply (C62_accepted_iff Z Z.eqb ex_nodes 0%Z ex_sector ZK (Z.eqb 0) turn 2) in E; [|lia|exact HO].
  destruct E as [E1 E2]. split; [exact E1|]. split; [exact E2|]. vm_compute. reflexivity.
Qed.

(** The documented size [M = N - vec * #slave nodes] needs every slave-plane node to be hit: one
    that no master maps to is accepted silently and stays an independent unknown. *)
Theorem C62_unmatched_slave_refuted :
  exists (points : list Z) (p : pairing Z) N M rows,
    cyclic_prolongation Z.eqb points 0%Z ZK (Z.eqb 0) turn 2 p = Some (N, M, rows) /\
    M + 2 * length (filter (pp_slave p) points) <> N.
Proof.
  exists (ex_nodes ++ [22%Z]), (sector [10; 11]%Z [20; 21; 22]%Z (fun z => (z + 10)%Z)).
  do 3 eexists. split; [vm_compute; reflexivity|]. vm_compute. discriminate.
Qed.
Print Assumptions C62_unmatched_slave_refuted.

(** Two masters that map to one slave node are accepted as well; the constraint of the first is
    dropped: some field spanned by the matrix violates it. *)
Theorem C62_two_masters_refuted :
  exists (points : list Z) (p : pairing Z) N M rows (x : nat -> ZK) A B,
    cyclic_prolongation Z.eqb points 0%Z ZK (Z.eqb 0) turn 2 p = Some (N, M, rows) /\
    partner Z.eqb points 0%Z p A B /\
    let u r := row_dot ZK (nth r rows []) x in
    u (B * 2) <> sumf (K := ZK) (fun b => cmul (turn 0 b) (u (A * 2 + b))) (seq 0 2).
Proof.
  exists [10; 11; 20]%Z, (sector [10; 11]%Z [20]%Z (fun _ => 20%Z)).
  do 3 eexists. exists (fun c => Z.of_nat c), 0, 2. split; [vm_compute; reflexivity|].
  split; [vm_compute; repeat split; lia|]. vm_compute. discriminate.
Qed.
Print Assumptions C62_two_masters_refuted.
