(** C25, C26, C27: sparse designs and narrow bands. *)
From Coq Require Import ZArith QArith Bool List Arith Sorting.Permutation Sorting.Sorted Lia.
From Verif Require Import Base Assembly_Model Assembly_Proofs Dof_Proofs ZArr Grid_Model Grid_Proofs Grid_Props Band_Model Band_Proofs.
Import ListNotations.
Local Open Scope Z_scope.

(** ** C25 *)
(** Value of the last update that wrote [q]. *)
Definition last_write {A} (ups : list (list Z * list A)) (q : Z) : option A :=
  fold_left (fun acc u => match find (fun p => fst p =? q) (combine (fst u) (snd u)) with
                          | Some p => Some (snd p) | None => acc end) ups None.
(** Each update lists distinct ids that fit in 32 bits, one value each. *)
Definition good_update {A} (u : list Z * list A) : Prop :=
  NoDup (fst u) /\ length (fst u) = length (snd u) /\ forall i, In i (fst u) -> int32 i.

Theorem C25_sparse_design :
  forall (A : Type) (dflt : A) argsrt ups, sorts argsrt -> (forall u, In u ups -> good_update u) ->
    exists st, sparse_run dflt argsrt ups = Some st /\
      (forall q default, int32 q ->
         sparse_gather dflt st q default = match last_write ups q with Some v => v | None => default end) /\
      (forall q, In q (s_ids st) <-> exists u, In u ups /\ In q (fst u)) /\
      StronglySorted Z.lt (s_ids st) /\ length (s_vals st) = length (s_ids st).
Proof.
  intros A dflt argsrt ups Hs Hg.
  assert (G : forall ups st M, represents st M -> (forall u, In u ups -> good_update u) ->
    exists st', fold_left (fun st u => match st with Some s => sparse_update dflt argsrt s (fst u) (snd u) | None => None end) ups (Some st) = Some st' /\
      represents st' (fun q => fold_left (fun acc u => match find (fun p => fst p =? q) (combine (fst u) (snd u)) with
                          | Some p => Some (snd p) | None => acc end) ups (M q))).
  { clear ups Hg. induction ups as [|u t IH]; intros st M HR Hg; [exists st; split; [reflexivity|exact HR]|].
    destruct (Hg u (or_introl eq_refl)) as (ND & L & R).
    destruct (update_ok dflt argsrt Hs st M (fst u) (snd u) HR ND L R) as (st1 & E & HR1).
    cbn [fold_left]. rewrite E. destruct (IH st1 _ HR1 (fun v Hv => Hg v (or_intror Hv))) as (st' & E' & HR').
    exists st'. split; [exact E'|]. exact HR'. }
  destruct (make_ok dflt argsrt Hs [] []) as (st0 & E0 & S0 & L0 & P0); [constructor|reflexivity|intros i []|].
  assert (R0 : represents st0 (fun _ => None)).
  { assert (X := Permutation_nil P0).
    assert (Y : s_ids st0 = []) by (destruct (s_ids st0), (s_vals st0); [reflexivity|discriminate L0|discriminate L0|discriminate X]).
    split; [exact S0|]. split; [exact L0|]. rewrite Y. split; [intros i []|]. cbn. split; [intros []|discriminate]. }
  destruct (G ups st0 _ R0 Hg) as (st & E & HR). exists st. split; [unfold sparse_run; rewrite E0; exact E|].
  split; [|split; [|split]].
  - intros q d Hq. apply (represents_gather dflt st _ q d HR Hq).
  - intros q. rewrite (represents_ids st _ q HR). clear - Hg.
    assert (X : forall ups (m : option A), (forall u, In u ups -> good_update u) ->
       (fold_left (fun acc u => match find (fun p => fst p =? q) (combine (fst u) (snd u)) with
                          | Some p => Some (snd p) | None => acc end) ups m <> None <->
        m <> None \/ exists u, In u ups /\ In q (fst u))).
    { clear ups Hg. induction ups as [|u t IH]; intros m Hg.
      - cbn. split; [auto|]. intros [H|(u & [] & _)]. exact H.
      - cbn [fold_left]. rewrite IH by (intros v Hv; apply Hg; right; exact Hv).
        destruct (Hg u (or_introl eq_refl)) as (_ & L & _).
        destruct (find (fun p => fst p =? q) (combine (fst u) (snd u))) as [p|] eqn:F.
        + split; [|intros _; left; discriminate]. intros _. right. exists u. split; [left; reflexivity|].
          destruct (in_dec Z.eq_dec q (fst u)); [assumption|].
          apply (find_combine_none (fst u) (snd u) q L) in n. congruence.
        + apply (find_combine_none (fst u) (snd u) q L) in F. split.
          * intros [H|(v & Hv & Hq)]; [left; exact H|right; exists v; split; [right; exact Hv|exact Hq]].
          * intros [H|(v & [->|Hv] & Hq)]; [left; exact H|contradiction|right; exists v; auto]. }
    rewrite (X ups None Hg). split; [intros [H|H]; [congruence|exact H]|auto].
  - apply HR.
  - destruct HR as (_ & L & _). symmetry. exact L.
Qed.
Print Assumptions C25_sparse_design.

(** The constructors: [SparseDesign(ids, vals)] is one update of the empty store. *)
Theorem C25_uniform :
  forall (A : Type) (dflt : A) argsrt ids v, sorts argsrt -> NoDup ids -> (forall i, In i ids -> int32 i) ->
    exists st, uniform dflt argsrt ids v = Some st /\
      forall q default, int32 q -> sparse_gather dflt st q default = if memZ q ids then v else default.
Proof.
  intros A dflt argsrt ids v Hs ND R.
  assert (L : length ids = length (repeat v (length ids))) by (rewrite repeat_length; reflexivity).
  destruct (C25_sparse_design A dflt argsrt [(ids, repeat v (length ids))] Hs) as (st & E & G & _).
  { intros u [<-|[]]. split; [exact ND|split; [exact L|exact R]]. }
  exists st. split.
  - unfold uniform. unfold sparse_run in E. cbn [fold_left fst snd] in E.
    destruct (make_sparse dflt argsrt [] []) as [s0|] eqn:E0; [|discriminate].
    assert (Hn : s_ids s0 = []).
    { unfold make_sparse in E0. cbn in E0. injection E0 as <-. cbn. destruct (Hs []) as [P _]. apply Permutation_nil in P. rewrite P. reflexivity. }
    unfold sparse_update in E. rewrite Hn in E. exact E.
  - intros q d Hq. rewrite (G q d Hq). unfold last_write. cbn [fold_left fst snd].
    destruct (find (fun p => fst p =? q) (combine ids (repeat v (length ids)))) as [p|] eqn:F.
    + assert (Ep := find_fst _ _ _ _ F). apply find_some in F. destruct F as [F _]. rewrite Ep in F.
      rewrite (proj2 (memZ_iff q ids) (in_combine_l _ _ _ _ F)). apply in_combine_r, repeat_spec in F. exact F.
    + apply (find_combine_none ids _ q L) in F. destruct (memZ q ids) eqn:M; [apply memZ_iff in M; contradiction|reflexivity].
Qed.
Print Assumptions C25_uniform.

(** A concrete sorting routine, so the hypothesis is satisfiable: stable insertion sort. *)
Definition argsortZ (l : list Z) : list nat :=
  let lo := fold_right Z.min 0 l in argsort (map (fun z => Z.to_nat (z - lo)) l).
Lemma argsortZ_sorts : sorts argsortZ.
Proof.
  intros l. unfold argsortZ. set (lo := fold_right Z.min 0 l). set (k := map (fun z => Z.to_nat (z - lo)) l).
  assert (Lo : forall z, In z l -> lo <= z).
  { unfold lo. clear. induction l as [|x t IH]; intros z; [intros []|]. cbn [fold_right]. intros [->|H]; [lia|]. specialize (IH z H). lia. }
  split.
  - replace (length l) with (length k) by (unfold k; apply map_length). apply argsort_perm.
  - assert (S := argsort_sorted k). assert (B := argsort_lt k).
    assert (Lk : length k = length l) by apply map_length.
    assert (E : map (fun i => nth i l 0) (argsort k) = map (fun n => Z.of_nat n + lo) (gather O k (argsort k))).
    { unfold gather. rewrite map_map. apply map_ext_in. intros i Hi. apply B in Hi.
      unfold k. rewrite (nth_map_in (fun z => Z.to_nat (z - lo)) l 0 O) by lia.
      assert (lo <= nth i l 0) by (apply Lo, nth_In; lia). lia. }
    rewrite E. apply StronglySorted_map. clear - S. induction S as [|x t H IH Hf]; constructor; [exact IH|].
    rewrite Forall_forall in *. intros y Hy. specialize (Hf y Hy). lia.
Qed.
Example C25_example :
  (forall u, In u [([5; 2], [50; 20]); ([2; 9], [21; 90])] -> good_update u) /\
  sparse_run 0 argsortZ [([5; 2], [50; 20]); ([2; 9], [21; 90])] = Some {| s_ids := [2; 5; 9]; s_vals := [21; 50; 90] |}.
Proof.
  split; [|reflexivity]. intros u [<-|[<-|[]]]; (split; [|split; [reflexivity|]]);
    try (repeat constructor; cbn; lia); cbn; intros i [<-|[<-|[]]]; unfold int32, two31; lia.
Qed.

(** Beyond 32 bits: a query never written returns another cell's value. *)
Theorem C25_int32_refuted :
  exists (ups : list (list Z * list Z)) st q,
    sparse_run 0 argsortZ ups = Some st /\ (forall u, In u ups -> good_update u) /\
    last_write ups q = None /\ sparse_gather 0 st q (-1) <> -1.
Proof.
  exists [([5; 2], [50; 20])]. eexists. exists (2 + 4294967296).
  split; [vm_compute; reflexivity|]. split; [|split; [reflexivity|vm_compute; discriminate]].
  intros u [<-|[]]. split; [repeat constructor; cbn; lia|]. split; [reflexivity|].
  cbn; intros i [<-|[<-|[]]]; unfold int32, two31; lia.
Qed.
Print Assumptions C25_int32_refuted.

(** Duplicate ids within one update: which value is kept depends on the sorting routine. *)
Theorem C25_duplicates_refuted :
  exists s1 s2 (u : list Z * list Z) st1 st2, sorts s1 /\ sorts s2 /\
    sparse_run 0 s1 [u] = Some st1 /\ sparse_run 0 s2 [u] = Some st2 /\ sparse_gather 0 st1 7 0 <> sparse_gather 0 st2 7 0.
Proof.
  exists argsortZ.
  exists (fun l => match l with [a; b] => if a =? b then [1; 0]%nat else argsortZ l | _ => argsortZ l end).
  exists ([7; 7], [1; 2]). eexists. eexists. split; [apply argsortZ_sorts|]. split.
  - intros l. destruct l as [|a [|b [|c l]]]; try apply argsortZ_sorts. destruct (Z.eqb_spec a b); [|apply argsortZ_sorts].
    subst b. split; [constructor|]. cbn. repeat constructor. lia.
  - split; [vm_compute; reflexivity|]. split; [vm_compute; reflexivity|]. vm_compute. discriminate.
Qed.
Print Assumptions C25_duplicates_refuted.

(** ** C26 *)
(** Cells refer to nodes of the domain. *)
Definition good_domain {P} (dom : domain P) : Prop :=
  0 <= d_nnodes dom /\ forall e n, 0 <= e < d_ncells dom -> In n (d_cells dom e) -> 0 <= n < d_nnodes dom.
Definition good_active {P} (dom : domain P) (active : list Z) : Prop := forall e, In e active -> 0 <= e < d_ncells dom.

Theorem C26_submesh :
  forall (P : Type) (dp : P) (dom : domain P) active,
    let b := narrow_band dom active in
    length (b_cells b) = length active /\
    (forall k, (k < length active)%nat ->
       map (fun j => nth j (b_map b) (-1)) (nth k (b_cells b) []) = d_cells dom (nth k active 0) /\
       map (fun j => nth j (b_points b) dp) (nth k (b_cells b) []) = map (d_point dom) (d_cells dom (nth k active 0))) /\
    (forall n, In n (b_map b) <-> exists e, In e active /\ In n (d_cells dom e)) /\
    StronglySorted Z.lt (b_map b) /\
    (forall j, (j < length (b_map b))%nat <-> exists c, In c (b_cells b) /\ In j c).
Proof.
  intros P dp dom active b.
  assert (CE : forall c n, In c active -> In n (d_cells dom c) ->
    (searchsortedZ (b_map b) n < length (b_map b))%nat /\ forall d, nth (searchsortedZ (b_map b) n) (b_map b) d = n)
    by (intros; eapply cell_entry; eassumption).
  split; [unfold b; cbn; rewrite !map_length; reflexivity|]. split; [|split; [|split]].
  - intros k Hk. unfold b. rewrite nth_b_cells by exact Hk. fold b. rewrite !map_map.
    assert (Ha : In (nth k active 0) active) by (apply nth_In; exact Hk). split.
    + rewrite <- map_id. apply map_ext_in. intros n Hn. apply (CE _ n Ha Hn).
    + apply map_ext_in. intros n Hn. destruct (CE _ n Ha Hn) as [B E].
      change (b_points b) with (map (d_point dom) (b_map b)). rewrite nth_map_in with (d := 0) by exact B. rewrite E. reflexivity.
  - intros n. apply map_in.
  - apply map_sorted.
  - intros j. split.
    + intros Hj. assert (Hin : In (nth j (b_map b) 0) (b_map b)) by (apply nth_In; exact Hj).
      apply map_in in Hin. destruct Hin as (c & Hc & Hn).
      exists (map (searchsortedZ (b_map b)) (d_cells dom c)). split.
      * unfold b. cbn [b_cells narrow_band]. rewrite map_map. apply in_map_iff. exists c. auto.
      * apply in_map_iff. exists (nth j (b_map b) 0). split; [|exact Hn]. apply searchsortedZ_nth; [apply map_sorted|exact Hj].
    + intros (c & Hc & Hj). unfold b in Hc. cbn [b_cells narrow_band] in Hc. rewrite map_map in Hc.
      apply in_map_iff in Hc. destruct Hc as (e & <- & He). apply in_map_iff in Hj. destruct Hj as (n & <- & Hn). apply (CE e n He Hn).
Qed.
Print Assumptions C26_submesh.

Section Fields.
  Context {P A : Type}.
  Variable dom : domain P.
  Variable active : list Z.
  Hypothesis Hd : good_domain dom.
  Hypothesis Ha : good_active dom active.
  Local Notation b := (narrow_band dom active).
  Lemma map_range n : In n (b_map b) -> 0 <= n < d_nnodes dom.
  Proof. intros H. apply map_in in H. destruct H as (c & Hc & Hn). apply (proj2 Hd c n (Ha c Hc) Hn). Qed.
  Lemma map_nat_NoDup : NoDup (map Z.to_nat (b_map b)).
  Proof. apply NoDup_to_nat; [apply StronglySortedZ_NoDup, map_sorted|]. intros x Hx. apply map_range in Hx. lia. Qed.
End Fields.

(** Solution vectors. *)
Theorem C26_sol_round_trip :
  forall (P A : Type) (dom : domain P) active (zero : A) sol vec,
    good_domain dom -> good_active dom active ->
    let b := narrow_band dom active in
    length sol = (length (b_map b) * vec)%nat ->
    exists full, scatter_sol b zero sol vec = Some full /\ length full = (Z.to_nat (d_nnodes dom) * vec)%nat /\
      gather_sol b full vec = Some sol /\
      (forall n c d, 0 <= n < d_nnodes dom -> ~ In n (b_map b) -> (c < vec)%nat -> nth (Z.to_nat n * vec + c) full d = zero).
Proof.
  intros P A dom active zero sol vec Hd Ha b L. unfold scatter_sol. rewrite L, Nat.eqb_refl.
  set (N := Z.to_nat (b_full_nodes b)). set (idx := map Z.to_nat (b_map b)).
  set (out := scatter_set (repeat (repeat zero vec) N) (combine idx (reshape (length (b_map b)) vec sol))).
  assert (EN : N = Z.to_nat (d_nnodes dom)) by reflexivity.
  assert (Lo : length out = N) by (unfold out; rewrite scatter_set_length, repeat_length; reflexivity).
  assert (Li : length idx = length (reshape (length (b_map b)) vec sol)) by (unfold idx; rewrite map_length, reshape_length; reflexivity).
  assert (ND : NoDup idx) by (apply map_nat_NoDup; assumption).
  assert (Ri : forall i, In i idx -> (i < N)%nat).
  { intros i Hi. apply in_map_iff in Hi. destruct Hi as (n & <- & Hn). apply (map_range dom active Hd Ha) in Hn. unfold N. cbn. lia. }
  assert (Rows : forall r, In r out -> length r = vec).
  { intros r Hr. apply (In_nth _ _ []) in Hr. destruct Hr as (i & Hi & <-). rewrite Lo in Hi. unfold out.
    destruct (in_dec Nat.eq_dec i idx) as [Hin|Hni].
    - apply (In_nth _ _ O) in Hin. destruct Hin as (k & Hk & <-).
      rewrite nth_combine_scatter; [|exact ND|exact Li|exact Hk|rewrite repeat_length; exact Hi].
      apply (reshape_row_length (length (b_map b)) vec sol); [lia|]. apply nth_In. rewrite <- Li. exact Hk.
    - rewrite nth_scatter_set_notin by (rewrite combine_map_fst by exact Li; exact Hni).
      rewrite nth_indep with (d' := repeat zero vec) by (rewrite repeat_length; exact Hi).
      rewrite nth_repeat. apply repeat_length. }
  exists (concat out). split; [reflexivity|].
  assert (Lc : length (concat out) = (N * vec)%nat) by (rewrite (concat_const_length out Rows), Lo; reflexivity).
  split; [rewrite <- EN; exact Lc|]. split.
  - unfold gather_sol. fold N. rewrite Lc, Nat.eqb_refl. f_equal.
    assert (E : reshape N vec (concat out) = out) by (rewrite <- Lo; apply reshape_concat, Rows).
    rewrite E. rewrite <- (concat_reshape (length (b_map b)) vec sol L) at 1. f_equal.
    rewrite <- (map_map Z.to_nat (fun i => nth i out [])). apply gather_scatter; [exact ND|exact Li|].
    intros i Hi. rewrite repeat_length. apply Ri, Hi.
  - intros n c d Hn Hni Hc. rewrite nth_concat_rows; [|exact Rows|rewrite Lo; unfold N; cbn; lia|exact Hc].
    unfold out. rewrite nth_scatter_set_notin.
    + rewrite nth_indep with (d' := repeat zero vec) by (rewrite repeat_length; unfold N; cbn; lia).
      rewrite nth_repeat. rewrite nth_indep with (d' := zero) by (rewrite repeat_length; exact Hc). apply nth_repeat.
    + rewrite combine_map_fst by exact Li. intros H. apply Hni. apply in_map_iff in H. destruct H as (m & E & Hm).
      assert (m = n) by (apply (map_range dom active Hd Ha) in Hm; lia). subst. exact Hm.
Qed.
Print Assumptions C26_sol_round_trip.
Theorem C26_sol_gather :
  forall (P A : Type) (dom : domain P) active (sol : list A) vec,
    good_domain dom -> good_active dom active ->
    let b := narrow_band dom active in
    length sol = (Z.to_nat (d_nnodes dom) * vec)%nat ->
    exists s, gather_sol b sol vec = Some s /\ length s = (length (b_map b) * vec)%nat /\
      forall k c d, (k < length (b_map b))%nat -> (c < vec)%nat ->
        nth (k * vec + c) s d = nth (Z.to_nat (nth k (b_map b) 0) * vec + c) sol d.
Proof.
  intros P A dom active sol vec Hd Ha b L. unfold gather_sol.
  change (b_full_nodes b) with (d_nnodes dom). rewrite L, Nat.eqb_refl.
  set (N := Z.to_nat (d_nnodes dom)) in *.
  set (rows := map (fun n => nth (Z.to_nat n) (reshape N vec sol) []) (b_map b)).
  assert (Rn : forall n, In n (b_map b) -> (Z.to_nat n < N)%nat) by (intros n Hn; apply (map_range dom active Hd Ha) in Hn; unfold N; lia).
  assert (Rows : forall r, In r rows -> length r = vec).
  { intros r Hr. apply in_map_iff in Hr. destruct Hr as (n & <- & Hn).
    apply (reshape_row_length N vec sol); [lia|]. apply nth_In. rewrite reshape_length. apply Rn, Hn. }
  assert (Lr : length rows = length (b_map b)) by apply map_length.
  exists (concat rows). split; [reflexivity|]. split; [rewrite (concat_const_length rows Rows), Lr; reflexivity|].
  intros k c d Hk Hc. rewrite nth_concat_rows; [|exact Rows|lia|exact Hc]. unfold rows.
  rewrite nth_map_in with (d := 0) by exact Hk. apply nth_reshape; [lia| |exact Hc]. apply Rn, nth_In, Hk.
Qed.
Print Assumptions C26_sol_gather.

(** Per-cell arrays. The domain has at least two cells (see the refuted variant). *)
Theorem C26_cells_round_trip :
  forall (P A : Type) (dom : domain P) active (vals : list A) fill dflt,
    good_active dom active -> NoDup active -> length vals = length active -> length vals <> 1%nat -> (1 < d_ncells dom) ->
    let b := narrow_band dom active in
    exists full, scatter_cells b vals fill = Some full /\ length full = Z.to_nat (d_ncells dom) /\
      gather_cells b dflt (map (fun x => [x]) full) = Some (map (fun x => [x]) vals) /\
      (forall e d, 0 <= e < d_ncells dom -> ~ In e active -> nth (Z.to_nat e) full d = fill).
Proof.
  intros P A dom active vals fill dflt Ha NDa L L1 Hn b.
  assert (ND : NoDup (map Z.to_nat active)) by (apply NoDup_to_nat; [exact NDa|intros x Hx; apply Ha in Hx; lia]).
  set (N := Z.to_nat (d_ncells dom)).
  set (full := scatter_set (repeat fill N) (combine (map Z.to_nat active) vals)).
  assert (ES : scatter_cells b vals fill = Some full).
  { unfold scatter_cells. change (b_active b) with active. change (b_full_cells b) with (d_ncells dom). fold N.
    destruct vals as [|v [|w t]]; [|cbn in L1; congruence|]; rewrite map_length, L, Nat.eqb_refl; reflexivity. }
  assert (Lf : length full = N) by (unfold full; rewrite scatter_set_length, repeat_length; reflexivity).
  exists full. split; [exact ES|]. split; [exact Lf|]. split.
  - unfold gather_cells. change (b_active b) with active. rewrite map_length, Lf.
    assert (IR : in_rangeZ (Z.of_nat N) active = true).
    { apply forallb_forall. intros e He. apply Ha in He. apply andb_true_iff. rewrite Z.leb_le, Z.ltb_lt. unfold N. lia. }
    rewrite IR.
    assert (E : map (fun i => nth (Z.to_nat i) (map (fun x => [x]) full) []) active = map (fun x => [x]) vals).
    { rewrite <- (gather_scatter (map Z.to_nat active) vals (repeat fill N) dflt ND) at 1.
      - fold full. rewrite !map_map. apply map_ext_in. intros e He.
        rewrite nth_map_in with (d := dflt); [reflexivity|]. apply Ha in He. rewrite Lf. unfold N. lia.
      - rewrite map_length. congruence.
      - intros i Hi. apply in_map_iff in Hi. destruct Hi as (e & <- & He). apply Ha in He. rewrite repeat_length. unfold N. lia. }
    destruct full as [|x [|y t]] eqn:Ef; cbn [map]; cbn in Lf; [lia| |].
    + unfold N in Lf. lia.
    + f_equal. exact E.
  - intros e d He Hni. unfold full. rewrite nth_scatter_set_notin.
    + rewrite nth_indep with (d' := fill) by (rewrite repeat_length; unfold N; lia). apply nth_repeat.
    + rewrite combine_map_fst by (rewrite map_length; congruence). intros H. apply in_map_iff in H. destruct H as (f & E & Hf).
      apply Hni. assert (f = e) by (apply Ha in Hf; lia). subst. exact Hf.
Qed.
Print Assumptions C26_cells_round_trip.
(** On a one-cell domain [squeeze] removes the cell axis: scalar fields raise, others return
    one component instead of the row. *)
Theorem C26_one_cell_refuted :
  exists (dom : domain nat) active, good_active dom active /\ NoDup active /\
    gather_cells (narrow_band dom active) 0%nat [[7%nat]] = None /\
    gather_cells (narrow_band dom active) 0%nat [[7; 8]%nat] = Some [[7%nat]].
Proof.
  exists (mesh_domain 0%nat [[0; 1; 2]] [10; 11; 12]%nat), [0].
  split; [intros e [<-|[]]; cbn; lia|]. split; [repeat constructor; intros []|]. split; reflexivity.
Qed.
Print Assumptions C26_one_cell_refuted.

(** Parameters: [scatter_params] inverts [gather_params] on the band when neither the full nor
    the band counts of cells and nodes coincide. *)
Theorem C26_params :
  forall (P A : Type) (dom : domain P) active (vs : list (list A)) fill dflt,
    good_domain dom -> good_active dom active -> NoDup active ->
    let b := narrow_band dom active in
    length active <> length (b_map b) -> d_ncells dom <> d_nnodes dom ->
    (forall v, In v vs -> Z.of_nat (length v) = d_ncells dom \/ Z.of_nat (length v) = d_nnodes dom) ->
    exists ws us, gather_params b dflt (@nil unit) vs = Some ws /\ scatter_params b fill ws = Some us /\
      length us = length vs /\
      forall k, (k < length vs)%nat ->
        let v := nth k vs [] in let u := nth k us [] in
        length u = length v /\
        (Z.of_nat (length v) = d_ncells dom -> forall e, 0 <= e < d_ncells dom ->
           nth (Z.to_nat e) u dflt = if memZ e active then nth (Z.to_nat e) v dflt else fill) /\
        (Z.of_nat (length v) = d_nnodes dom -> forall n, 0 <= n < d_nnodes dom ->
           nth (Z.to_nat n) u dflt = if memZ n (b_map b) then nth (Z.to_nat n) v dflt else fill).
Proof.
  intros P A dom active vs fill dflt Hd Ha NDa b Hne Hne2.
  assert (ND1 : NoDup (map Z.to_nat active)) by (apply NoDup_to_nat; [exact NDa|intros x Hx; apply Ha in Hx; lia]).
  assert (ND2 : NoDup (map Z.to_nat (b_map b))) by (apply map_nat_NoDup; assumption).
  assert (Mem : forall l e, (forall x, In x l -> 0 <= x) -> 0 <= e -> existsb (Nat.eqb (Z.to_nat e)) (map Z.to_nat l) = memZ e l).
  { intros l e Hl He. apply eq_true_iff_eq. rewrite memZ_iff, existsb_exists. split.
    - intros (x & Hx & E). apply Nat.eqb_eq in E. apply in_map_iff in Hx. destruct Hx as (y & <- & Hy).
      assert (y = e) by (apply Hl in Hy; lia). subst. exact Hy.
    - intros H. exists (Z.to_nat e). split; [apply in_map; exact H|apply Nat.eqb_refl]. }
  assert (One : forall v, Z.of_nat (length v) = d_ncells dom \/ Z.of_nat (length v) = d_nnodes dom ->
    exists w u, gather_var b dflt v = Some w /\ scatter_var b fill w = Some u /\ length u = length v /\
        (Z.of_nat (length v) = d_ncells dom -> forall e, 0 <= e < d_ncells dom ->
           nth (Z.to_nat e) u dflt = if memZ e active then nth (Z.to_nat e) v dflt else fill) /\
        (Z.of_nat (length v) = d_nnodes dom -> forall n, 0 <= n < d_nnodes dom ->
           nth (Z.to_nat n) u dflt = if memZ n (b_map b) then nth (Z.to_nat n) v dflt else fill)).
  { intros v Hv. unfold gather_var, scatter_var.
    change (b_full_cells b) with (d_ncells dom). change (b_full_nodes b) with (d_nnodes dom). change (b_active b) with active.
    destruct (Z.eqb_spec (Z.of_nat (length v)) (d_ncells dom)) as [E|E].
    - eexists. eexists. split; [reflexivity|]. rewrite map_length, Nat.eqb_refl. split; [reflexivity|].
      split; [rewrite scatter_set_length, repeat_length; lia|]. split; [|intros X; congruence]. intros _ e He.
      assert (EM : map (row_at dflt v) active = map (fun i => nth i v dflt) (map Z.to_nat active)) by (rewrite map_map; reflexivity).
      rewrite EM, scatter_gather; [|exact ND1|lia|lia]. rewrite Mem; [reflexivity| |lia]. intros x Hx. apply Ha in Hx. lia.
    - destruct Hv as [Hv|Hv]; [congruence|]. rewrite Hv, Z.eqb_refl. eexists. eexists. split; [reflexivity|].
      rewrite map_length. destruct (Nat.eqb_spec (length (b_map b)) (length active)) as [X|_]; [congruence|]. rewrite Nat.eqb_refl.
      split; [reflexivity|]. split; [rewrite scatter_set_length, repeat_length; lia|]. split; [intros X; congruence|]. intros _ n Hn.
      assert (EM : map (row_at dflt v) (b_map b) = map (fun i => nth i v dflt) (map Z.to_nat (b_map b))) by (rewrite map_map; reflexivity).
      rewrite EM, scatter_gather; [|exact ND2|lia|lia]. rewrite Mem; [reflexivity| |lia].
      intros x Hx. apply (map_range dom active Hd Ha) in Hx. lia. }
  unfold gather_params, scatter_params. induction vs as [|v t IH]; intros Hv.
  - exists [], []. split; [reflexivity|]. split; [reflexivity|]. split; [reflexivity|]. intros k Hk. cbn in Hk. lia.
  - destruct (One v (Hv v (or_introl eq_refl))) as (w & u & E1 & E2 & R).
    destruct (IH (fun x Hx => Hv x (or_intror Hx))) as (ws & us & E3 & E4 & L & Rs).
    exists (w :: ws), (u :: us). split; [cbn [all_vars]; rewrite E1, E3; reflexivity|]. split; [cbn [all_vars]; rewrite E2, E4; reflexivity|].
    split; [cbn; congruence|]. intros [|k] Hk; [exact R|]. cbn [nth]. apply Rs. cbn in Hk. lia.
Qed.
Print Assumptions C26_params.

(** Two adjacent hexagonal fans: ten triangles on ten nodes. A nodal variable gathered to the
    band is scattered back as a cell variable. *)
Definition fan_cells : list (list Z) :=
  [[0; 1; 2]; [0; 2; 3]; [0; 3; 4]; [0; 4; 5]; [0; 5; 6]; [0; 6; 1];
   [1; 6; 7]; [1; 7; 8]; [1; 8; 9]; [1; 9; 2]; [10; 11; 12]].
Definition fan : domain nat := mesh_domain 0%nat fan_cells (seq 0 13).
Lemma fan_good : good_domain fan.
Proof.
  split; [cbn; lia|]. intros e n He Hn. cbn in He.
  assert (D : e = 0 \/ e = 1 \/ e = 2 \/ e = 3 \/ e = 4 \/ e = 5 \/ e = 6 \/ e = 7 \/ e = 8 \/ e = 9 \/ e = 10) by lia.
  change (0 <= n < 13). decompose [or] D; subst; vm_compute in Hn; decompose [or] Hn; subst; try lia; contradiction.
Qed.
Theorem C26_params_counts_refuted :
  exists (dom : domain nat) active (v w u : list nat), good_domain dom /\ good_active dom active /\ NoDup active /\
    Z.of_nat (length v) = d_nnodes dom /\
    gather_params (narrow_band dom active) 0%nat (@nil unit) [v] = Some [w] /\
    scatter_params (narrow_band dom active) 0%nat [w] = Some [u] /\ length u <> length v.
Proof.
  exists fan, [0; 1; 2; 3; 4; 5; 6; 7; 8; 9], (seq 100 13). eexists. eexists.
  split; [apply fan_good|]. split; [intros e H; change (0 <= e < 11); cbn [In] in H; lia|].
  split; [repeat constructor; cbn; lia|]. split; [reflexivity|]. split; [vm_compute; reflexivity|]. split; [vm_compute; reflexivity|].
  vm_compute. discriminate.
Qed.
Print Assumptions C26_params_counts_refuted.
Example C26_example : good_domain fan /\ good_active fan [1; 10] /\ NoDup [1; 10] /\
  b_map (narrow_band fan [1; 10]) = [0; 2; 3; 10; 11; 12] /\ b_cells (narrow_band fan [1; 10]) = [[0; 1; 2]; [3; 4; 5]]%nat.
Proof.
  split; [apply fan_good|]. split; [intros e [<-|[<-|[]]]; cbn; lia|]. split; [repeat constructor; cbn; lia|]. split; reflexivity.
Qed.

(** A structured grid is a good domain, so all of the above applies to it. *)
Theorem C26_grid_domain :
  forall g, positive_dims g -> good_domain (grid_domain g) /\ has_nodes (grid_domain g).
Proof.
  intros g P. split; [split|].
  - cbn. unfold num_nodes. destruct P as (A & B & C). nia.
  - intros e n He Hn. cbn in *. destruct (cell_ijk g e) as [[x y] z] eqn:E. apply (C22_corners g e x y z P He E). exact Hn.
  - intros e He. cbn. unfold cell_to_nodes. destruct (cell_ijk g e) as [[x y] z]. discriminate.
Qed.
Print Assumptions C26_grid_domain.

(** [from_field]: active cells are those reachable from a seed cell by at most [margin] steps
    between node-sharing cells, plus the kept cells. *)
Theorem C26_from_field :
  forall (P : Type) (dom : domain P) seed margin keep, has_nodes dom ->
    forall c, In c (b_active (from_field dom seed margin keep)) <->
      reach dom margin (filter (fun c => match seed with CellSeed f => f c | NodeSeed f => existsb f (d_cells dom c) end) (arangeZ (d_ncells dom))) c \/
      (exists k, keep = Some k /\ In c k).
Proof.
  intros P dom seed margin keep Hn c. unfold from_field. cbn [b_active narrow_band].
  set (s := filter _ _).
  assert (Hs : in_dom dom s) by (intros x Hx; apply filter_In in Hx; apply arangeZ_in; tauto).
  destruct keep as [k|].
  - rewrite uniqueZ_in, in_app_iff, (rings_reach dom margin s c Hn Hs). split.
    + intros [H|H]; [left; exact H|right; exists k; auto].
    + intros [H|(k' & E & H)]; [left; exact H|right; congruence].
  - rewrite (rings_reach dom margin s c Hn Hs). split; [auto|]. intros [H|(k & E & _)]; [exact H|discriminate].
Qed.
Print Assumptions C26_from_field.

(** ** C27 *)
(** In every history of the documented loop, after each iteration the current superset
    contains the guarded active band, provided guard <= margin. *)
Theorem C27_superset :
  forall (P : Type) (dom : domain P) margin guard (actives : list (list Z)) active s,
    has_nodes dom -> (guard <= margin)%nat -> good_active dom active ->
    drive dom margin guard (fold_left (drive dom margin guard) actives None) active = Some s ->
    incl active s /\ incl (dilate_rings dom guard active) s /\
    needs_reextract dom guard (Some s) active = false.
Proof.
  intros P dom margin guard actives active s Hn Hg Ha HD.
  set (st := fold_left (drive dom margin guard) actives None) in *. clearbody st.
  assert (GI : incl (dilate_rings dom guard active) s).
  { unfold drive in HD. destruct (needs_reextract dom guard st active) eqn:N.
    - unfold reextract in HD. injection HD as <-. replace margin with (margin - guard + guard)%nat by lia. apply rings_more; assumption.
    - rewrite HD in N. cbn in N. apply negb_false_iff in N. rewrite forallb_forall in N. intros c Hc. apply memZ_iff, N, Hc. }
  split; [|split; [exact GI|]].
  - eapply incl_tran; [|exact GI]. replace guard with (guard + 0)%nat by lia. apply (rings_more dom 0 guard active Hn Ha).
  - cbn. apply negb_false_iff, forallb_forall. intros c Hc. apply memZ_iff, GI, Hc.
Qed.
Print Assumptions C27_superset.
(** It is rebuilt exactly when the guarded band is not contained in the current superset,
    and rebuilding yields the dilation by [margin]. *)
Theorem C27_rebuild :
  forall (P : Type) (dom : domain P) margin guard s active,
    (needs_reextract dom guard None active = true) /\
    (needs_reextract dom guard (Some s) active = true <-> ~ incl (dilate_rings dom guard active) s) /\
    (incl (dilate_rings dom guard active) s -> drive dom margin guard (Some s) active = Some s) /\
    (~ incl (dilate_rings dom guard active) s -> drive dom margin guard (Some s) active = Some (dilate_rings dom margin active)).
Proof.
  intros P dom margin guard s active. split; [reflexivity|].
  assert (X : needs_reextract dom guard (Some s) active = true <-> ~ incl (dilate_rings dom guard active) s).
  { cbn. rewrite negb_true_iff. split.
    - intros H I. assert (forallb (fun c => memZ c s) (dilate_rings dom guard active) = true) by (apply forallb_forall; intros c Hc; apply memZ_iff, I, Hc). congruence.
    - intros H. destruct (forallb (fun c => memZ c s) (dilate_rings dom guard active)) eqn:E; [|reflexivity].
      exfalso. apply H. intros c Hc. rewrite forallb_forall in E. apply memZ_iff, E, Hc. }
  split; [exact X|]. unfold drive. split; intros H; destruct (needs_reextract dom guard (Some s) active) eqn:E; try reflexivity.
  - exfalso. apply (proj1 X eq_refl). exact H.
  - apply X in H. discriminate.
Qed.
Print Assumptions C27_rebuild.
(** Regardless of the guard, the superset always contains the active cells. *)
Theorem C27_contains_active :
  forall (P : Type) (dom : domain P) margin guard s active s', has_nodes dom -> good_active dom active ->
    drive dom margin guard s active = Some s' -> incl active s'.
Proof.
  intros P dom margin guard s active s' Hn Ha HD.
  assert (X : forall r, incl active (dilate_rings dom r active)).
  { intros r. replace r with (r + 0)%nat by lia. apply (rings_more dom 0 r active Hn Ha). }
  unfold drive in HD. destruct (needs_reextract dom guard s active) eqn:N.
  - unfold reextract in HD. injection HD as <-. apply X.
  - rewrite HD in N. cbn in N. apply negb_false_iff in N. rewrite forallb_forall in N. intros c Hc. apply memZ_iff, N, (X guard), Hc.
Qed.
Print Assumptions C27_contains_active.
(** With guard > margin the manager may ask for re-extraction at every iteration, even right
    after one with the same band. *)
Theorem C27_guard_refuted :
  exists (dom : domain nat) margin guard active s, has_nodes dom /\ good_active dom active /\
    drive dom margin guard None active = Some s /\ needs_reextract dom guard (Some s) active = true.
Proof.
  exists fan, 0%nat, 1%nat, [0]. eexists. split.
  - intros c Hc. cbn in Hc.
    assert (D : c = 0 \/ c = 1 \/ c = 2 \/ c = 3 \/ c = 4 \/ c = 5 \/ c = 6 \/ c = 7 \/ c = 8 \/ c = 9 \/ c = 10) by lia.
    cbn. decompose [or] D; subst; discriminate.
  - split; [intros e [<-|[]]; cbn; lia|]. split; [vm_compute; reflexivity|]. reflexivity.
Qed.
Print Assumptions C27_guard_refuted.
Example C27_example : exists s,
  drive fan 2 1 (fold_left (drive fan 2 1) [[0]; [1]] None) [7] = Some s /\ incl [7] s /\ (1 <= 2)%nat.
Proof. eexists. split; [vm_compute; reflexivity|]. split; [|lia]. intros c [<-|[]]. cbn. tauto. Qed.

(** On a grid the node-adjacency ring equals the box dilation by one cell. *)
Theorem C27_grid_ring :
  forall g cells r, positive_dims g -> cells_of g cells ->
    forall c, In c (dilate_rings (grid_domain g) r cells) <-> In c (dilate_cells g cells (Z.of_nat r)).
Proof.
  intros g cells r P Hc. induction r as [|r IH].
  - intros c. cbn. unfold dilate_cells. cbn. rewrite uniqueZ_in. tauto.
  - intros c. cbn [dilate_rings Nat.iter nat_rect]. change (Nat.iter r (node_adjacent_cells (grid_domain g)) cells) with (dilate_rings (grid_domain g) r cells).
    rewrite Nat2Z.inj_succ. unfold Z.succ. rewrite <- C24_compose by (try assumption; lia).
    destruct (C24_extensive g cells (Z.of_nat r) P Hc ltac:(lia)) as [_ HD].
    rewrite (proj1 (C24_dilate g _ 1 P HD ltac:(lia))), adjacent_in. cbn [d_ncells d_cells grid_domain]. split.
    + intros [B (n & s & X & Y & Z)]. apply IH in Y. split; [exact B|]. exists s. split; [exact Y|].
      apply C22_sharing; [exact P|exact B|apply HD; exact Y|]. exists n. auto.
    + intros [B (s & Y & W)]. split; [exact B|]. apply (C22_sharing g c s P B (HD s Y)) in W. destruct W as (n & X & Z).
      exists n, s. split; [exact X|]. split; [apply IH; exact Y|exact Z].
Qed.
Print Assumptions C27_grid_ring.
