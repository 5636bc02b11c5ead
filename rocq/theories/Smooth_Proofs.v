(** Lemmas for the coloured smoother. *)
From Coq Require Import ZArith Bool List Arith Ring Lia.
From Verif Require Import Base Cmg_Model.
Import ListNotations.

Lemma edof_length l : length (edof_row l) = 3 * length l.
Proof. unfold edof_row. induction l as [|x t IH]; [reflexivity|]. cbn [flat_map app length]. rewrite IH. lia. Qed.
Lemma edof_nth l : forall k c, k < length l -> c < 3 -> nth (3 * k + c) (edof_row l) 0 = 3 * nth k l 0 + c.
Proof.
  induction l as [|x t IH]; intros k c Hk Hc; [cbn in Hk; lia|]. destruct k as [|k].
  - cbn [edof_row flat_map app nth]. destruct c as [|[|[|c]]]; [cbn; lia|cbn; lia|cbn; lia|lia].
  - replace (3 * S k + c) with (S (S (S (3 * k + c)))) by lia. cbn [edof_row flat_map app nth]. apply IH; [cbn in Hk; lia|exact Hc].
Qed.
Lemma div3 n c : c < 3 -> (3 * n + c) / 3 = n /\ (3 * n + c) mod 3 = c.
Proof.
  intros H. split; [symmetry; apply (Nat.div_unique _ 3 n c)|symmetry; apply (Nat.mod_unique _ 3 n c)]; lia.
Qed.
Lemma mod3 i : i = 3 * (i / 3) + i mod 3 /\ i mod 3 < 3.
Proof. split; [apply Nat.div_mod; discriminate|apply Nat.mod_upper_bound; discriminate]. Qed.

Section S.
  Variable K : CRing.
  Add Ring Kring : (cth K).
  Local Open Scope ring_K.
  Lemma sumf3 (f : nat -> K) m : sumf f (seq 0 (3 * m)%nat) = sumf (fun k => sumf (fun c => f (3 * k + c)%nat) (seq 0 3)) (seq 0 m).
  Proof.
    induction m as [|m IH]; [reflexivity|]. replace (3 * S m)%nat with (3 * m + 3)%nat by lia. rewrite (seq_app (3 * m) 3 0), sumf_app, IH.
    replace (S m) with (m + 1)%nat by lia. rewrite (seq_app m 1 0), sumf_app. f_equal.
    cbn [seq Nat.add sumf]. replace (3 * m + 0)%nat with (3 * m)%nat by lia. replace (3 * m + 1)%nat with (S (3 * m)) by lia.
    replace (3 * m + 2)%nat with (S (S (3 * m))) by lia. ring.
  Qed.

  Lemma sum3 (g : nat -> K) : sumf g (seq 0 3) = g 0%nat + (g 1%nat + (g 2%nat + 0)).
  Proof. reflexivity. Qed.

  Variable cn : list (list nat).
  Variable E : list K.
  Variable KE : nat -> nat -> K.
  Variable free_node : nat -> bool.
  Variable nn : nat.
  Variable D : nat -> nat -> nat -> K.
  Local Notation free := (free K free_node).
  Local Notation mv := (mv K cn E KE free_node nn).
  Local Notation residual := (residual K cn E KE free_node nn).
  Local Notation correct := (correct K cn E KE free_node nn D).
  Local Notation colour_step := (colour_step K cn E KE free_node nn D).
  Local Notation node_step := (node_step K cn E KE free_node nn D).
  Local Notation block := (block K cn E KE free_node).

  (** The value of the operator at component [c] of node [n]. *)
  Definition raw (u : nat -> K) (n c : nat) : K :=
    sumf (fun e => let row := nth e cn [] in
      sumf (fun k => if Nat.eqb (nth k row 0%nat) n then
        get E e * sumf (fun k' => sumf (fun c' => u (3 * nth k' row 0 + c')%nat * KE (3 * k' + c')%nat (3 * k + c)%nat) (seq 0 3)) (seq 0 (length row))
        else 0) (seq 0 (length row))) (seq 0 (length cn)).
  Lemma free_at n c : (c < 3)%nat -> free (3 * n + c) = if free_node n then 1 else 0.
  Proof. intros H. unfold Cmg_Model.free. rewrite (proj1 (div3 n c H)). reflexivity. Qed.
  Lemma mv_raw u n c : (n < nn)%nat -> (c < 3)%nat -> get (mv u) (3 * n + c) = raw (get u) n c * free (3 * n + c).
  Proof.
    intros Hn Hc. unfold Cmg_Model.mv. cbv zeta. unfold get at 1.
    rewrite (nth_map_in _ _ 0%nat 0) by (rewrite seq_length; lia). rewrite seq_nth by lia. cbn [Nat.add]. f_equal.
    rewrite get_scatter_add by (unfold zeros; rewrite repeat_length; lia). rewrite get_zeros, sumf_flat_map. unfold raw.
    match goal with |- 0 + ?x = ?y => transitivity x; [ring|] end.
    apply sumf_ext. intros e He. unfold elem_out. rewrite sumf_map. cbn [fst snd]. unfold edof. rewrite edof_length, sumf3. cbv zeta.
    apply sumf_ext. intros k Hk. apply in_seq in Hk. rewrite sum3.
    rewrite !edof_nth by lia.
    set (X := fun c1 : nat => get E e * sumf (fun b => get u (nth b (edof_row (nth e cn [])) 0%nat) * KE b (3 * k + c1)%nat) (seq 0 (3 * length (nth e cn []))%nat)).
    assert (HX : forall c1, X c1 = get E e * sumf (fun k' => sumf (fun c' => get u (3 * nth k' (nth e cn []) 0 + c')%nat * KE (3 * k' + c')%nat (3 * k + c1)%nat) (seq 0 3)) (seq 0 (length (nth e cn [])))).
    { intros c1. unfold X. f_equal. rewrite sumf3. apply sumf_ext. intros k' Hk'. apply in_seq in Hk'. apply sumf_ext. intros c' Hc'. apply in_seq in Hc'.
      rewrite edof_nth by lia. reflexivity. }
    fold (X 0%nat). fold (X 1%nat). fold (X 2%nat).
    destruct (Nat.eqb_spec (nth k (nth e cn []) 0%nat) n) as [Q|Q].
    - rewrite Q. rewrite <- HX. destruct c as [|[|[|c]]]; [| | |lia];
        repeat match goal with |- context [Nat.eqb ?x ?y] => destruct (Nat.eqb_spec x y); [try lia|try lia] end; ring.
    - repeat match goal with |- context [Nat.eqb ?x ?y] => destruct (Nat.eqb_spec x y); [lia|] end. ring.
  Qed.
  Lemma raw_local u u' n c :
    (forall e k k' c', (e < length cn)%nat -> (k < length (nth e cn []))%nat -> (k' < length (nth e cn []))%nat -> (c' < 3)%nat ->
       nth k (nth e cn []) 0%nat = n -> u (3 * nth k' (nth e cn []) 0 + c')%nat = u' (3 * nth k' (nth e cn []) 0 + c')%nat) ->
    raw u n c = raw u' n c.
  Proof.
    intros H. unfold raw. apply sumf_ext. intros e He. apply in_seq in He. cbv zeta. apply sumf_ext. intros k Hk. apply in_seq in Hk.
    destruct (Nat.eqb_spec (nth k (nth e cn []) 0%nat) n) as [Q|Q]; [|reflexivity]. f_equal. apply sumf_ext. intros k' Hk'. apply in_seq in Hk'.
    apply sumf_ext. intros c' Hc'. apply in_seq in Hc'. rewrite (H e k k' c') by (try exact Q; lia). reflexivity.
  Qed.
  Lemma raw_add u v n c : raw (fun i => u i + v i) n c = raw u n c + raw v n c.
  Proof.
    unfold raw. rewrite <- sumf_add. apply sumf_ext. intros e He. cbv zeta. rewrite <- sumf_add. apply sumf_ext. intros k Hk.
    destruct (Nat.eqb (nth k (nth e cn []) 0%nat) n); [|ring].
    transitivity (get E e * (sumf (fun k' => sumf (fun c' => u (3 * nth k' (nth e cn []) 0 + c')%nat * KE (3 * k' + c')%nat (3 * k + c)%nat) (seq 0 3)) (seq 0 (length (nth e cn [])))
      + sumf (fun k' => sumf (fun c' => v (3 * nth k' (nth e cn []) 0 + c')%nat * KE (3 * k' + c')%nat (3 * k + c)%nat) (seq 0 3)) (seq 0 (length (nth e cn []))))); [|ring].
    f_equal. rewrite <- sumf_add. apply sumf_ext. intros k' Hk'. rewrite <- sumf_add. apply sumf_ext. intros c' Hc'. ring.
  Qed.
  Lemma get_colour_step col b u i : (i < 3 * nn)%nat ->
    get (colour_step col b u) i = (get u i + (if col (i / 3)%nat then correct b u i else 0)) * free i.
  Proof.
    intros Hi. unfold Cmg_Model.colour_step, get at 1. rewrite (nth_map_in _ _ 0%nat 0) by (rewrite seq_length; exact Hi).
    rewrite seq_nth by exact Hi. reflexivity.
  Qed.
  Lemma colour_step_length col b u : length (colour_step col b u) = (3 * nn)%nat.
  Proof. unfold Cmg_Model.colour_step. rewrite map_length, seq_length. reflexivity. Qed.
  Lemma free_idem i : free i * free i = free i.
  Proof. unfold Cmg_Model.free. destruct (free_node (i / 3)); ring. Qed.

  (** The nodes of a cell are distinct, in range, and a colour meets a cell at most once. *)
  Definition cells_wf : Prop := forall e, (e < length cn)%nat -> NoDup (nth e cn []) /\ forall n, In n (nth e cn []) -> (n < nn)%nat.
  Definition separated (P : nat -> Prop) : Prop :=
    forall e n n', (e < length cn)%nat -> In n (nth e cn []) -> In n' (nth e cn []) -> P n -> P n' -> n = n'.
  Definition masked (u : list K) : Prop := length u = (3 * nn)%nat /\ forall i, (i < 3 * nn)%nat -> get u i * free i = get u i.

  Lemma correct_eq b u u' n c : cells_wf -> (n < nn)%nat -> (c < 3)%nat ->
    (forall e n' c', (e < length cn)%nat -> In n (nth e cn []) -> In n' (nth e cn []) -> (c' < 3)%nat -> get u (3 * n' + c') = get u' (3 * n' + c')) ->
    correct b u (3 * n + c) = correct b u' (3 * n + c).
  Proof.
    intros W Hn Hc H. unfold Cmg_Model.correct. destruct (div3 n c Hc) as [-> ->]. apply sumf_ext. intros c' Hc'. apply in_seq in Hc'. f_equal.
    unfold Cmg_Model.residual. f_equal. f_equal. rewrite !mv_raw by lia. f_equal. apply raw_local.
    intros e k k' c0 He Hk Hk' Hc0 Q. apply (H e); [exact He| | |exact Hc0]; [rewrite <- Q|]; apply nth_In; assumption.
  Qed.

  (** A colour at once or node after node is the same. *)
  Lemma colour_sequential b u : forall ns, cells_wf -> masked u -> NoDup ns -> (forall n, In n ns -> (n < nn)%nat) ->
    separated (fun n => In n ns) -> ns <> [] ->
    fold_left (node_step b) ns u = colour_step (fun n => if in_dec Nat.eq_dec n ns then true else false) b u.
  Proof.
    intros ns W [Lu M]. induction ns as [|n ns IH] using rev_ind; intros ND R S NE; [congruence|].
    rewrite fold_left_app. cbn [fold_left]. clear NE.
    assert (NDn : NoDup ns /\ ~ In n ns).
    { apply NoDup_rev in ND. rewrite rev_app_distr in ND. cbn in ND. inversion ND as [|x l A B Eq]; subst. split.
      - apply NoDup_rev in B. rewrite rev_involutive in B. exact B.
      - intros Hin. apply A. rewrite <- in_rev. exact Hin. }
    destruct NDn as [ND' Hn].
    set (v := fold_left (node_step b) ns u).
    assert (V : forall i, (i < 3 * nn)%nat -> get v i = get u i + (if in_dec Nat.eq_dec (i / 3)%nat ns then correct b u i * free i else 0)).
    { intros i Hi. unfold v. destruct ns as [|m t].
      - cbn [fold_left]. destruct (in_dec Nat.eq_dec (i / 3)%nat []) as [[]|_]. ring.
      - rewrite IH.
        + rewrite get_colour_step by exact Hi. rewrite <- (M i Hi) at 2. destruct (in_dec Nat.eq_dec (i / 3)%nat (m :: t)); ring.
        + exact ND'.
        + intros x Hx. apply R. apply in_or_app. left. exact Hx.
        + intros e x y He Hx Hy Px Py. apply (S e); [exact He|exact Hx|exact Hy| |]; apply in_or_app; left; assumption.
        + discriminate. }
    apply (nth_ext _ _ 0 0); [unfold Cmg_Model.node_step; rewrite !colour_step_length; reflexivity|].
    intros i Hi. unfold Cmg_Model.node_step in Hi. rewrite colour_step_length in Hi.
    change (get (node_step b v n) i = get (colour_step (fun n0 => if in_dec Nat.eq_dec n0 (ns ++ [n]) then true else false) b u) i).
    unfold Cmg_Model.node_step. rewrite !get_colour_step by exact Hi. rewrite (V i Hi).
    assert (I := mod3 i). destruct I as [I1 I2].
    destruct (Nat.eqb_spec n (i / 3)) as [Q|Q].
    - destruct (in_dec Nat.eq_dec (i / 3)%nat ns) as [F|_]; [exfalso; apply Hn; rewrite Q; exact F|].
      destruct (in_dec Nat.eq_dec (i / 3)%nat (ns ++ [n])) as [_|F]; [|exfalso; apply F, in_or_app; right; left; exact Q].
      assert (C : correct b v i = correct b u i).
      { rewrite I1, <- Q. apply (correct_eq b v u n (i mod 3)%nat W); [apply R, in_or_app; right; left; reflexivity|exact I2|].
        intros e n' c' He Hin Hin' Hc'. assert (Hn' : (n' < nn)%nat) by (apply (proj2 (W e He)); exact Hin').
        rewrite V by lia. rewrite (proj1 (div3 n' c' Hc')). destruct (in_dec Nat.eq_dec n' ns) as [F|_]; [|ring].
        exfalso. assert (n = n'); [|subst; contradiction]. apply (S e); [exact He|exact Hin|exact Hin'| |]; apply in_or_app; [right; left; reflexivity|left; exact F]. }
      rewrite C. ring.
    - destruct (in_dec Nat.eq_dec (i / 3)%nat ns) as [F|F].
      + destruct (in_dec Nat.eq_dec (i / 3)%nat (ns ++ [n])) as [_|G]; [|exfalso; apply G, in_or_app; left; exact F].
        transitivity (get u i * free i + correct b u i * (free i * free i)); [ring|]. rewrite free_idem. ring.
      + destruct (in_dec Nat.eq_dec (i / 3)%nat (ns ++ [n])) as [G|_]; [|ring].
        apply in_app_or in G. destruct G as [G|[G|[]]]; [contradiction|congruence].
  Qed.

  (** After the step the equations of every node of the colour hold. *)
  Lemma colour_exact col b u :
    cells_wf -> masked u -> separated (fun n => col n = true) ->
    (forall a c, KE a c = KE c a) ->
    (forall n a c, (n < nn)%nat -> (a < 3)%nat -> (c < 3)%nat -> sumf (fun x => block n a x * D n x c) (seq 0 3) = if Nat.eqb a c then 1 else 0) ->
    forall n c, (n < nn)%nat -> (c < 3)%nat -> col n = true -> residual b (colour_step col b u) (3 * n + c) = 0.
  Proof.
    intros W [Lu M] S Sym Inv n c Hn Hc Hcol. unfold Cmg_Model.residual. rewrite free_at by exact Hc.
    destruct (free_node n) eqn:F; [|ring]. rewrite mv_raw, free_at, F by assumption.
    set (du := fun i => if col (i / 3)%nat then correct b u i * free i else 0).
    assert (R1 : raw (get (colour_step col b u)) n c = raw (fun i => get u i + du i) n c).
    { apply raw_local. intros e k k' c' He Hk Hk' Hc' Q.
      assert (Hk2 : (nth k' (nth e cn []) 0 < nn)%nat) by (apply (proj2 (W e He)), nth_In; exact Hk').
      rewrite get_colour_step by lia. rewrite <- (M (3 * nth k' (nth e cn []) 0 + c')%nat) at 2 by lia. unfold du.
      destruct (col ((3 * nth k' (nth e cn []) 0 + c') / 3)%nat); ring. }
    rewrite R1, raw_add.
    assert (R2 : raw du n c = sumf (fun x => block n c x * correct b u (3 * n + x)) (seq 0 3)).
    { unfold Cmg_Model.block. rewrite F. unfold raw.
      transitivity (sumf (fun e => sumf (fun x => sumf (fun k => if Nat.eqb (nth k (nth e cn []) 0%nat) n then get E e * KE (3 * k + c)%nat (3 * k + x)%nat else 0)
                          (seq 0 (length (nth e cn []))) * correct b u (3 * n + x)) (seq 0 3)) (seq 0 (length cn))).
      2:{ rewrite sumf_swap. apply sumf_ext. intros x Hx. rewrite sumf_mul_r. reflexivity. }
      apply sumf_ext. intros e He. apply in_seq in He. cbv zeta.
      transitivity (sumf (fun k => sumf (fun x => (if Nat.eqb (nth k (nth e cn []) 0%nat) n then get E e * KE (3 * k + c)%nat (3 * k + x)%nat else 0) * correct b u (3 * n + x)) (seq 0 3)) (seq 0 (length (nth e cn [])))).
      2:{ rewrite sumf_swap. apply sumf_ext. intros x Hx. rewrite sumf_mul_r. reflexivity. }
      apply sumf_ext. intros k Hk. apply in_seq in Hk.
      destruct (Nat.eqb_spec (nth k (nth e cn []) 0%nat) n) as [Q|Q].
      2:{ symmetry. apply sumf_zero. intros x Hx. ring. }
      transitivity (get E e * sumf (fun x => correct b u (3 * n + x) * KE (3 * k + x)%nat (3 * k + c)%nat) (seq 0 3)).
      2:{ rewrite <- sumf_mul_l. apply sumf_ext. intros x Hx. rewrite (Sym (3 * k + x)%nat). ring. }
      f_equal. destruct (W e ltac:(lia)) as [NDe Re].
      transitivity (sumf (fun k' => if Nat.eqb k' k then sumf (fun c' => du (3 * nth k' (nth e cn []) 0 + c')%nat * KE (3 * k' + c')%nat (3 * k + c)%nat) (seq 0 3) else 0) (seq 0 (length (nth e cn [])))).
      2:{ rewrite sumf_single_nat by lia. apply sumf_ext. intros x Hx. apply in_seq in Hx. rewrite Q. unfold du. rewrite (proj1 (div3 n x ltac:(lia))), Hcol, free_at, F by lia. ring. }
      apply sumf_ext. intros k' Hk'. apply in_seq in Hk'. destruct (Nat.eqb_spec k' k) as [_|Hne]; [reflexivity|]. apply sumf_zero. intros x Hx. apply in_seq in Hx. unfold du.
        rewrite (proj1 (div3 (nth k' (nth e cn []) 0%nat) x ltac:(lia))). destruct (col (nth k' (nth e cn []) 0%nat)) eqn:CC; [|ring].
        exfalso. apply Hne. apply (proj1 (NoDup_nth (nth e cn []) 0%nat) NDe k' k); [lia|lia|].
        rewrite Q. apply (S e); [lia|apply nth_In; lia|rewrite <- Q; apply nth_In; lia|exact CC|exact Hcol]. }
    rewrite R2.
    assert (R3 : sumf (fun x => block n c x * correct b u (3 * n + x)) (seq 0 3) = residual b u (3 * n + c)).
    { transitivity (sumf (fun x => sumf (fun y => block n c x * D n x y * residual b u (3 * n + y)) (seq 0 3)) (seq 0 3)).
      { apply sumf_ext. intros x Hx. apply in_seq in Hx. unfold Cmg_Model.correct. destruct (div3 n x ltac:(lia)) as [-> ->].
        rewrite <- sumf_mul_l. apply sumf_ext. intros y Hy. ring. }
      rewrite sumf_swap. transitivity (sumf (fun y => (if Nat.eqb c y then 1 else 0) * residual b u (3 * n + y)) (seq 0 3)).
      { apply sumf_ext. intros y Hy. apply in_seq in Hy. rewrite sumf_mul_r, (Inv n c y) by lia. reflexivity. }
      destruct c as [|[|[|c]]]; [| | |lia]; cbn [seq sumf Nat.eqb]; ring. }
    rewrite R3. unfold Cmg_Model.residual. rewrite mv_raw, free_at, F by assumption. ring.
  Qed.
End S.
