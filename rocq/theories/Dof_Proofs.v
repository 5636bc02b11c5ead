(** Lemmas about the DOF layout. *)
From Verif Require Import Base Csr_Model Assembly_Model Assembly_Proofs Dof_Model Dof_Spec.
From Coq Require Import ZifyBool ZifyNat.
Set Implicit Arguments.

Lemma nth_offsets_from l : forall acc i, i < length l ->
  nth i (offsets_from acc l) 0 = acc + sum_nat (firstn i l).
Proof.
  induction l as [|x t IH]; intros acc i Hi; cbn in Hi; [lia|].
  destruct i as [|i]; cbn; [lia|]. rewrite IH by lia. lia.
Qed.

Lemma offsets_from_length l : forall acc, length (offsets_from acc l) = length l.
Proof. induction l as [|x t IH]; intros acc; cbn; auto. Qed.

Lemma dof_offsets_length L : length (dof_offsets L) = length L.
Proof. unfold dof_offsets, offsets. rewrite offsets_from_length. unfold sizes. apply map_length. Qed.

Lemma nth_dof_offsets L i : i < length L ->
  nth i (dof_offsets L) 0 = sum_nat (firstn i (sizes L)).
Proof.
  intros H. unfold dof_offsets, offsets. rewrite nth_offsets_from; [reflexivity|].
  unfold sizes. rewrite map_length. exact H.
Qed.

Lemma nth_reshape A (d : A) k m l i j :
  k * m <= length l -> i < k -> j < m -> nth j (nth i (reshape k m l) []) d = nth (i * m + j) l d.
Proof.
  revert l i; induction k as [|k IH]; intros l i H Hi Hj; [lia|].
  cbn [reshape]. destruct i as [|i]; cbn [nth].
  - cbn [Nat.mul Nat.add]. clear -Hj. revert l j Hj. induction m as [|m IH]; intros l j Hj; [lia|].
    destruct l as [|x l]; cbn; [destruct j; reflexivity|]. destruct j as [|j]; cbn; [reflexivity|]. apply IH. lia.
  - rewrite IH; [|rewrite skipn_length; cbn in H; lia | lia | lia].
    cbn [Nat.mul]. rewrite <- Nat.add_assoc. clear.
    revert l. generalize (i * m + j) as q. induction m as [|m IH]; intros q l; [reflexivity|].
    destruct l as [|x l]; cbn; [destruct q; reflexivity|]. apply IH.
Qed.

Lemma reshape_length A k m (l : list A) : length (reshape k m l) = k.
Proof. revert l; induction k as [|k IH]; intros l; cbn; auto. Qed.

Lemma reshape_row_length A k m (l : list A) r :
  k * m <= length l -> In r (reshape k m l) -> length r = m.
Proof.
  revert l; induction k as [|k IH]; intros l H; cbn; [tauto|].
  intros [<-|Hr].
  - rewrite firstn_length. cbn in H. lia.
  - apply (IH (skipn m l)); [rewrite skipn_length; cbn in H; lia | exact Hr].
Qed.

Lemma concat_reshape A k m (l : list A) : length l = k * m -> concat (reshape k m l) = l.
Proof.
  revert l; induction k as [|k IH]; intros l H; cbn.
  - destruct l; [reflexivity | cbn in H; lia].
  - rewrite IH; [apply firstn_skipn|]. rewrite skipn_length. cbn in H. lia.
Qed.

Lemma unflatten_length A L (dofs : list A) : length (unflatten L dofs) = length L.
Proof. revert dofs; induction L as [|[n v] t IH]; intros dofs; cbn; auto. Qed.

Lemma total_cons n v L : total_dofs ((n, v) :: L) = n * v + total_dofs L.
Proof. reflexivity. Qed.

Lemma ravel_unflatten A L (dofs : list A) :
  length dofs = total_dofs L -> ravel_list (unflatten L dofs) = dofs.
Proof.
  revert dofs; induction L as [|[n v] t IH]; intros dofs H; cbn.
  - destruct dofs; [reflexivity|discriminate].
  - rewrite total_cons in H.
    rewrite concat_reshape by (rewrite firstn_length; lia).
    unfold ravel_list in IH. rewrite IH by (rewrite skipn_length; lia). apply firstn_skipn.
Qed.

Lemma unflatten_ravel A L (us : list (list (list A))) :
  length us = length L ->
  (forall i, i < length L -> length (nth i us []) = fst (nth i L (0,0)) /\
     forall r, In r (nth i us []) -> length r = snd (nth i L (0,0))) ->
  unflatten L (ravel_list us) = us.
Proof.
  revert us; induction L as [|[n v] t IH]; intros us Hl H; destruct us as [|u us]; try discriminate; [reflexivity|].
  cbn. destruct (H 0 ltac:(cbn; lia)) as [Hn Hv]. cbn in Hn, Hv.
  assert (Lc : length (concat u) = n * v).
  { clear -Hn Hv. subst n. induction u as [|r u IH]; cbn; [reflexivity|].
    rewrite app_length, IH, (Hv r) by (try (left; reflexivity); intros; apply Hv; right; assumption). lia. }
  rewrite firstn_app, Lc, Nat.sub_diag, firstn_O, app_nil_r, firstn_all2 by lia.
  rewrite skipn_app, Lc, Nat.sub_diag, skipn_O, skipn_all2 by lia. cbn [app].
  f_equal.
  - clear -Hn Hv. revert n Hn. induction u as [|r u IH]; intros n Hn; subst n; cbn; [reflexivity|].
    assert (Lr : length r = v) by (apply Hv; left; reflexivity).
    rewrite firstn_app, Lr, Nat.sub_diag, firstn_O, app_nil_r, firstn_all2 by lia.
    rewrite skipn_app, Lr, Nat.sub_diag, skipn_O, skipn_all2 by lia. cbn [app].
    f_equal. apply IH; [intros; apply Hv; right; assumption | reflexivity].
  - apply IH; [cbn in Hl; lia|]. intros i Hi. apply (H (S i)). cbn. lia.
Qed.

Lemma skipn_skipn' A a b (l : list A) : skipn a (skipn b l) = skipn (b + a) l.
Proof.
  revert l; induction b as [|b IH]; intros l; [reflexivity|].
  destruct l as [|x l]; cbn; [destruct a; reflexivity|]. apply IH.
Qed.

Lemma nth_unflatten A L (dofs : list A) i : i < length L ->
  nth i (unflatten L dofs) [] =
  let '(n, v) := nth i L (0, 0) in
  let s := sum_nat (firstn i (sizes L)) in
  reshape n v (slice s (s + n * v) dofs).
Proof.
  revert dofs i; induction L as [|[n v] t IH]; intros dofs i Hi; cbn in Hi; [lia|].
  destruct i as [|i].
  - cbn. unfold slice. rewrite Nat.sub_0_r. reflexivity.
  - cbn [unflatten nth]. rewrite IH by lia. destruct (nth i t (0,0)) as [n' v'].
    cbn [sizes map firstn sum_nat fst snd]. unfold slice. rewrite skipn_skipn'.
    cbv zeta. fold (sizes t).
    set (S := sum_nat (firstn i (sizes t))).
    cbn [sum_nat fold_right].
    replace (S + n' * v' - S) with (n' * v') by lia.
    change (fold_right Nat.add 0 (firstn i (sizes t))) with S.
    replace (n * v + S + n' * v' - (n * v + S)) with (n' * v') by lia. reflexivity.
Qed.

Lemma sum_firstn_le l i : i < length l -> sum_nat (firstn i l) + nth i l 0 <= sum_nat l.
Proof.
  revert i; induction l as [|x t IH]; intros i Hi; cbn in Hi; [lia|].
  destruct i as [|i]; cbn; [lia|]. specialize (IH i). cbn in IH. lia.
Qed.

Lemma nth_sizes L i : nth i (sizes L) 0 = fst (nth i L (0,0)) * snd (nth i L (0,0)).
Proof.
  unfold sizes. destruct (lt_dec i (length L)) as [H|H].
  - rewrite nth_map_in with (d := (0,0)) by exact H. reflexivity.
  - rewrite !nth_overflow; [reflexivity | lia | rewrite map_length; lia].
Qed.

Lemma dof_lt L i a c : valid_dof L i a c -> dof L i a c < total_dofs L.
Proof.
  intros (Hi & Ha & Hc). unfold dof, total_dofs.
  pose proof (@sum_firstn_le (sizes L) i) as H. rewrite nth_sizes in H.
  unfold sizes in H at 1. rewrite map_length in H. specialize (H Hi). nia.
Qed.

Lemma dof_block L i a c : valid_dof L i a c ->
  sum_nat (firstn i (sizes L)) <= dof L i a c < sum_nat (firstn (S i) (sizes L)).
Proof.
  intros (Hi & Ha & Hc). unfold dof.
  assert (E : sum_nat (firstn (S i) (sizes L)) = sum_nat (firstn i (sizes L)) + nth i (sizes L) 0).
  { assert (Hl : i < length (sizes L)) by (unfold sizes; rewrite map_length; exact Hi).
    clear -Hl. revert i Hl. induction (sizes L) as [|x t IH]; intros i Hl; cbn in Hl; [lia|].
    destruct i as [|i]; [cbn; lia|]. specialize (IH i ltac:(lia)).
    change (sum_nat (firstn (S (S i)) (x :: t))) with (x + sum_nat (firstn (S i) t)).
    change (sum_nat (firstn (S i) (x :: t))) with (x + sum_nat (firstn i t)).
    cbn [nth]. lia. }
  rewrite E, nth_sizes. nia.
Qed.

Lemma sum_firstn_mono l i j : i <= j -> sum_nat (firstn i l) <= sum_nat (firstn j l).
Proof.
  revert i j; induction l as [|x t IH]; intros i j H.
  - rewrite !firstn_nil. lia.
  - destruct i as [|i]; [cbn; lia|]. destruct j as [|j]; [lia|].
    change (sum_nat (firstn (S i) (x :: t))) with (x + sum_nat (firstn i t)).
    change (sum_nat (firstn (S j) (x :: t))) with (x + sum_nat (firstn j t)).
    specialize (IH i j). lia.
Qed.

Lemma dof_inj L i a c i' a' c' :
  valid_dof L i a c -> valid_dof L i' a' c' -> dof L i a c = dof L i' a' c' ->
  i = i' /\ a = a' /\ c = c'.
Proof.
  intros V V' E. pose proof (dof_block V) as B. pose proof (dof_block V') as B'.
  assert (Ei : i = i').
  { destruct (lt_eq_lt_dec i i') as [[H|H]|H]; [|exact H|].
    - pose proof (@sum_firstn_mono (sizes L) (S i) i'). lia.
    - pose proof (@sum_firstn_mono (sizes L) (S i') i). lia. }
  subst i'. destruct V as (_ & Ha & Hc), V' as (_ & Ha' & Hc').
  unfold dof in E. assert (a = a') by nia. subst. split; [reflexivity|]. split; [reflexivity|]. lia.
Qed.

Lemma dof_surj L d : d < total_dofs L -> exists i a c, valid_dof L i a c /\ dof L i a c = d.
Proof.
  revert d; induction L as [|[n v] t IH]; intros d Hd; [cbn in Hd; lia|].
  rewrite total_cons in Hd. destruct (lt_dec d (n * v)) as [H|H].
  - exists 0, (d / v), (d mod v). unfold valid_dof, dof. cbn.
    assert (v <> 0) by (intros ->; rewrite Nat.mul_0_r in H; lia).
    pose proof (Nat.mod_upper_bound d v ltac:(assumption)).
    pose proof (Nat.div_mod d v ltac:(assumption)).
    assert (d / v < n) by (apply Nat.div_lt_upper_bound; [assumption | rewrite Nat.mul_comm; exact H]).
    rewrite (Nat.mul_comm (d / v) v). repeat split; first [assumption | lia].
  - destruct (IH (d - n * v) ltac:(lia)) as (i & a & c & (Hi & Ha & Hc) & E).
    exists (S i), a, c. unfold valid_dof. cbn [nth length]. repeat split; try lia.
    assert (E2 : dof ((n, v) :: t) (S i) a c = n * v + dof t i a c).
    { unfold dof. change (sizes ((n, v) :: t)) with (n * v :: sizes t).
      change (sum_nat (firstn (S i) (n * v :: sizes t))) with (n * v + sum_nat (firstn i (sizes t))).
      cbn [nth]. lia. }
    lia.
Qed.

Lemma firstn_skipn_nth A (d : A) s m l j : j < m -> nth j (firstn m (skipn s l)) d = nth (s + j) l d.
Proof.
  intros Hj.
  assert (E : forall (l : list A) m j, j < m -> nth j (firstn m l) d = nth j l d).
  { clear. induction l as [|x t IH]; intros [|m] j Hj; cbn; try lia; [destruct j; reflexivity|].
    destruct j as [|j]; [reflexivity|]. apply IH. lia. }
  rewrite E by exact Hj. clear. revert l; induction s as [|s IH]; intros l; [reflexivity|].
  destruct l as [|x l]; cbn; [destruct j; reflexivity|]. apply IH.
Qed.

Lemma slice_length L i A (dofs : list A) : length dofs = total_dofs L -> i < length L ->
  let s := sum_nat (firstn i (sizes L)) in let m := nth i (sizes L) 0 in
  length (slice s (s + m) dofs) = m.
Proof.
  intros Hl Hi s m. unfold slice. rewrite firstn_length, skipn_length.
  pose proof (@sum_firstn_le (sizes L) i). unfold sizes in H at 1. rewrite map_length in H. specialize (H Hi).
  unfold total_dofs in Hl. fold s in H. fold m in H. lia.
Qed.

Lemma nth_unflatten_entry A (d : A) L dofs i a c : length dofs = total_dofs L ->
  valid_dof L i a c ->
  nth c (nth a (nth i (unflatten L dofs) []) []) d = nth (dof L i a c) dofs d.
Proof.
  intros Hl (Hi & Ha & Hc). rewrite nth_unflatten by exact Hi.
  destruct (nth i L (0,0)) as [n v] eqn:E. cbn [fst snd] in *.
  pose proof (@slice_length L i A dofs Hl Hi) as SL. rewrite nth_sizes, E in SL. cbn in SL.
  rewrite nth_reshape by (try lia).
  unfold slice. rewrite firstn_skipn_nth by nia. unfold dof. rewrite E. cbn [snd]. f_equal. lia.
Qed.

(** The gather of an element solution reads the element's DOFs. *)
Lemma list_as_map A (d : A) l n : length l = n -> l = map (fun c => nth c l d) (seq 0 n).
Proof. intros <-. symmetry. apply map_nth_seq. Qed.

Lemma cell_sol_flat_dofs A (d : A) L dofs conn :
  length dofs = total_dofs L -> length conn = length L ->
  (forall i nd, i < length L -> In nd (nth i conn []) -> nd < fst (nth i L (0,0))) ->
  cell_sol_flat (unflatten L dofs) conn = map (fun k => nth k dofs d) (cell_dofs L conn).
Proof.
  intros Hl Hc Hn.
  unfold cell_sol_flat, ravel_list, cell_dofs, elem_dofs.
  rewrite map_map, flat_map_concat_map, concat_map, map_map.
  f_equal.
  rewrite (combine_as_map (unflatten L dofs) conn [] []) by (rewrite unflatten_length; symmetry; exact Hc).
  rewrite (combine_as_map (combine (map snd L) (dof_offsets L)) conn (0,0) []).
  2:{ rewrite combine_length, map_length, dof_offsets_length. lia. }
  rewrite !map_map, unflatten_length, combine_length, map_length, dof_offsets_length, Nat.min_id.
  apply map_ext_in. intros i Hi. apply in_seq in Hi. cbn [fst snd].
  rewrite combine_nth.
  2:{ rewrite map_length, dof_offsets_length. reflexivity. }
  cbn [fst snd]. rewrite nth_map_in with (d := (0,0)) by lia. rewrite nth_dof_offsets by lia.
  unfold var_dofs. rewrite flat_map_concat_map, concat_map, map_map. f_equal.
  apply map_ext_in. intros nd Hnd. rewrite map_map.
  assert (Hlt : nd < fst (nth i L (0,0))) by (apply Hn; [lia|exact Hnd]).
  set (v := snd (nth i L (0,0))) in *.
  rewrite (list_as_map d (nth nd (nth i (unflatten L dofs) []) []) (n := v)).
  - apply map_ext_in. intros c Hc'. apply in_seq in Hc'.
    rewrite nth_unflatten_entry; [|exact Hl|repeat split; [lia|exact Hlt|fold v; lia]].
    unfold dof. fold v. f_equal. lia.
  - rewrite nth_unflatten by lia.
    pose proof (@slice_length L i A dofs Hl ltac:(lia)) as SL. rewrite nth_sizes in SL.
    subst v. destruct (nth i L (0,0)) as [n v] eqn:E. cbn [fst snd] in *.
    eapply reshape_row_length with (k := n); [rewrite SL; lia|].
    apply nth_In. rewrite reshape_length. exact Hlt.
Qed.
