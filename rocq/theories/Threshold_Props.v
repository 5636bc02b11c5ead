(** C60: Heaviside projection and the volume-fraction threshold. *)
From Coq Require Import List Bool Arith ZArith QArith Qminmax Qabs Qround Lia Lqa Permutation Sorted.
From Verif Require Import Base ZArr Graph_Model Oc_Model Oc_Props Filter_Model.
Import ListNotations.
Open Scope Q_scope.

(** ** Specification vocabulary *)
(** tanh is strictly increasing, 0 at 0 and stays within (-1, 1). *)
Definition tanh_like (th : Q -> Q) : Prop :=
  (forall a b, a < b -> th a < th b) /\ (forall a b, a == b -> th a == th b) /\ th 0 == 0 /\ (forall a, -(1) < th a < 1).
Definition distinct (l : list Q) : Prop := forall i j, (i < length l)%nat -> (j < length l)%nat -> i <> j -> ~ nth i l 0 == nth j l 0.
(** Number of entries above t. *)
Definition above (t : Q) (l : list Q) : nat := length (filter (fun r => negb (Qle_bool r t)) l).

(** ** The projection *)
Theorem C60_projection :
  forall th beta thr rho, tanh_like th -> 0 < beta ->
  length (heaviside th beta thr rho) = length rho /\
  forall i, (i < length rho)%nat -> let h := nth i (heaviside th beta thr rho) 0 in let r := nth i rho 0 in
    0 < h < 1 /\ (h < 1 # 2 <-> r < thr) /\ (h == 1 # 2 <-> r == thr) /\ (1 # 2 < h <-> thr < r) /\
    forall j, (j < length rho)%nat -> (nth j rho 0 < r <-> nth j (heaviside th beta thr rho) 0 < h).
Proof.
  intros th beta thr rho (MONO & EXT & Z0 & RNG) B. split; [apply map_length|]. intros i Hi h r. unfold heaviside in *.
  assert (N : forall k, (k < length rho)%nat -> nth k (map (fun r => (th (beta * (r - thr)) + 1) / 2) rho) 0 = (th (beta * (nth k rho 0 - thr)) + 1) / 2).
  { intros k Hk. rewrite (nth_indep _ 0 ((fun r => (th (beta * (r - thr)) + 1) / 2) 0)) by (rewrite map_length; exact Hk).
    apply (map_nth (fun r => (th (beta * (r - thr)) + 1) / 2)). }
  assert (IFF : forall a b, a < b <-> th (beta * (a - thr)) < th (beta * (b - thr))).
  { intros a b. split; intros H.
    - apply MONO. rewrite !(Qmult_comm beta). apply Qmult_lt_compat_r; [exact B|lra].
    - destruct (Q_dec a b) as [[L|G]|E]; [exact L| |].
      + assert (K : th (beta * (b - thr)) < th (beta * (a - thr))) by (apply MONO; rewrite !(Qmult_comm beta); apply Qmult_lt_compat_r; [exact B|lra]). lra.
      + assert (K : th (beta * (a - thr)) == th (beta * (b - thr))) by (apply EXT; rewrite E; reflexivity). lra. }
  assert (TT : th (beta * (thr - thr)) == 0) by (rewrite <- Z0; apply EXT; ring).
  assert (HF : forall x, (x + 1) / 2 == (1 # 2) * x + (1 # 2)) by (intros; field).
  subst h r. rewrite (N i Hi), (HF (th _)). set (x := th (beta * (nth i rho 0 - thr))).
  split; [assert (RG := RNG (beta * (nth i rho 0 - thr))); fold x in RG; lra|].
  assert (L1 := IFF (nth i rho 0) thr). assert (L2 := IFF thr (nth i rho 0)). fold x in L1, L2. rewrite TT in L1, L2.
  split; [rewrite L1; split; lra|]. split; [|split; [rewrite L2; split; lra|]].
  - split; intros H; apply Qle_antisym; apply Qnot_lt_le; intros K.
    + apply L2 in K. lra.
    + apply L1 in K. lra.
    + assert (M : 0 < x) by lra. apply L2 in M. lra.
    + assert (M : x < 0) by lra. apply L1 in M. lra.
  - intros j Hj. rewrite (N j Hj), (HF (th (beta * (nth j rho 0 - thr)))), (IFF (nth j rho 0) (nth i rho 0)). fold x.
    set (y := th (beta * (nth j rho 0 - thr))). clearbody x y. clear -HF. rewrite (HF x). split; intros; lra.
Qed.
Print Assumptions C60_projection.

(** ** Sorting *)
Lemma insertQ_perm x l : Permutation (insertQ x l) (x :: l).
Proof.
  induction l as [|y t IH]; cbn; [reflexivity|]. destruct (Qle_bool x y); [reflexivity|].
  rewrite IH. apply perm_swap.
Qed.
Lemma sortQ_perm l : Permutation (sortQ l) l.
Proof. unfold sortQ. induction l as [|x l IH]; cbn; [reflexivity|]. rewrite insertQ_perm, IH. reflexivity. Qed.
Lemma insertQ_sorted x l : StronglySorted Qle l -> StronglySorted Qle (insertQ x l).
Proof.
  induction 1 as [|y t S IH F]; cbn; [repeat constructor|]. destruct (Qle_bool x y) eqn:E.
  - apply Qle_bool_iff in E. constructor; [constructor; assumption|]. constructor; [exact E|].
    rewrite Forall_forall in *. intros z Hz. specialize (F z Hz). lra.
  - assert (E' : y < x) by (apply Qnot_le_lt; intros Q; apply Qle_bool_iff in Q; congruence).
    constructor; [exact IH|]. rewrite Forall_forall in *. intros z Hz. apply (Permutation_in _ (insertQ_perm x t)) in Hz.
    destruct Hz as [<-|Hz]; [lra|]. apply F, Hz.
Qed.
Lemma sortQ_sorted l : StronglySorted Qle (sortQ l).
Proof. unfold sortQ. induction l as [|x l IH]; cbn; [constructor|]. apply insertQ_sorted, IH. Qed.
Lemma sorted_nth l : StronglySorted Qle l -> forall i j, (i < j < length l)%nat -> nth i l 0 <= nth j l 0.
Proof.
  induction 1 as [|x t S IH F]; intros i j H; cbn in H; [lia|]. destruct j as [|j]; [lia|]. destruct i as [|i]; cbn.
  - rewrite Forall_forall in F. apply F, nth_In. lia.
  - apply IH. lia.
Qed.
Lemma above_perm t l l' : Permutation l l' -> above t l = above t l'.
Proof.
  unfold above. induction 1 as [|x l l' _ IH|x y l|l m n _ IH1 _ IH2]; cbn; [reflexivity| | |congruence].
  - destruct (negb _); cbn; congruence.
  - destruct (negb (Qle_bool x t)), (negb (Qle_bool y t)); reflexivity.
Qed.
(** If exactly the entries from position k on exceed t there are length - k of them. *)
Lemma above_count t : forall l k, (k <= length l)%nat ->
  (forall i, (i < k)%nat -> nth i l 0 <= t) -> (forall i, (k <= i < length l)%nat -> t < nth i l 0) -> above t l = (length l - k)%nat.
Proof.
  unfold above. induction l as [|x l IH]; intros k K LO HI; [reflexivity|]. cbn [filter length] in *. destruct k as [|k].
  - assert (H0 := HI 0%nat ltac:(lia)). cbn in H0. destruct (Qle_bool x t) eqn:E; [apply Qle_bool_iff in E; lra|]. cbn [negb length].
    rewrite (IH 0%nat); [lia|lia|intros; lia|]. intros i Hi. apply (HI (S i)). lia.
  - assert (H0 := LO 0%nat ltac:(lia)). cbn in H0. apply Qle_bool_iff in H0. rewrite H0. cbn [negb].
    rewrite (IH k); [lia|lia| |]; intros i Hi; [apply (LO (S i)); lia|apply (HI (S i)); lia].
Qed.

Lemma distinct_perm l l' : Permutation l l' -> distinct l -> distinct l'.
Proof.
  intros P D i j Hi Hj NE E.
  assert (N : forall l : list Q, distinct l <-> ForallOrdPairs (fun a b => ~ a == b) l).
  { clear. induction l as [|x l IH].
    - split; [constructor|]. intros _ i j H. cbn in H. lia.
    - split; intros H.
      + constructor.
        * rewrite Forall_forall. intros y Hy. destruct (In_nth l y 0 Hy) as (k & Hk & <-). apply (H 0%nat (S k)); cbn; lia.
        * apply IH. intros i j Hi Hj NE. apply (H (S i) (S j)); cbn; lia.
      + inversion H as [|? ? F O]; subst. rewrite Forall_forall in F. intros [|i] [|j] Hi Hj NE; cbn in Hi, Hj |- *; try lia.
        * apply F, nth_In. lia.
        * intros Q. apply (F (nth i l 0)); [apply nth_In; lia|]. symmetry. exact Q.
        * apply IH; try assumption; lia. }
  assert (D' : ForallOrdPairs (fun a b => ~ a == b) l').
  { apply N in D. clear -P D. induction P as [|x l l' P IH|x y l|l m n _ IH1 _ IH2]; auto.
    - inversion D as [|? ? F O]; subst. constructor; [|apply IH; exact O]. rewrite Forall_forall in *. intros z Hz. apply F.
      apply (Permutation_in _ (Permutation_sym P)). exact Hz.
    - inversion D as [|? ? F O]; subst. inversion O as [|? ? F' O']; subst. inversion F as [|? ? F1 F2]; subst. constructor; [|constructor; assumption].
      constructor; [|exact F']. intros Q. apply F1. symmetry. exact Q. }
  apply N in D'. exact (D' i j Hi Hj NE E).
Qed.

(** ** The threshold *)
(** For pairwise different densities the share above the threshold, and so the solid share
    after projection, is ceil(t (n - 1)) / n: within 1 / n of the target t. *)
Theorem C60_fraction :
  forall rho t, distinct rho -> (1 <= length rho)%nat -> 0 <= t <= 1 ->
  let n := inject_Z (Z.of_nat (length rho)) in
  let m := inject_Z (Z.of_nat (above (volume_threshold rho t) rho)) in
  t * (n - 1) <= m /\ m < t * (n - 1) + 1 /\ Qabs (m / n - t) <= 1 / n.
Proof.
  intros rho t D L T n m.
  assert (N1 : 1 <= n) by (unfold n; change 1 with (inject_Z 1); rewrite <- Zle_Qle; lia).
  assert (C : t * (n - 1) <= m /\ m < t * (n - 1) + 1).
  { unfold m, volume_threshold, percentile. set (a := sortQ rho).
    assert (P : Permutation a rho) by apply sortQ_perm. assert (LA : length a = length rho) by (apply Permutation_length; exact P).
    set (idx := (1 - t) * 100 / 100 * inject_Z (Z.of_nat (length rho) - 1)).
    assert (EI : idx == (1 - t) * (n - 1)).
    { unfold idx, n. replace (Z.of_nat (length rho) - 1)%Z with (Z.of_nat (length rho) + -1)%Z by lia. rewrite inject_Z_plus.
      change (inject_Z (-1)) with (- (1)). field. }
    assert (I0 : 0 <= idx) by (rewrite EI; apply Qmult_le_0_compat; lra).
    assert (I1 : idx <= n - 1) by (rewrite EI; assert (0 <= t * (n - 1)) by (apply Qmult_le_0_compat; lra); lra).
    pose proof (Qfloor_le idx) as F1. pose proof (Qlt_floor idx) as F2. rewrite inject_Z_plus in F2. change (inject_Z 1) with 1 in F2.
    pose proof (Qle_ceiling idx) as C1. pose proof (Qceiling_lt idx) as C2.
    set (f := Qfloor idx) in *. set (c := Qceiling idx) in *.
    assert (f0 : (0 <= f)%Z) by (change 0%Z with (Qfloor 0); apply Qfloor_resp_le; exact I0).
    assert (fn : (f <= Z.of_nat (length rho) - 1)%Z).
    { apply Z.lt_succ_r. rewrite Zlt_Qlt. unfold Z.succ. rewrite Z.sub_add. fold n. lra. }
    assert (SO := sortQ_sorted rho). fold a in SO. assert (DA : distinct a) by (apply (distinct_perm rho); [symmetry; exact P|exact D]).
    assert (ST : forall i j, (i < j < length a)%nat -> nth i a 0 < nth j a 0).
    { intros i j H. destruct (Qle_lt_or_eq _ _ (sorted_nth a SO i j H)) as [Q|Q]; [exact Q|exfalso].
      apply (DA i j); try lia. exact Q. }
    set (thr := nth (Z.to_nat f) a 0 * (1 - (idx - inject_Z f)) + nth (Z.to_nat c) a 0 * (idx - inject_Z f)).
    assert (K : nth (Z.to_nat f) a 0 <= thr /\ ((S (Z.to_nat f) < length a)%nat -> thr < nth (S (Z.to_nat f)) a 0)).
    { destruct (Z.eq_dec c f) as [E|E].
      - assert (HW : idx - inject_Z f == 0).
        { rewrite <- E in F1 |- *. lra. }
        unfold thr. rewrite HW, E. split; [lra|]. intros Q. assert (X := ST (Z.to_nat f) (S (Z.to_nat f)) ltac:(lia)). lra.
      - assert (CF : c = (f + 1)%Z).
        { assert (f <= c)%Z by (rewrite Zle_Qle; lra). assert (c - 1 < f + 1)%Z by (rewrite Zlt_Qlt, inject_Z_plus; change (inject_Z 1) with 1; lra). lia. }
        assert (Lc : (S (Z.to_nat f) < length a)%nat).
        { rewrite LA. assert (inject_Z f < idx).
          { destruct (Qle_lt_or_eq _ _ F1) as [Q|Q]; [exact Q|]. exfalso. assert (Qceiling (inject_Z f) = f) by apply Qceiling_Z.
            apply E. unfold c. rewrite <- Q. exact H. }
          assert (f < Z.of_nat (length rho) - 1)%Z; [|lia]. rewrite Zlt_Qlt.
          replace (Z.of_nat (length rho) - 1)%Z with (Z.of_nat (length rho) + -1)%Z by lia. rewrite inject_Z_plus. fold n. change (inject_Z (-1)) with (- (1)). lra. }
        assert (EC : Z.to_nat c = S (Z.to_nat f)) by lia. unfold thr. rewrite EC.
        assert (X := ST (Z.to_nat f) (S (Z.to_nat f)) ltac:(lia)). set (u := nth (Z.to_nat f) a 0) in *. set (v := nth (S (Z.to_nat f)) a 0) in *.
        set (w := idx - inject_Z f) in *. assert (W : 0 <= w < 1) by (unfold w; lra). clearbody u v w.
        assert (0 <= w * (v - u)) by (apply Qmult_le_0_compat; lra).
        assert (0 < (1 - w) * (v - u)) by (apply Qmult_lt_0_compat; lra). split; [lra|]. intros _. lra. }
    destruct K as [K1 K2].
    assert (AC : above thr rho = (length rho - S (Z.to_nat f))%nat).
    { rewrite <- (above_perm thr a rho P), <- LA. apply above_count; [lia| |].
      - intros i Hi. destruct (Nat.eq_dec i (Z.to_nat f)) as [->|NE]; [exact K1|]. assert (X := ST i (Z.to_nat f) ltac:(lia)). lra.
      - intros i Hi. specialize (K2 ltac:(lia)). destruct (Nat.eq_dec i (S (Z.to_nat f))) as [->|NE]; [exact K2|].
        assert (X := ST (S (Z.to_nat f)) i ltac:(lia)). lra. }
    rewrite AC. replace (Z.of_nat (length rho - S (Z.to_nat f))) with (Z.of_nat (length rho) + - (f + 1))%Z by lia.
    rewrite inject_Z_plus, inject_Z_opp, inject_Z_plus. fold n. change (inject_Z 1) with 1. rewrite EI in F1, F2. lra. }
  destruct C as [C1 C2]. split; [exact C1|]. split; [exact C2|].
  setoid_replace (m / n - t) with ((m - t * n) / n) by (field; lra).
  unfold Qdiv. rewrite Qabs_Qmult. rewrite (Qabs_pos (/ n)) by (apply Qinv_le_0_compat; lra).
  apply Qmult_le_compat_r; [|apply Qinv_le_0_compat; lra]. apply Qabs_Qle_condition. lra.
Qed.
Print Assumptions C60_fraction.

(** With ties the share can miss the target completely: a uniform field has nothing above
    its threshold, whatever the target. *)
Theorem C60_ties_refuted :
  exists rho, forall t, 0 <= t <= 1 -> above (volume_threshold rho t) rho = 0%nat.
Proof.
  exists [1 # 2]. intros t T. unfold volume_threshold, percentile. cbn [length].
  assert (E : (1 - t) * 100 / 100 * inject_Z (Z.of_nat 1 - 1) == 0) by (change (inject_Z (Z.of_nat 1 - 1)) with 0; ring).
  assert (F : Qfloor ((1 - t) * 100 / 100 * inject_Z (Z.of_nat 1 - 1)) = 0%Z) by (rewrite E; reflexivity).
  assert (C : Qceiling ((1 - t) * 100 / 100 * inject_Z (Z.of_nat 1 - 1)) = 0%Z) by (rewrite E; reflexivity).
  rewrite F, C. change (sortQ [1 # 2]) with [1 # 2]. cbn [Z.to_nat nth]. set (x := _ * inject_Z (Z.of_nat 1 - 1)) in *.
  change (inject_Z 0) with 0. unfold above. cbn [filter].
  assert (Q : Qle_bool (1 # 2) ((1 # 2) * (1 - (x - 0)) + (1 # 2) * (x - 0)) = true) by (apply Qle_bool_iff; lra).
  rewrite Q. reflexivity.
Qed.
Print Assumptions C60_ties_refuted.

(** And even without ties the target is not met exactly, contrary to the documentation:
    of two different densities only one is above the threshold for t = 1. *)
Theorem C60_exact_refuted :
  exists rho t, distinct rho /\ 0 <= t <= 1 /\ length rho = 2%nat /\ t == 1 /\ above (volume_threshold rho t) rho = 1%nat.
Proof.
  exists [0; 1], 1. split.
  { intros [|[|i]] [|[|j]] Hi Hj NE; cbn in *; try lia; lra. }
  split; [lra|]. split; [reflexivity|]. split; [reflexivity|]. vm_compute. reflexivity.
Qed.
Print Assumptions C60_exact_refuted.

Example C60_example :
  let rho := [3 # 10; 9 # 10; 1 # 10; 5 # 10; 7 # 10] in
  distinct rho /\ volume_threshold rho (1 # 2) == 1 # 2 /\ above (volume_threshold rho (1 # 2)) rho = 2%nat /\
  tanh_like (fun x => x / (1 + Qabs x)).
Proof.
  split.
  { intros [|[|[|[|[|i]]]]] [|[|[|[|[|j]]]]] Hi Hj NE; cbn in *; try lia; lra. }
  split; [vm_compute; reflexivity|]. split; [vm_compute; reflexivity|].
  assert (P : forall x, 0 < 1 + Qabs x) by (intros x; assert (H := Qabs_nonneg x); lra).
  assert (SP : forall x, 0 <= x -> x / (1 + Qabs x) == 1 - 1 / (1 + x)).
  { intros x Hx. rewrite (Qabs_pos x Hx). field. lra. }
  assert (SN : forall x, x <= 0 -> x / (1 + Qabs x) == 1 / (1 - x) - 1).
  { intros x Hx. rewrite (Qabs_neg x Hx). field. lra. }
  assert (INV : forall u v, 0 < u -> u < v -> 1 / v < 1 / u).
  { intros u v U V. apply Qlt_shift_div_r; [lra|]. setoid_replace (1 / u * v) with (v / u) by (field; lra). apply Qlt_shift_div_l; lra. }
  assert (I1 : forall u, 1 <= u -> 0 < 1 / u <= 1).
  { intros u U. split; [apply Qlt_shift_div_l; lra|apply Qle_shift_div_r; lra]. }
  split; [|split; [|split]].
  - intros a b H. destruct (Qlt_le_dec a 0) as [A|A].
    + rewrite (SN a) by lra. destruct (Qlt_le_dec b 0) as [B|B].
      * rewrite (SN b) by lra. assert (X := INV (1 - b) (1 - a) ltac:(lra) ltac:(lra)). lra.
      * rewrite (SP b) by lra. assert (X := I1 (1 + b) ltac:(lra)). assert (Y : 1 / (1 - a) < 1) by (apply Qlt_shift_div_r; lra). lra.
    + rewrite (SP a), (SP b) by lra. assert (X := INV (1 + a) (1 + b) ltac:(lra) ltac:(lra)). lra.
  - intros a b E. rewrite E. reflexivity.
  - reflexivity.
  - intros a. destruct (Qlt_le_dec a 0) as [A|A].
    + rewrite (SN a) by lra. assert (X := I1 (1 - a) ltac:(lra)). lra.
    + rewrite (SP a) by lra. assert (X := I1 (1 + a) ltac:(lra)). lra.
Qed.
