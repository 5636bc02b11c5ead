(** Proofs about the periodic pairings of a unit cell. *)
From Coq Require Import ZArith List Bool Lia Permutation ZifyBool ZifyNat.
From Verif Require Import Base Pbc_Model Pbc_Spec Pbc_Proofs Pbc_Props UnitCell_Model UnitCell_Spec.
Import ListNotations.
Local Open Scope list_scope. Local Open Scope Z_scope.

Inductive side : Type := Lo | Hi | Mid.
Definition side_eq_dec (a b : side) : {a = b} + {a <> b}. Proof. decide equality. Defined.

Lemma sumsq_scale n (f : nat -> Z) l :
  fold_right Z.add 0 (map (fun k => (n * f k) ^ 2) l) = n ^ 2 * fold_right Z.add 0 (map (fun k => f k ^ 2) l).
Proof. induction l as [|k l IH]; cbn [map fold_right]; [lia|]. rewrite IH. ring. Qed.
Lemma sumsq_zero (f : nat -> Z) l : (forall k, In k l -> f k = 0) ->
  fold_right Z.add 0 (map (fun k => f k ^ 2) l) = 0.
Proof.
  induction l as [|k l IH]; intros H; [reflexivity|]. cbn [map fold_right].
  rewrite IH by (intros; apply H; cbn; auto). rewrite (H k) by (cbn; auto). reflexivity.
Qed.

Section Cell.
  Variable points : list (list Z).
  Variable dim : nat.
  Variables atol atol0 eps : Z.
  Variables lo hi : nat -> Z.
  Hypothesis HC : cell_mesh points dim lo hi.
  Hypothesis HR : resolved points dim atol atol0 eps.
  Hypothesis HP : periodic_mesh points dim lo hi.

  Lemma pts_len p : In p points -> length p = dim. Proof. apply HC. Qed.
  Lemma pts_nodup : NoDup points. Proof. apply HC. Qed.
  Lemma lo_hi k : (k < dim)%nat -> lo k < hi k. Proof. apply HC. Qed.
  Lemma lo_pt k : (k < dim)%nat -> exists p, In p points /\ coord p k = lo k.
  Proof. intros Hk. apply (proj1 (proj2 (proj2 HC)) k Hk). Qed.
  Lemma hi_pt k : (k < dim)%nat -> exists p, In p points /\ coord p k = hi k.
  Proof. intros Hk. apply (proj1 (proj2 (proj2 HC)) k Hk). Qed.

  Lemma fold_min_spec k ps z :
    let m := fold_left (fun m q => Z.min m (coord q k)) ps z in
    m <= z /\ (forall p, In p ps -> m <= coord p k) /\ (m = z \/ exists p, In p ps /\ m = coord p k).
  Proof using.
    revert z. induction ps as [|p ps IH]; intros z; cbn.
    - split; [lia|]. split; [intros ? []|]. auto.
    - destruct (IH (Z.min z (coord p k))) as (H1 & H2 & H3). split; [lia|]. split.
      + intros q [<-|Hq]; [lia|auto].
      + destruct H3 as [H3|(q & Hq & H3)]; [|right; exists q; auto].
        destruct (Z_le_gt_dec z (coord p k)); [left; lia|right; exists p; split; [auto|lia]].
  Qed.
  Lemma fold_max_spec k ps z :
    let m := fold_left (fun m q => Z.max m (coord q k)) ps z in
    z <= m /\ (forall p, In p ps -> coord p k <= m) /\ (m = z \/ exists p, In p ps /\ m = coord p k).
  Proof using.
    revert z. induction ps as [|p ps IH]; intros z; cbn.
    - split; [lia|]. split; [intros ? []|]. auto.
    - destruct (IH (Z.max z (coord p k))) as (H1 & H2 & H3). split; [lia|]. split.
      + intros q [<-|Hq]; [lia|auto].
      + destruct H3 as [H3|(q & Hq & H3)]; [|right; exists q; auto].
        destruct (Z_le_gt_dec (coord p k) z); [left; lia|right; exists p; split; [auto|lia]].
  Qed.

  Lemma lb_lo k : (k < dim)%nat -> lb points k = lo k.
  Proof using HC.
    clear HR HP. intros Hk. destruct (proj1 (proj2 (proj2 HC)) k Hk) as (B & (p & Hp & Ep) & _).
    unfold lb. destruct points as [|a ps]; [destruct Hp|].
    destruct (fold_min_spec k ps (coord a k)) as (H1 & H2 & H3). set (m := fold_left _ ps _) in *.
    assert (m <= lo k). { rewrite <- Ep. destruct Hp as [<-|Hp]; [exact H1|apply H2, Hp]. }
    assert (lo k <= m). { destruct H3 as [->|(q & Hq & ->)]; apply B; [left; auto|right; auto]. }
    lia.
  Qed.
  Lemma ub_hi k : (k < dim)%nat -> ub points k = hi k.
  Proof using HC.
    clear HR HP. intros Hk. destruct (proj1 (proj2 (proj2 HC)) k Hk) as (B & _ & (p & Hp & Ep)).
    unfold ub. destruct points as [|a ps]; [destruct Hp|].
    destruct (fold_max_spec k ps (coord a k)) as (H1 & H2 & H3). set (m := fold_left _ ps _) in *.
    assert (hi k <= m). { rewrite <- Ep. destruct Hp as [<-|Hp]; [exact H1|apply H2, Hp]. }
    assert (m <= hi k). { destruct H3 as [->|(q & Hq & ->)]; apply B; [left; auto|right; auto]. }
    lia.
  Qed.

  (** Below the resolution the tolerant comparison is equality. *)
  Lemma isclose_eq t p k v : t <= Z.max atol atol0 -> In p points -> (k < dim)%nat ->
    (exists q, In q points /\ coord q k = v) -> 0 <= t -> isclose t (coord p k) v = (coord p k =? v).
  Proof.
    intros Ht Hp Hk (q & Hq & <-) H0. unfold isclose. destruct (Z.eqb_spec (coord p k) (coord q k)) as [E|E].
    - rewrite E, Z.sub_diag. apply Z.leb_le. change (Z.abs 0) with 0. lia.
    - apply Z.leb_gt. pose proof (proj1 (proj2 HR) p q k Hp Hq Hk E) as X. unfold coord in *. lia.
  Qed.

  (** ** Sides *)
  Definition side_of (p : list Z) (k : nat) : side :=
    if coord p k =? lo k then Lo else if coord p k =? hi k then Hi else Mid.
  Definition sig (p : list Z) : list side := map (side_of p) (seq 0 dim).
  Definition lower1 (s : side) : side := match s with Hi => Lo | Lo => Lo | Mid => Mid end.
  Definition lower (pat : list side) : list side := map lower1 pat.
  Definition shift_by (pat : list side) (k : nat) : Z := match nth k pat Mid with Hi => hi k - lo k | _ => 0 end.
  Definition shift (pat : list side) (p : list Z) : list Z := map (fun k => coord p k + shift_by pat k) (seq 0 dim).
  Definition canon (p : list Z) : list Z := map (fun k => if coord p k =? hi k then lo k else coord p k) (seq 0 dim).

  Lemma nth_map_seq {A} (f : nat -> A) k d : (k < dim)%nat -> nth k (map f (seq 0 dim)) d = f k.
  Proof using.
    intros Hk. rewrite (nth_indep _ d (f 0%nat)) by (rewrite map_length, seq_length; exact Hk).
    rewrite map_nth, seq_nth by exact Hk. reflexivity.
  Qed.
  Lemma sig_len p : length (sig p) = dim.
  Proof using. unfold sig. now rewrite map_length, seq_length. Qed.
  Lemma nth_sig p k : (k < dim)%nat -> nth k (sig p) Mid = side_of p k.
  Proof using. apply nth_map_seq. Qed.
  Lemma coord_shift pat p k : (k < dim)%nat -> coord (shift pat p) k = coord p k + shift_by pat k.
  Proof using. intros Hk. unfold coord at 1, shift. now rewrite nth_map_seq. Qed.
  Lemma coord_canon p k : (k < dim)%nat -> coord (canon p) k = if coord p k =? hi k then lo k else coord p k.
  Proof using. intros Hk. unfold coord at 1, canon. now rewrite nth_map_seq. Qed.
  Lemma nth_lower pat k : nth k (lower pat) Mid = lower1 (nth k pat Mid).
  Proof using. apply (map_nth lower1 pat Mid k). Qed.
  Lemma point_ext p q : length p = dim -> length q = dim -> (forall k, (k < dim)%nat -> coord p k = coord q k) -> p = q.
  Proof using.
    intros Hp Hq H. apply (nth_ext _ _ 0 0); [congruence|]. intros k Hk. apply H. lia.
  Qed.
  Lemma pat_ext (a b : list side) : length a = dim -> length b = dim ->
    (forall k, (k < dim)%nat -> nth k a Mid = nth k b Mid) -> a = b.
  Proof using. intros Ha Hb H. apply (nth_ext _ _ Mid Mid); [congruence|]. intros k Hk. apply H. lia. Qed.

  (** Node [y] with sides [pat] and its master. *)
  Lemma master_iff pat x y : length pat = dim -> length x = dim -> length y = dim ->
    (sig x = lower pat /\ sig y = pat /\ y = shift pat x) <-> (sig y = pat /\ x = canon y).
  Proof using HC.
    intros Lp Lx Ly. split.
    - intros (Sx & Sy & E). split; [exact Sy|]. apply point_ext; [exact Lx|unfold canon; now rewrite map_length, seq_length|].
      intros k Hk. rewrite coord_canon by exact Hk. pose proof (lo_hi k Hk) as LH.
      assert (Fx : side_of x k = nth k (lower pat) Mid) by (rewrite <- Sx, nth_sig by exact Hk; reflexivity).
      assert (Fy : coord y k = coord x k + shift_by pat k) by (rewrite E; apply coord_shift; exact Hk).
      rewrite nth_lower in Fx. unfold shift_by, side_of in *.
      destruct (nth k pat Mid), (Z.eqb_spec (coord x k) (lo k)), (Z.eqb_spec (coord x k) (hi k)); try discriminate Fx;
        destruct (Z.eqb_spec (coord y k) (hi k)); lia.
    - intros (Sy & ->). split; [|split; [exact Sy|]].
      + apply pat_ext; [apply sig_len|unfold lower; now rewrite map_length|]. intros k Hk.
        rewrite nth_sig, nth_lower by exact Hk. pose proof (lo_hi k Hk) as LH.
        assert (Fy : side_of y k = nth k pat Mid) by (rewrite <- Sy, nth_sig by exact Hk; reflexivity).
        rewrite <- Fy. unfold side_of. rewrite coord_canon by exact Hk.
        destruct (Z.eqb_spec (coord y k) (lo k)) as [E1|E1], (Z.eqb_spec (coord y k) (hi k)) as [E2|E2]; try lia;
          rewrite ?Z.eqb_refl; try reflexivity;
          destruct (Z.eqb_spec (coord y k) (lo k)), (Z.eqb_spec (coord y k) (hi k)); try lia; reflexivity.
      + apply point_ext; [exact Ly|unfold shift; now rewrite map_length, seq_length|].
        intros k Hk. rewrite coord_shift, coord_canon by exact Hk. pose proof (lo_hi k Hk) as LH.
        assert (Fy : side_of y k = nth k pat Mid) by (rewrite <- Sy, nth_sig by exact Hk; reflexivity).
        unfold shift_by. rewrite <- Fy. unfold side_of.
        destruct (Z.eqb_spec (coord y k) (lo k)), (Z.eqb_spec (coord y k) (hi k)); lia.
  Qed.

  Lemma partial_in (f : nat -> Z) x : In x points ->
    (forall k, (k < dim)%nat -> f k = coord x k \/ (coord x k = lo k /\ f k = hi k) \/ (coord x k = hi k /\ f k = lo k)) ->
    In (map f (seq 0 dim)) points.
  Proof.
    intros Hx Hf.
    assert (G : forall j, (j <= dim)%nat ->
      In (map (fun k => if Nat.ltb k j then f k else coord x k) (seq 0 dim)) points).
    { induction j as [|j IH]; intros Hj.
      - replace (map _ _) with x; [exact Hx|]. apply point_ext; [apply pts_len, Hx|now rewrite map_length, seq_length|].
        intros k Hk. unfold coord at 2. rewrite nth_map_seq by exact Hk. reflexivity.
      - specialize (IH ltac:(lia)). set (z := map _ _) in IH. assert (Hjd : (j < dim)%nat) by lia.
        assert (Lz : length z = dim) by (unfold z; now rewrite map_length, seq_length).
        assert (Cz : forall k, (k < dim)%nat -> nth k z 0 = if Nat.ltb k j then f k else coord x k)
          by (intros k Hk; unfold z; now rewrite nth_map_seq).
        assert (Zj : nth j z 0 = coord x j) by (rewrite Cz by exact Hjd; rewrite Nat.ltb_irrefl; reflexivity).
        assert (E : map (fun k => if Nat.ltb k (S j) then f k else coord x k) (seq 0 dim) = upd z j (f j)).
        { apply point_ext; [now rewrite map_length, seq_length|now rewrite upd_length|].
          intros k Hk. unfold coord. rewrite nth_map_seq, nth_upd, Lz by exact Hk.
          destruct (Nat.eqb_spec j k) as [->|Hne].
          - assert (T1 : Nat.ltb k (S k) = true) by (apply Nat.ltb_lt; lia).
            assert (T2 : Nat.ltb k dim = true) by (apply Nat.ltb_lt; lia). rewrite T1, T2. reflexivity.
          - cbn [andb]. rewrite (Cz k Hk). unfold coord.
            destruct (Nat.ltb_spec k (S j)), (Nat.ltb_spec k j); try reflexivity; lia. }
        rewrite E. destruct (HP z j IH Hjd) as [H1 H2]. rewrite Zj in H1, H2.
        destruct (Hf j Hjd) as [Ef|[[E1 E2]|[E1 E2]]].
        + replace (upd z j (f j)) with z; [exact IH|]. apply point_ext; [exact Lz|now rewrite upd_length|].
          intros k Hk. unfold coord. rewrite nth_upd. destruct (Nat.eqb_spec j k) as [<-|Hne]; cbn [andb]; [|reflexivity].
          rewrite Zj, Ef. destruct (Nat.ltb j (length z)); reflexivity.
        + rewrite E2. apply H1, E1.
        + rewrite E2. apply H2, E1. }
    specialize (G dim (le_n _)). replace (map f (seq 0 dim)) with (map (fun k => if Nat.ltb k dim then f k else coord x k) (seq 0 dim)); [exact G|].
    apply map_ext_in. intros k Hk. apply in_seq in Hk. destruct (Nat.ltb_spec k dim); [reflexivity|lia].
  Qed.

  Lemma shift_in pat x : length pat = dim -> In x points -> sig x = lower pat -> In (shift pat x) points /\ sig (shift pat x) = pat.
  Proof.
    intros Lp Hx Sx.
    assert (F : forall k, (k < dim)%nat -> side_of x k = lower1 (nth k pat Mid)).
    { intros k Hk. rewrite <- nth_lower, <- Sx, nth_sig by exact Hk. reflexivity. }
    split.
    - unfold shift. apply (partial_in _ x Hx). intros k Hk. specialize (F k Hk). unfold side_of, shift_by in *.
      destruct (nth k pat Mid); try (left; lia). destruct (Z.eqb_spec (coord x k) (lo k)) as [E|E].
      + right. left. lia.
      + destruct (coord x k =? hi k); discriminate F.
    - apply pat_ext; [apply sig_len|exact Lp|]. intros k Hk. rewrite nth_sig by exact Hk.
      specialize (F k Hk). unfold side_of in *. rewrite coord_shift by exact Hk. unfold shift_by. pose proof (lo_hi k Hk) as LH.
      destruct (nth k pat Mid);
        destruct (Z.eqb_spec (coord x k) (lo k)), (Z.eqb_spec (coord x k) (hi k)); try discriminate F; try lia.
      all: match goal with |- (if ?a =? ?b then _ else if ?a =? ?c then _ else _) = _ =>
             destruct (Z.eqb_spec a b), (Z.eqb_spec a c); try reflexivity; lia end.
  Qed.
  Lemma canon_in y : In y points -> In (canon y) points.
  Proof.
    intros Hy. unfold canon. apply (partial_in _ y Hy). intros k Hk. destruct (Z.eqb_spec (coord y k) (hi k)); auto.
  Qed.

  (** ** Pairings described by a pattern *)
  Definition good (q : pairing qpoint) (d : list side * nat) : Prop :=
    pp_vec q = snd d /\
    (forall x, In x points -> pp_master q (qp x) = true <-> sig x = lower (fst d)) /\
    (forall x, In x points -> pp_slave q (qp x) = true <-> sig x = fst d) /\
    (forall x y, In x points -> In y points -> sig x = lower (fst d) ->
       near dim eps (pp_map q (qp x)) (qp y) = true <-> y = shift (fst d) x).

  Lemma csum_perm k l l' : Permutation l l' -> csum l k = csum l' k.
  Proof using. unfold csum. induction 1; cbn [fold_right]; congruence || lia. Qed.
  Lemma csum_shift pat k l : (k < dim)%nat -> csum (map (shift pat) l) k = csum l k + Z.of_nat (length l) * shift_by pat k.
  Proof using.
    intros Hk. induction l as [|x l IH]; [cbn; lia|]. cbn [map csum fold_right length].
    change (fold_right (fun p s => coord p k + s) 0 (map (shift pat) l)) with (csum (map (shift pat) l) k).
    change (fold_right (fun p s => coord p k + s) 0 l) with (csum l k).
    rewrite IH, coord_shift by exact Hk. rewrite Nat2Z.inj_succ. ring.
  Qed.

  Lemma shift_perm m s pat : length pat = dim ->
    (forall x, In x points -> m x = true <-> sig x = lower pat) ->
    (forall x, In x points -> s x = true <-> sig x = pat) ->
    Permutation (map (shift pat) (filter m points)) (filter s points).
  Proof.
    intros Lp Hm Hs. apply NoDup_Permutation.
    - assert (ND : NoDup (filter m points)) by (apply NoDup_filter, pts_nodup).
      assert (HA : forall x, In x (filter m points) -> length x = dim) by (intros x Hx; apply pts_len; apply filter_In in Hx; apply Hx).
      induction (filter m points) as [|x l IH]; [constructor|]. cbn. apply NoDup_cons_iff in ND. destruct ND as [Hx ND].
      constructor; [|apply IH; [exact ND|intros; apply HA; cbn; auto]].
      intros Hin. apply in_map_iff in Hin. destruct Hin as (y & E & Hy). apply Hx. replace x with y; [exact Hy|].
      apply point_ext; [apply HA; cbn; auto|apply HA; cbn; auto|]. intros k Hk.
      apply (f_equal (fun p => coord p k)) in E. rewrite !coord_shift in E by exact Hk. lia.
    - apply NoDup_filter, pts_nodup.
    - intros y. rewrite in_map_iff, filter_In. split.
      + intros (x & <- & Hx). apply filter_In in Hx. destruct Hx as [Hx Mx]. apply Hm in Mx; [|exact Hx].
        destruct (shift_in pat x Lp Hx Mx) as [H1 H2]. split; [exact H1|]. apply Hs; assumption.
      + intros [Hy Sy]. apply Hs in Sy; [|exact Hy]. exists (canon y).
        pose proof (canon_in y Hy) as Hc.
        destruct (proj2 (master_iff pat (canon y) y Lp (pts_len _ Hc) (pts_len _ Hy)) (conj Sy eq_refl)) as (H1 & _ & H3).
        split; [symmetry; exact H3|]. apply filter_In. split; [exact Hc|]. apply Hm; assumption.
  Qed.

  Lemma mk_pairs_good vec m s pat : length pat = dim ->
    (forall x, In x points -> m x = true <-> sig x = lower pat) ->
    (forall x, In x points -> s x = true <-> sig x = pat) ->
    exists l, mk_pairs points dim vec (Some m) (Some s) = Some l /\ Forall2 good l (map (pair pat) (seq 0 vec)).
  Proof.
    intros Lp Hm Hs. pose proof (shift_perm m s pat Lp Hm Hs) as PM.
    unfold mk_pairs, mapping. rewrite <- (Permutation_length PM), map_length, Nat.eqb_refl.
    eexists. split; [reflexivity|].
    set (n := Z.of_nat (length (filter m points))). 
    set (f := fun x : qpoint => (map (fun k => n * coord (fst x) k + (csum (filter s points) k - csum (filter m points) k)) (seq 0 dim), n)).
    assert (G : forall x y, In x points -> In y points -> sig x = lower pat -> near dim eps (f (qp x)) (qp y) = true <-> y = shift pat x).
    { intros x y Hx Hy Sx. destruct (shift_in pat x Lp Hx Sx) as [H1 H2].
      assert (Hn : 0 < n).
      { unfold n. assert (Hin : In x (filter m points)) by (apply filter_In; split; [exact Hx|apply Hm; assumption]).
        destruct (filter m points); [destruct Hin|cbn; lia]. }
      unfold near, f, qp. cbn [fst snd].
      assert (E : map (fun k => (coord (map (fun k0 => n * coord x k0 + (csum (filter s points) k0 - csum (filter m points) k0)) (seq 0 dim)) k * 1
                                   - coord y k * n) ^ 2) (seq 0 dim) =
                  map (fun k => (n * (coord (shift pat x) k - coord y k)) ^ 2) (seq 0 dim)).
      { apply map_ext_in. intros k Hk. apply in_seq in Hk. f_equal.
        unfold coord at 1. rewrite nth_map_seq by lia. rewrite coord_shift by lia.
        rewrite <- (csum_perm k _ _ PM), csum_shift by lia. fold n. ring. }
      rewrite E. rewrite (sumsq_scale n (fun k => coord (shift pat x) k - coord y k)). replace ((eps * n * 1) ^ 2) with (n ^ 2 * eps ^ 2) by ring.
      assert (Hn2 : 0 < n ^ 2) by nia.
      rewrite Z.ltb_lt, <- Z.mul_lt_mono_pos_l by exact Hn2. destruct HR as (He & _ & HS). split.
      - intros Hlt. destruct (list_eq_dec Z.eq_dec (shift pat x) y) as [->|Hne]; [reflexivity|].
        specialize (HS (shift pat x) y H1 Hy Hne). unfold coord in *. lia.
      - intros ->. rewrite (sumsq_zero (fun k => coord (shift pat x) k - coord (shift pat x) k)) by (intros; lia). nia. }
    clear - G Hm Hs. induction (seq 0 vec) as [|i l IH]; cbn [map]; constructor; [|exact IH].
    unfold good. cbn [fst snd pp_master pp_slave pp_vec pp_map]. split; [reflexivity|].
    split; [intros x Hx; apply Hm, Hx|]. split; [intros x Hx; apply Hs, Hx|]. exact G.
  Qed.

  (** ** The prolongation of a complete family of pairings *)
  Section Family.
    Variable vec : nat.
    Variable ps : list (pairing qpoint).
    Variable ds : list (list side * nat).
    Hypothesis Hg : Forall2 good ps ds.
    Hypothesis Hnd : NoDup ds.
    Hypothesis Hall : forall pat c, In (pat, c) ds <-> length pat = dim /\ In Hi pat /\ (c < vec)%nat.
    Hypothesis Hvec : (0 < vec)%nat.
    Local Notation mp := (map qp points).
    Local Notation pt i := (nth i points []).

    Lemma point_qp i : point mp (qp []) i = qp (pt i).
    Proof. unfold point. apply (map_nth qp). Qed.
    Lemma pt_in i : (i < length points)%nat -> In (pt i) points.
    Proof. apply nth_In. Qed.
    Lemma pt_inj i j : (i < length points)%nat -> (j < length points)%nat -> pt i = pt j -> i = j.
    Proof. apply (proj1 (NoDup_nth points []) pts_nodup). Qed.

    Lemma partner_iff q d A B : good q d -> length (fst d) = dim ->
      partner (near dim eps) mp (qp []) q A B <->
      (A < length points)%nat /\ (B < length points)%nat /\ sig (pt B) = fst d /\ pt A = canon (pt B).
    Proof.
      intros (_ & G1 & G2 & G3) L. unfold partner. rewrite map_length, !point_qp. split.
      - intros (HA & HB & M & Sl & N). pose proof (pt_in A HA) as IA. pose proof (pt_in B HB) as IB.
        apply G1 in M; [|exact IA]. apply G2 in Sl; [|exact IB]. apply G3 in N; [|assumption..].
        split; [exact HA|]. split; [exact HB|]. apply (master_iff (fst d)); auto using pts_len.
      - intros (HA & HB & Sl & N). pose proof (pt_in A HA) as IA. pose proof (pt_in B HB) as IB.
        destruct (proj2 (master_iff (fst d) _ _ L (pts_len _ IA) (pts_len _ IB)) (conj Sl N)) as (M & _ & Sh).
        split; [exact HA|]. split; [exact HB|]. split; [apply G1; assumption|]. split; [apply G2; assumption|].
        apply G3; assumption.
    Qed.

    Lemma fam_nth i q : nth_error ps i = Some q -> exists d, nth_error ds i = Some d /\ good q d.
    Proof.
      clear - Hg. revert i. induction Hg as [|p d ps' ds' H H' IH]; intros [|i] E; cbn in E; try discriminate.
      - inversion E; subst. exists d. cbn. auto.
      - apply IH in E; assumption.
    Qed.
    Lemma fam_in q : In q ps -> exists d, In d ds /\ good q d.
    Proof.
      intros H. apply In_nth_error in H. destruct H as (i & H). apply fam_nth in H. destruct H as (d & H & G).
      exists d. split; [eapply nth_error_In; eassumption|exact G].
    Qed.
    Lemma fam_inv d : In d ds -> exists q, In q ps /\ good q d.
    Proof.
      clear - Hg. induction Hg as [|p d' ps' ds' H H' IH]; intros Hd; [destruct Hd|].
      destruct Hd as [<-|Hd]; [exists p; cbn; auto|]. destruct (IH H' Hd) as (q & Hq & G). exists q. cbn. auto.
    Qed.
    Lemma fam_len d : In d ds -> length (fst d) = dim /\ (snd d < vec)%nat /\ In Hi (fst d).
    Proof. destruct d as [pat c]. intros H. apply Hall in H. cbn. tauto. Qed.

    Lemma fam_vec q : In q ps -> (pp_vec q < vec)%nat.
    Proof.
      intros H. apply fam_in in H. destruct H as (d & Hd & G). rewrite (proj1 G). apply fam_len, Hd.
    Qed.

    Lemma fam_linked a b : linked (near dim eps) mp (qp []) vec ps a b <->
      exists A B c, (A < length points)%nat /\ (B < length points)%nat /\ (c < vec)%nat /\
        In Hi (sig (pt B)) /\ pt A = canon (pt B) /\ a = (A * vec + c)%nat /\ b = (B * vec + c)%nat.
    Proof.
      split.
      - intros (q & A & B & Hq & Hpp & -> & ->). destruct (fam_in q Hq) as (d & Hd & G).
        destruct (fam_len d Hd) as (L & Hc & Hh). apply (partner_iff q d A B G L) in Hpp.
        destruct Hpp as (HA & HB & S1 & S2). exists A, B, (snd d). rewrite (proj1 G). rewrite S1. auto 10.
      - intros (A & B & c & HA & HB & Hc & Hh & E & -> & ->).
        destruct (fam_inv (sig (pt B), c)) as (q & Hq & G). { apply Hall. rewrite sig_len. auto. }
        exists q, A, B. split; [exact Hq|]. split.
        + apply (partner_iff q _ A B G); [apply sig_len|]. cbn. auto.
        + rewrite (proj1 G). auto.
    Qed.

    Lemma fam_matched : well_matched (near dim eps) mp (qp []) ps.
    Proof.
      intros q A Hq HA M. rewrite map_length in HA. rewrite point_qp in M.
      destruct (fam_in q Hq) as (d & Hd & G). destruct (fam_len d Hd) as (L & Hc & Hh).
      pose proof (pt_in A HA) as IA. apply (proj1 (proj2 G)) in M; [|exact IA].
      destruct (shift_in (fst d) (pt A) L IA M) as [H1 H2].
      destruct (In_nth _ _ [] H1) as (B & HB & EB).
      assert (Q : sig (pt B) = fst d /\ pt A = canon (pt B)).
      { apply (master_iff (fst d)); auto using pts_len, pt_in. rewrite EB. auto. }
      exists B. split.
      - apply (partner_iff q d A B G L). tauto.
      - intros B' HB'. apply (partner_iff q d A B' G L) in HB'. destruct HB' as (_ & HB' & S1 & S2).
        apply pt_inj; [assumption..|].
        destruct (proj2 (master_iff (fst d) (pt A) (pt B') L (pts_len _ IA) (pts_len _ (pt_in B' HB'))) (conj S1 S2)) as (_ & _ & E).
        congruence.
    Qed.

    Lemma fam_single : single_master (near dim eps) mp (qp []) vec ps.
    Proof.
      intros i j p q A A' B B' Hi' Hj' P1 P2 E.
      destruct (fam_nth i p Hi') as (d & Hd & G). destruct (fam_nth j q Hj') as (d' & Hd' & G').
      pose proof (nth_error_In _ _ Hd) as I1. pose proof (nth_error_In _ _ Hd') as I2.
      destruct (fam_len d I1) as (L & Hc & _). destruct (fam_len d' I2) as (L' & Hc' & _).
      apply (partner_iff p d A B G L) in P1. apply (partner_iff q d' A' B' G' L') in P2.
      rewrite (proj1 G), (proj1 G') in E.
      assert (B = B' /\ snd d = snd d') as [EB Ec].
      { assert (X1 := Nat.div_add_l B vec (snd d) ltac:(lia)). assert (X2 := Nat.div_add_l B' vec (snd d') ltac:(lia)).
        rewrite (Nat.div_small (snd d)) in X1 by lia. rewrite (Nat.div_small (snd d')) in X2 by lia.
        rewrite E in X1. assert (B = B') by lia. subst B'. lia. }
      subst B'. destruct P1 as (HA & HB & S1 & C1), P2 as (HA' & _ & S2 & C2).
      assert (d = d') by (destruct d, d'; cbn in *; congruence). subst d'.
      split; [|apply pt_inj; congruence].
      apply (proj1 (NoDup_nth_error ds) Hnd); [apply nth_error_Some; congruence|congruence].
    Qed.

    Lemma canon_no_hi p : ~ In Hi (sig (canon p)).
    Proof.
      intros H. apply (In_nth _ _ Mid) in H. destruct H as (k & Hk & E). rewrite sig_len in Hk.
      rewrite nth_sig in E by exact Hk. unfold side_of in E. rewrite coord_canon in E by exact Hk.
      pose proof (lo_hi k Hk). destruct (Z.eqb_spec (coord p k) (hi k)).
      - rewrite Z.eqb_refl in E. discriminate.
      - destruct (Z.eqb_spec (coord p k) (lo k)); [discriminate|]. destruct (Z.eqb_spec (coord p k) (hi k)); [lia|discriminate].
    Qed.

    Lemma fam_independent : independent_masters (near dim eps) mp (qp []) vec ps.
    Proof.
      intros a b Hl [a' Hs]. apply fam_linked in Hl. apply fam_linked in Hs.
      destruct Hl as (A & B & c & HA & HB & Hc & Hh & E & -> & ->).
      destruct Hs as (A2 & B2 & c2 & HA2 & HB2 & Hc2 & Hh2 & E2 & _ & Eq).
      assert (A = B2).
      { assert (X1 := Nat.div_add_l A vec c ltac:(lia)). assert (X2 := Nat.div_add_l B2 vec c2 ltac:(lia)).
        rewrite (Nat.div_small c) in X1 by lia. rewrite (Nat.div_small c2) in X2 by lia. rewrite Eq in X1. lia. }
      subst B2. rewrite E in Hh2. apply (canon_no_hi _ Hh2).
    Qed.

    Lemma fam_nonempty : (0 < dim)%nat -> ps <> [].
    Proof.
      intros Hd E. destruct (fam_inv (repeat Hi dim, 0%nat)) as (q & Hq & _).
      - apply Hall. rewrite repeat_length. split; [reflexivity|]. split; [|lia]. destruct dim; [lia|cbn; auto].
      - rewrite E in Hq. destruct Hq.
    Qed.

    Lemma images_canon p q : length p = dim -> length q = dim -> periodic_images dim lo hi p q -> canon p = canon q.
    Proof.
      intros Lp Lq H. apply point_ext; [unfold canon; now rewrite map_length, seq_length..|].
      intros k Hk. rewrite !coord_canon by exact Hk. pose proof (lo_hi k Hk). specialize (H k Hk).
      change (nth k p 0) with (coord p k) in H. change (nth k q 0) with (coord q k) in H.
      destruct (Z.eqb_spec (coord p k) (hi k)), (Z.eqb_spec (coord q k) (hi k)); lia.
    Qed.
    Lemma canon_images p : periodic_images dim lo hi (canon p) p.
    Proof.
      intros k Hk. change (nth k (canon p) 0) with (coord (canon p) k). change (nth k p 0) with (coord p k).
      rewrite coord_canon by exact Hk. destruct (Z.eqb_spec (coord p k) (hi k)); auto.
    Qed.
    Lemma canon_fix p : length p = dim -> ~ In Hi (sig p) -> canon p = p.
    Proof.
      intros Lp H. apply point_ext; [unfold canon; now rewrite map_length, seq_length|exact Lp|].
      intros k Hk. rewrite coord_canon by exact Hk. destruct (Z.eqb_spec (coord p k) (hi k)) as [E|E]; [|reflexivity].
      exfalso. apply H. assert (side_of p k = Hi).
      { unfold side_of. pose proof (lo_hi k Hk). destruct (Z.eqb_spec (coord p k) (lo k)); [lia|]. rewrite E, Z.eqb_refl. reflexivity. }
      rewrite <- H0, <- nth_sig by exact Hk. apply nth_In. rewrite sig_len. exact Hk.
    Qed.

    Lemma fam_field {A} (u : nat -> A) :
      (forall a b, linked (near dim eps) mp (qp []) vec ps a b -> u b = u a) <-> periodic_field points dim lo hi vec u.
    Proof.
      split.
      - intros H i j c Hi' Hj' Hc Him.
        assert (X : forall B, (B < length points)%nat -> exists A, (A < length points)%nat /\ pt A = canon (pt B) /\ u (B * vec + c)%nat = u (A * vec + c)%nat).
        { intros B HB. destruct (in_dec side_eq_dec Hi (sig (pt B))) as [Hh|Hh].
          - destruct (In_nth _ _ [] (canon_in _ (pt_in B HB))) as (A0 & HA0 & E). exists A0. split; [exact HA0|].
            split; [exact E|]. apply H. apply fam_linked. exists A0, B, c. auto 10.
          - exists B. rewrite canon_fix; auto using pts_len, pt_in. }
        destruct (X i Hi') as (a & Ha & E1 & ->). destruct (X j Hj') as (b & Hb & E2 & ->).
        replace b with a; [reflexivity|]. apply pt_inj; [assumption..|]. rewrite E1, E2.
        apply images_canon; auto using pts_len, pt_in.
      - intros H a b Hl. apply fam_linked in Hl. destruct Hl as (A0 & B & c & HA & HB & Hc & Hh & E & -> & ->).
        symmetry. apply H; [assumption..|]. rewrite E. apply canon_images.
    Qed.

    Lemma fam_range (Hd : (0 < dim)%nat) : exists P,
      prolongation_matrix (near dim eps) mp (qp []) vec ps = Some P /\
      pm_rows P = (length points * vec)%nat /\ length (pm_col P) = pm_rows P /\
      (forall i, (i < pm_rows P)%nat -> 0 <= nth i (pm_col P) 0 < Z.of_nat (pm_cols P)) /\
      (forall (A : Type) (u : nat -> A),
         (exists x, forall i, (i < pm_rows P)%nat -> u i = prolong P x i) <-> periodic_field points dim lo hi vec u) /\
      (forall (A : Type) (x y : Z -> A), (forall i, (i < pm_rows P)%nat -> prolong P x i = prolong P y i) ->
         forall c, 0 <= c < Z.of_nat (pm_cols P) -> x c = y c).
    Proof.
      pose proof (@C35_accepted_iff _ (near dim eps) mp (qp []) vec ps fam_vec) as X.
      destruct (prolongation_matrix (near dim eps) mp (qp []) vec ps) as [P|] eqn:E;
        [|exfalso; apply X; auto using fam_nonempty, fam_matched, fam_single].
      clear X. exists P. split; [reflexivity|].
      destruct (@C35_columns _ (near dim eps) mp (qp []) vec ps fam_vec P E) as (R1 & R2 & _). rewrite map_length in R1, R2.
      pose proof (proj2 (@C35_valid_columns_iff _ (near dim eps) mp (qp []) vec ps fam_vec P E) fam_independent) as R3.
      rewrite map_length in R3. rewrite R1.
      split; [reflexivity|]. split; [exact R2|]. split; [exact R3|]. split.
      - intros A u. destruct (@C35_range _ (near dim eps) mp (qp []) vec ps fam_vec P E A fam_independent) as (_ & R4 & _).
        rewrite map_length in R4. rewrite R4. apply fam_field.
      - intros A. destruct (@C35_range _ (near dim eps) mp (qp []) vec ps fam_vec P E A fam_independent) as (_ & _ & R5).
        rewrite map_length in R5. exact R5.
    Qed.
  End Family.
End Cell.
