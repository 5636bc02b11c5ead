(** Proofs about batching and assembly. *)
From Verif Require Import Base Csr_Model Csr_Proofs Ops_Proofs Assembly_Model.
From Coq Require Import ZifyBool ZifyNat.
Ltac Zify.zify_post_hook ::= Z.div_mod_to_equations.
Set Implicit Arguments.

(** ** Folds *)
Lemma fold_left_ext_in A B (f g : A -> B -> A) l a :
  (forall a b, In b l -> f a b = g a b) -> fold_left f l a = fold_left g l a.
Proof.
  revert a; induction l as [|b t IH]; intros a H; cbn; [reflexivity|].
  rewrite H by (left; reflexivity). apply IH. intros a' b' Hb'. apply H. right; exact Hb'.
Qed.

(** ** Reshape *)
Lemma concat_reshape A k m (l : list A) : length l = k * m -> concat (reshape k m l) = l.
Proof.
  revert l; induction k as [|k IH]; intros l H; cbn in *.
  - destruct l; [reflexivity | discriminate].
  - rewrite IH by (rewrite skipn_length; lia). apply firstn_skipn.
Qed.

Lemma reshape_length A k m (l : list A) : length (reshape k m l) = k.
Proof. revert l; induction k as [|k IH]; intros l; cbn; auto. Qed.

Lemma reshape_concat A m (rows : list (list A)) :
  (forall r, In r rows -> length r = m) -> reshape (length rows) m (concat rows) = rows.
Proof.
  induction rows as [|r t IH]; intros H; cbn; [reflexivity|].
  assert (Hr : length r = m) by (apply H; left; reflexivity).
  rewrite firstn_app, skipn_app. replace (m - length r) with 0 by lia.
  rewrite firstn_all2 by lia. rewrite skipn_all2 by lia. cbn. rewrite app_nil_r.
  f_equal. apply IH. intros x Hx. apply H. right; exact Hx.
Qed.

Lemma reshape_in_length A k m (l : list A) r :
  length l = k * m -> In r (reshape k m l) -> length r = m.
Proof.
  revert l; induction k as [|k IH]; intros l H Hin; cbn in *; [tauto|].
  destruct Hin as [<-|Hin].
  - rewrite firstn_length. lia.
  - apply (IH (skipn m l)); auto. rewrite skipn_length. lia.
Qed.

Lemma concat_const_length A w (rows : list (list A)) :
  (forall r, In r rows -> length r = w) -> length (concat rows) = length rows * w.
Proof.
  induction rows as [|r t IH]; intros H; cbn; [reflexivity|].
  rewrite app_length, IH by (intros x Hx; apply H; right; exact Hx).
  rewrite H by (left; reflexivity). reflexivity.
Qed.

Lemma concat_concat A (l : list (list (list A))) : concat (concat l) = concat (map (@concat A) l).
Proof. induction l as [|x t IH]; cbn; [reflexivity|]. rewrite concat_app, IH. reflexivity. Qed.

(** Reshaping the concatenation of fixed-width rows into blocks of rows. *)
Lemma reshape_concat_blocks A w k bs (rows : list (list A)) :
  (forall r, In r rows -> length r = w) -> length rows = k * bs ->
  reshape k (bs * w) (concat rows) = map (@concat A) (reshape k bs rows).
Proof.
  intros Hw Hl.
  rewrite <- (reshape_concat (m := bs * w) (map (@concat A) (reshape k bs rows))).
  - rewrite map_length, reshape_length. f_equal.
    rewrite <- (concat_reshape k bs rows Hl) at 1. rewrite concat_concat. reflexivity.
  - intros r Hr. apply in_map_iff in Hr. destruct Hr as [b [<- Hb]].
    rewrite (@concat_const_length A w).
    + rewrite (@reshape_in_length _ k bs rows b Hl Hb). reflexivity.
    + intros x Hx. apply Hw. rewrite <- (concat_reshape k bs rows Hl).
      apply in_concat. exists b. auto.
Qed.

Lemma batching_spec n bs0 bs cuts np :
  0 < bs0 -> batching n bs0 = (bs, cuts, np) ->
  np = cuts * bs /\ n <= np /\ (n = 0 -> cuts = 0) /\ (0 < n -> 0 < bs <= bs0 /\ bs <= n).
Proof.
  unfold batching. intros H0 E.
  destruct (Nat.eqb_spec n 0) as [->|Hn]; injection E as <- <- <-.
  - repeat split; lia.
  - assert (Hb : 0 < Nat.min bs0 n) by lia.
    set (b := Nat.min bs0 n) in *.
    assert (Hc : n <= (n + b - 1) / b * b).
    { pose proof (Nat.div_mod (n + b - 1) b ltac:(lia)) as D.
      pose proof (Nat.mod_upper_bound (n + b - 1) b ltac:(lia)). nia. }
    repeat split; lia.
Qed.

Lemma map_firstn A B (f : A -> B) n l : map f (firstn n l) = firstn n (map f l).
Proof. revert l; induction n as [|n IH]; intros [|x t]; cbn; f_equal; auto. Qed.

(** The scan gives the same rows as a plain map, for every batch size. *)
Lemma scan_vmap_batched_map A B (z : A) (f : A -> B) bs0 l :
  0 < bs0 -> scan_vmap_batched z f bs0 l = map f l.
Proof.
  intros H0. unfold scan_vmap_batched.
  destruct (batching (length l) bs0) as [[bs cuts] np] eqn:E.
  destruct (@batching_spec _ _ _ _ _ H0 E) as [Hnp [Hle _]].
  destruct (cuts <=? 1); [reflexivity|].
  rewrite <- concat_map, concat_reshape.
  - unfold pad_axis0. rewrite map_app, firstn_app, map_length, Nat.sub_diag.
    cbn. rewrite app_nil_r, <- (map_length f l), firstn_all. reflexivity.
  - unfold pad_axis0. rewrite app_length, repeat_length. lia.
Qed.

Section Asm.
  Variable K : CRing.
  Local Open Scope ring_K.
  Add Ring KringA : (cth K).

  Lemma vadd_length (a b : list K) : length a = length b -> length (vadd a b) = length a.
  Proof.
    revert b; induction a as [|x t IH]; intros [|y t'] H; cbn in *; try discriminate; auto.
  Qed.

  Lemma get_vadd (a b : list K) i : length a = length b -> get (vadd a b) i = get a i + get b i.
  Proof.
    revert b i; induction a as [|x t IH]; intros [|y t'] [|i] H; cbn in *; try discriminate; try ring.
    apply IH. lia.
  Qed.

  (** The contribution of (target, value) pairs to target [i]. *)
  Definition hits (i : nat) (ids : list nat) (vals : list K) : K :=
    sumf (fun p => if fst p =? i then snd p else 0) (combine ids vals).

  Lemma hits_app i a b x y :
    length a = length x -> hits i (a ++ b) (x ++ y) = hits i a x + hits i b y.
  Proof.
    unfold hits. revert x. induction a as [|r t IH]; intros [|z x] H; cbn in *; try discriminate.
    - ring.
    - rewrite IH by lia. ring.
  Qed.

  Lemma hits_concat i (rows : list (list nat)) (vals : list (list K)) :
    length rows = length vals ->
    (forall p, In p (combine rows vals) -> length (fst p) = length (snd p)) ->
    hits i (concat rows) (concat vals) =
    sumf (fun p => hits i (fst p) (snd p)) (combine rows vals).
  Proof.
    revert vals; induction rows as [|r t IH]; intros [|x vals] Hl H;
      cbn [concat combine sumf length] in *; try discriminate; [reflexivity|].
    rewrite hits_app by (apply (H (r, x)); left; reflexivity).
    rewrite IH; [reflexivity | congruence | ].
    intros p Hp. apply H. right; exact Hp.
  Qed.

  Lemma hits_fill i ids vals : (forall x, In x ids -> x <> i) -> hits i ids vals = 0.
  Proof.
    intros H. unfold hits. apply sumf_zero. intros [r x] Hin. cbn.
    destruct (Nat.eqb_spec r i); [|reflexivity].
    exfalso. apply (H r); [apply in_combine_l in Hin; exact Hin | assumption].
  Qed.

  Lemma sorted_seg_sum_length m (vals : list K) ps : length (sorted_seg_sum m vals ps) = m.
  Proof. apply segment_sum_length. Qed.

  (** Sorting the targets first does not change the sum. *)
  Lemma get_sorted_seg_sum m (vals : list K) ids i :
    i < m -> length vals = length ids ->
    get (sorted_seg_sum m vals (argsort ids, gather 0%nat ids (argsort ids))) i = hits i ids vals.
  Proof.
    intros Hi Hl. unfold sorted_seg_sum. cbn [fst snd].
    rewrite get_segment_sum by exact Hi. unfold gather.
    rewrite combine_map_both, sumf_map. cbn [fst snd].
    unfold hits. rewrite (sumf_combine K (fun r x => if r =? i then x else 0) ids vals 0%nat 0)
      by (symmetry; exact Hl).
    apply sumf_perm. symmetry. apply argsort_perm.
  Qed.

  (** The batched accumulation shared by the Jacobian and residual paths. *)
  Section Batch.
    Variables (X : Type) (f : X -> list K) (z : X) (m fill w bs0 : nat).
    Variables (maps : list (list nat)) (inputs : list X).
    Hypothesis Hbs : 0 < bs0.
    Hypothesis Hmaps : forall r, In r maps -> length r = w.
    Hypothesis Hlen : length inputs = length maps.
    Hypothesis Hf : forall x, In x inputs -> length (f x) = w.
    Hypothesis Hz : length (f z) = w.

    Definition batch_acc : list K :=
      let sorts := slot_sort maps w fill bs0 in
      let '(bs, cuts, np) := batching (length maps) bs0 in
      let carry := zeros m in
      if cuts <=? 1 then
        vadd carry (sorted_seg_sum m (concat (map f inputs)) (hd ([], []) sorts))
      else
        fold_left (fun c b => vadd c (sorted_seg_sum m (concat (map f (fst b))) (snd b)))
                  (combine (reshape cuts bs (pad_axis0 z inputs (np - length maps)%nat)) sorts)
                  carry.

    Definition acc_spec (s : nat) : K :=
      sumf (fun p => hits s (fst p) (f (snd p))) (combine maps inputs).

    Lemma fold_vadd_length B (g : B -> list K) l c :
      length c = m -> (forall b, length (g b) = m) ->
      length (fold_left (fun c b => vadd c (g b)) l c) = m.
    Proof.
      revert c; induction l as [|b t IH]; intros c Hc Hg; cbn; [exact Hc|].
      apply IH; auto. rewrite vadd_length; [exact Hc | rewrite Hg; exact Hc].
    Qed.

    Lemma get_fold_vadd B (g : B -> list K) l c s :
      length c = m -> (forall b, length (g b) = m) ->
      get (fold_left (fun c b => vadd c (g b)) l c) s = get c s + sumf (fun b => get (g b) s) l.
    Proof.
      revert c; induction l as [|b t IH]; intros c Hc Hg; cbn [fold_left sumf]; [ring|].
      rewrite IH; auto.
      - rewrite get_vadd by (rewrite Hg; exact Hc). ring.
      - rewrite vadd_length; [exact Hc | rewrite Hg; exact Hc].
    Qed.

    Lemma batch_acc_length : length batch_acc = m.
    Proof.
      unfold batch_acc. destruct (batching (length maps) bs0) as [[bs cuts] np].
      destruct (cuts <=? 1).
      - rewrite vadd_length; unfold zeros; rewrite repeat_length; [reflexivity|].
        rewrite sorted_seg_sum_length. reflexivity.
      - apply (@fold_vadd_length _ (fun b => sorted_seg_sum m (concat (map f (fst b))) (snd b))).
        + apply repeat_length.
        + intros b. apply sorted_seg_sum_length.
    Qed.

    Lemma combine_map_l A B C (g : A -> B) (l : list A) (l' : list C) :
      combine (map g l) l' = map (fun p => (g (fst p), snd p)) (combine l l').
    Proof. revert l'; induction l as [|x t IH]; intros [|y t']; cbn; [reflexivity..|]. f_equal. apply IH. Qed.
    Lemma combine_map_r A B C (g : A -> B) (l' : list C) (l : list A) :
      combine l' (map g l) = map (fun p => (fst p, g (snd p))) (combine l' l).
    Proof. revert l; induction l' as [|x t IH]; intros [|y t']; cbn; [reflexivity..|]. f_equal. apply IH. Qed.

    Lemma hits_rows s (rows : list (list nat)) (xs : list X) :
      length rows = length xs ->
      (forall r, In r rows -> length r = w) -> (forall x, In x xs -> length (f x) = w) ->
      hits s (concat rows) (concat (map f xs)) =
      sumf (fun p => hits s (fst p) (f (snd p))) (combine rows xs).
    Proof.
      intros Hl Hr Hx. rewrite hits_concat.
      - rewrite combine_map_r, sumf_map. reflexivity.
      - rewrite map_length. exact Hl.
      - intros p Hp. rewrite combine_map_r in Hp. apply in_map_iff in Hp.
        destruct Hp as [[r x] [<- Hp]]. cbn. rewrite Hr, Hx; [reflexivity| |].
        + apply in_combine_r in Hp. exact Hp.
        + apply in_combine_l in Hp. exact Hp.
    Qed.

    Lemma sum_blocks A B (g : A * B -> K) k bs : forall (la : list A) (lb : list B),
      length la = (k * bs)%nat -> length lb = (k * bs)%nat ->
      sumf (fun p => sumf g (combine (fst p) (snd p))) (combine (reshape k bs la) (reshape k bs lb)) =
      sumf g (combine la lb).
    Proof.
      induction k as [|k IH]; intros la lb Ha Hb; cbn [reshape combine sumf].
      - destruct la; [reflexivity | discriminate].
      - rewrite IH by (rewrite skipn_length; cbn in *; lia). cbn [fst snd].
        rewrite <- sumf_app. f_equal.
        rewrite <- (firstn_skipn bs la) at 3. rewrite <- (firstn_skipn bs lb) at 3.
        assert (E : length (firstn bs la) = length (firstn bs lb))
          by (rewrite !firstn_length; cbn in *; lia).
        revert E. generalize (firstn bs la) as a1, (firstn bs lb) as b1,
                          (skipn bs la) as a2, (skipn bs lb) as b2.
        induction a1 as [|x a1 IHa]; intros [|y b1] a2 b2 E; cbn in *; try discriminate; [reflexivity|].
        f_equal. apply IHa. lia.
    Qed.

    Lemma get_batch_acc s : s < m -> s <> fill -> get batch_acc s = acc_spec s.
    Proof.
      intros Hs Hne. unfold batch_acc.
      destruct (batching (length maps) bs0) as [[bs cuts] np] eqn:E.
      destruct (@batching_spec _ _ _ _ _ Hbs E) as [Hnp [Hle _]].
      unfold slot_sort. rewrite E.
      destruct (cuts <=? 1) eqn:Ec.
      - cbn [hd]. rewrite get_vadd
          by (unfold zeros; rewrite repeat_length, sorted_seg_sum_length; reflexivity).
        rewrite get_zeros, get_sorted_seg_sum.
        + rewrite hits_rows; auto. unfold acc_spec. ring.
        + exact Hs.
        + rewrite (@concat_const_length _ w), (@concat_const_length _ w), map_length.
          * rewrite Hlen. reflexivity.
          * exact Hmaps.
          * intros r Hr. apply in_map_iff in Hr. destruct Hr as [x [<- Hx]]. auto.
      - set (padm := maps ++ repeat (repeat fill w) (np - length maps)).
        set (padx := pad_axis0 z inputs (np - length maps)).
        assert (Hpm : forall r, In r padm -> length r = w).
        { intros r Hr. apply in_app_iff in Hr. destruct Hr as [Hr|Hr]; [auto|].
          apply repeat_spec in Hr. subst r. apply repeat_length. }
        assert (Hpx : forall x, In x padx -> length (f x) = w).
        { intros x Hx. apply in_app_iff in Hx. destruct Hx as [Hx|Hx]; [auto|].
          apply repeat_spec in Hx. subst x. exact Hz. }
        assert (Lm : length padm = (cuts * bs)%nat).
        { unfold padm. rewrite app_length, repeat_length. lia. }
        assert (Lx : length padx = (cuts * bs)%nat).
        { unfold padx, pad_axis0. rewrite app_length, repeat_length, Hlen. lia. }
        rewrite (reshape_concat_blocks (w := w) cuts bs padm Hpm Lm), map_map.
        rewrite (@get_fold_vadd _ (fun b => sorted_seg_sum m (concat (map f (fst b))) (snd b)))
          by (try apply repeat_length; intros b; apply sorted_seg_sum_length).
        rewrite get_zeros.
        rewrite combine_map_r, sumf_map. cbn [fst snd].
        rewrite sumf_ext with (g := fun p =>
          sumf (fun q => hits s (snd q) (f (fst q))) (combine (fst p) (snd p))).
        + rewrite (sum_blocks (fun q => hits s (snd q) (f (fst q))) cuts bs padx padm Lx Lm).
          unfold acc_spec, padx, padm, pad_axis0.
          assert (Hcomb : forall (rest1 : list X) (rest2 : list (list nat)),
            (forall r, In r rest2 -> forall t, In t r -> t <> s) ->
            forall (a : list X) (b : list (list nat)), length a = length b ->
            sumf (fun q => hits s (snd q) (f (fst q))) (combine (a ++ rest1) (b ++ rest2)) =
            sumf (fun p => hits s (fst p) (f (snd p))) (combine b a)).
          { intros rest1 rest2 Hr. induction a as [|x a IHa]; intros [|r b] Hl; try discriminate.
            - cbn [app combine sumf]. apply sumf_zero. intros [x r] Hin. cbn [fst snd].
              apply hits_fill. apply in_combine_r in Hin. intros t Ht. apply (Hr r); auto.
            - cbn [app combine sumf fst snd]. rewrite IHa by (cbn in Hl; lia). reflexivity. }
          rewrite Hcomb; [ring| |exact Hlen].
          intros r Hr t Ht. apply repeat_spec in Hr. subst r. apply repeat_spec in Ht. subst t. auto.
        + intros [bx bm] Hin. cbn [fst snd].
          pose proof (in_combine_l _ _ _ _ Hin) as H1. pose proof (in_combine_r _ _ _ _ Hin) as H2.
          pose proof (@reshape_in_length _ _ _ _ _ Lx H1) as L1.
          pose proof (@reshape_in_length _ _ _ _ _ Lm H2) as L2.
          assert (S1 : forall x, In x bx -> In x padx).
          { intros x Hx. rewrite <- (concat_reshape cuts bs padx Lx). apply in_concat. exists bx. auto. }
          assert (S2 : forall x, In x bm -> In x padm).
          { intros x Hx. rewrite <- (concat_reshape cuts bs padm Lm). apply in_concat. exists bm. auto. }
          rewrite get_sorted_seg_sum.
          * rewrite hits_rows by (auto; congruence).
            clear -L1 L2. assert (L : length bx = length bm) by congruence. clear L1 L2.
            revert bm L; induction bx as [|x t IH]; intros [|r bm] L; cbn in *; try discriminate; [reflexivity|].
            rewrite IH by lia. reflexivity.
          * exact Hs.
          * rewrite (@concat_const_length _ w), (@concat_const_length _ w), map_length.
            -- congruence.
            -- auto.
            -- intros r Hr. apply in_map_iff in Hr. destruct Hr as [x [<- Hx]]. auto.
    Qed.
  End Batch.
End Asm.
Arguments hits {K} i ids vals.
