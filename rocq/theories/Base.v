(** Shared vocabulary: commutative rings of values, finite sums, and the
    NumPy/JAX array primitives used by feax, modelled on lists.

    Nothing here is specific to feax; every definition models one NumPy/JAX
    primitive as it is used in /repo/feax (see the comments). *)
From Coq Require Export List Arith ZArith Lia Bool Permutation Sorted Morphisms.
From Coq Require Export Ring.
From Coq Require Import ZifyBool ZifyNat.
Export ListNotations.
Set Implicit Arguments.
Global Arguments Nat.ltb : simpl never.
Global Arguments Nat.div : simpl never.
Global Arguments Nat.modulo : simpl never.

(** ** Values *)

(** Array entries.  feax uses float64; the algebraic properties only need the
    laws of a commutative ring, so theorems quantify over an arbitrary one
    (rounding is not modelled). *)
Record CRing := {
  carrier :> Type;
  c0 : carrier;
  c1 : carrier;
  cadd : carrier -> carrier -> carrier;
  cmul : carrier -> carrier -> carrier;
  csub : carrier -> carrier -> carrier;
  copp : carrier -> carrier;
  cth : ring_theory c0 c1 cadd cmul csub copp (@eq carrier)
}.
Arguments c0 {_}. Arguments c1 {_}.
Arguments cadd {_} _ _. Arguments cmul {_} _ _. Arguments csub {_} _ _. Arguments copp {_} _.

Declare Scope ring_K.
Delimit Scope ring_K with K.
Infix "+" := cadd : ring_K.
Infix "*" := cmul : ring_K.
Infix "-" := csub : ring_K.
Notation "- x" := (copp x) : ring_K.
Notation "0" := c0 : ring_K.
Notation "1" := c1 : ring_K.

(** The integers, used for the concrete examples. *)
Definition ZK : CRing :=
  {| carrier := Z; c0 := 0%Z; c1 := 1%Z; cadd := Z.add; cmul := Z.mul;
     csub := Z.sub; copp := Z.opp; cth := Zth |}.
Canonical ZK.

(** ** Finite sums *)
Section Sums.
  Variable K : CRing.
  Local Open Scope ring_K.
  Add Ring KringS : (cth K).

  (** [sumf f l] is the sum of [f x] over the entries [x] of [l]. *)
  Fixpoint sumf {A} (f : A -> K) (l : list A) : K :=
    match l with
    | [] => 0
    | x :: t => f x + sumf f t
    end.

  Lemma sumf_app A (f : A -> K) l1 l2 : sumf f (l1 ++ l2) = sumf f l1 + sumf f l2.
  Proof. induction l1 as [|x t IH]; cbn; [ring | rewrite IH; ring]. Qed.

  Lemma sumf_ext A (f g : A -> K) l :
    (forall x, In x l -> f x = g x) -> sumf f l = sumf g l.
  Proof.
    induction l as [|x t IH]; cbn; intros H; [reflexivity|].
    rewrite H, IH; auto.
  Qed.

  Lemma sumf_map A B (g : A -> B) (f : B -> K) l :
    sumf f (map g l) = sumf (fun x => f (g x)) l.
  Proof. induction l as [|x t IH]; cbn; congruence. Qed.

  Lemma sumf_zero A (f : A -> K) l : (forall x, In x l -> f x = 0) -> sumf f l = 0.
  Proof.
    induction l as [|x t IH]; cbn; intros H; [reflexivity|].
    rewrite H, IH; auto; ring.
  Qed.

  Lemma sumf_add A (f g : A -> K) l :
    sumf (fun x => f x + g x) l = sumf f l + sumf g l.
  Proof. induction l as [|x t IH]; cbn; [ring | rewrite IH; ring]. Qed.

  Lemma sumf_sub A (f g : A -> K) l :
    sumf (fun x => f x - g x) l = sumf f l - sumf g l.
  Proof. induction l as [|x t IH]; cbn; [ring | rewrite IH; ring]. Qed.

  Lemma sumf_opp A (f : A -> K) l :
    sumf (fun x => - f x) l = - sumf f l.
  Proof. induction l as [|x t IH]; cbn; [ring | rewrite IH; ring]. Qed.

  Lemma sumf_mul_l A c (f : A -> K) l :
    sumf (fun x => c * f x) l = c * sumf f l.
  Proof. induction l as [|x t IH]; cbn; [ring | rewrite IH; ring]. Qed.

  Lemma sumf_mul_r A c (f : A -> K) l :
    sumf (fun x => f x * c) l = sumf f l * c.
  Proof. induction l as [|x t IH]; cbn; [ring | rewrite IH; ring]. Qed.

  Lemma sumf_swap A B (f : A -> B -> K) la lb :
    sumf (fun a => sumf (f a) lb) la = sumf (fun b => sumf (fun a => f a b) la) lb.
  Proof.
    induction la as [|a t IH]; cbn.
    - symmetry. apply sumf_zero. reflexivity.
    - rewrite IH, <- sumf_add. reflexivity.
  Qed.

  Lemma sumf_perm A (f : A -> K) l1 l2 :
    Permutation l1 l2 -> sumf f l1 = sumf f l2.
  Proof.
    induction 1; cbn; try congruence; try ring.
  Qed.

  (** A sum over a duplicate-free list that keeps one index only. *)
  Lemma sumf_single A (dec : A -> A -> bool)
        (dec_spec : forall x y, dec x y = true <-> x = y) (f : A -> K) a l :
    NoDup l -> In a l -> sumf (fun x => if dec x a then f x else 0) l = f a.
  Proof.
    induction l as [|x t IH]; cbn; intros ND HIn; [tauto|].
    inversion ND as [|? ? Hn ND']; subst.
    destruct (dec x a) eqn:E.
    - apply dec_spec in E; subst.
      rewrite sumf_zero; [ring|].
      intros y Hy. destruct (dec y a) eqn:E2; [|reflexivity].
      apply dec_spec in E2; subst; contradiction.
    - destruct HIn as [->|HIn].
      + assert (dec a a = true) by (apply dec_spec; reflexivity). congruence.
      + rewrite IH; auto; ring.
  Qed.

  Lemma sumf_single_nat (f : nat -> K) a n :
    a < n -> sumf (fun x => if Nat.eqb x a then f x else 0) (seq 0 n) = f a.
  Proof.
    intros H. apply sumf_single with (dec := Nat.eqb).
    - apply Nat.eqb_eq.
    - apply seq_NoDup.
    - apply in_seq; lia.
  Qed.

  Lemma sumf_flat_map A B (g : A -> list B) (f : B -> K) l :
    sumf f (flat_map g l) = sumf (fun a => sumf f (g a)) l.
  Proof. induction l as [|a t IH]; cbn; [reflexivity | rewrite sumf_app, IH; reflexivity]. Qed.

  Lemma sumf_if_sum A (P : A -> bool) (f : A -> K) l :
    sumf (fun x => if P x then f x else 0) l = sumf f (filter P l).
  Proof.
    induction l as [|x t IH]; cbn; [reflexivity|].
    destruct (P x); cbn; rewrite IH; ring.
  Qed.

  (** ** Arrays of values *)

  (** [x[i]] for a one-dimensional value array.  Out-of-range reads give 0; the
      theorems only read in range. *)
  Definition get (l : list K) (i : nat) : K := nth i l 0.

  (** Replace entry [i]; out-of-range writes are dropped (JAX scatter). *)
  Fixpoint upd {A} (l : list A) (i : nat) (v : A) : list A :=
    match l, i with
    | [], _ => []
    | _ :: t, O => v :: t
    | x :: t, S i' => x :: upd t i' v
    end.

  Lemma upd_length A (l : list A) i v : length (upd l i v) = length l.
  Proof. revert i; induction l as [|x t IH]; intros [|i]; cbn; auto. Qed.

  Lemma nth_upd A (l : list A) i j v d :
    nth j (upd l i v) d = if (Nat.eqb i j && Nat.ltb i (length l))%bool then v else nth j l d.
  Proof.
    revert i j; induction l as [|x t IH]; intros [|i] [|j]; cbn; try reflexivity.
    - rewrite andb_false_r. reflexivity.
    - rewrite IH. destruct (Nat.eqb i j); cbn; reflexivity.
  Qed.

  (** [base.at[idx].add(vals)] / [segment_sum]: repeated indices accumulate,
      out-of-range indices are dropped. *)
  Definition scatter_add (base : list K) (iv : list (nat * K)) : list K :=
    fold_left (fun acc p => upd acc (fst p) (get acc (fst p) + snd p)) iv base.

  Lemma scatter_add_length iv base : length (scatter_add base iv) = length base.
  Proof.
    revert base; induction iv as [|p t IH]; intros base; cbn; [reflexivity|].
    unfold scatter_add in *. rewrite IH. apply upd_length.
  Qed.

  Lemma get_scatter_add iv base i :
    i < length base ->
    get (scatter_add base iv) i =
    get base i + sumf (fun p => if Nat.eqb (fst p) i then snd p else 0) iv.
  Proof.
    revert base; induction iv as [|p t IH]; intros base Hi.
    - unfold scatter_add; cbn [fold_left sumf]. ring.
    - cbn [sumf]. change (scatter_add base (p :: t))
        with (scatter_add (upd base (fst p) (get base (fst p) + snd p)) t).
      rewrite IH by (rewrite upd_length; exact Hi).
      unfold get at 1. rewrite nth_upd.
      destruct (Nat.eqb_spec (fst p) i) as [->|Hne]; cbn.
      + destruct (Nat.ltb_spec i (length base)); [|lia]. unfold get. ring.
      + unfold get. ring.
  Qed.

  Definition zeros (n : nat) : list K := repeat 0 n.

  Lemma get_zeros n i : get (zeros n) i = 0.
  Proof.
    unfold get, zeros. revert i; induction n as [|n IH]; intros [|i]; cbn; auto.
  Qed.

  (** [jax.ops.segment_sum(vals, ids, num_segments=n)]. *)
  Definition segment_sum (n : nat) (vals : list K) (ids : list nat) : list K :=
    scatter_add (zeros n) (combine ids vals).

  Lemma get_segment_sum n vals ids i :
    i < n ->
    get (segment_sum n vals ids) i =
    sumf (fun p => if Nat.eqb (fst p) i then snd p else 0) (combine ids vals).
  Proof.
    intros H. unfold segment_sum.
    rewrite get_scatter_add by (unfold zeros; rewrite repeat_length; exact H).
    rewrite get_zeros. ring.
  Qed.

  Lemma segment_sum_length n vals ids : length (segment_sum n vals ids) = n.
  Proof. unfold segment_sum. rewrite scatter_add_length. apply repeat_length. Qed.

End Sums.

Arguments get {K} l i.
Arguments sumf {K A} f l.
Arguments zeros {K} n.
Arguments scatter_add {K} base iv.
Arguments segment_sum {K} n vals ids.

(** [arr.at[idx].set(vals)] / [arr[idx] = vals]: last write wins,
    out-of-range indices are dropped. *)
Definition scatter_set {A} (base : list A) (iv : list (nat * A)) : list A :=
  fold_left (fun acc p => upd acc (fst p) (snd p)) iv base.

Lemma scatter_set_length A (iv : list (nat * A)) base :
  length (scatter_set base iv) = length base.
Proof.
  revert base; induction iv as [|p t IH]; intros base; cbn; [reflexivity|].
  unfold scatter_set in *. rewrite IH. apply upd_length.
Qed.

Lemma nth_scatter_set_notin A (iv : list (nat * A)) base i d :
  ~ In i (map fst iv) -> nth i (scatter_set base iv) d = nth i base d.
Proof.
  revert base; induction iv as [|p t IH]; intros base H; cbn; [reflexivity|].
  unfold scatter_set in *. rewrite IH by (cbn in H; tauto).
  rewrite nth_upd. cbn in H.
  destruct (Nat.eqb_spec (fst p) i); cbn; [exfalso; tauto | reflexivity].
Qed.

Lemma nth_scatter_set_in A (iv : list (nat * A)) base i v d :
  NoDup (map fst iv) -> i < length base -> In (i, v) iv ->
  nth i (scatter_set base iv) d = v.
Proof.
  revert base; induction iv as [|p t IH]; intros base ND Hi Hin; [destruct Hin|].
  cbn in ND. inversion ND as [|? ? Hn ND']; subst.
  change (scatter_set base (p :: t)) with (scatter_set (upd base (fst p) (snd p)) t).
  destruct Hin as [->|Hin].
  - cbn in *. rewrite nth_scatter_set_notin by exact Hn.
    rewrite nth_upd, Nat.eqb_refl. cbn.
    destruct (Nat.ltb_spec i (length base)); [reflexivity | lia].
  - apply IH; auto. rewrite upd_length. exact Hi.
Qed.

(** All writes carry the same value (e.g. [mask.at[rows].set(True)]). *)
Lemma nth_scatter_set_const A (rows : list nat) (v : A) base i d :
  i < length base -> In i rows ->
  nth i (scatter_set base (map (fun r => (r, v)) rows)) d = v.
Proof.
  revert base; induction rows as [|r t IH]; intros base Hi Hin; [destruct Hin|].
  cbn [map].
  change (scatter_set base ((r, v) :: map (fun r => (r, v)) t))
    with (scatter_set (upd base r v) (map (fun r => (r, v)) t)).
  destruct (in_dec Nat.eq_dec i t) as [Hit|Hit].
  - apply IH; auto. rewrite upd_length. exact Hi.
  - destruct Hin as [->|Hin]; [|contradiction].
    rewrite nth_scatter_set_notin.
    + rewrite nth_upd, Nat.eqb_refl. cbn.
      destruct (Nat.ltb_spec i (length base)); [reflexivity | lia].
    + rewrite map_map. cbn. rewrite map_id. exact Hit.
Qed.

(** [arr[idx]] for an index array. *)
Definition gather {A} (d : A) (l : list A) (idx : list nat) : list A :=
  map (fun i => nth i l d) idx.

Lemma gather_length A (d : A) l idx : length (gather d l idx) = length idx.
Proof. apply map_length. Qed.

Lemma nth_map_in A B (f : A -> B) l i d d' :
  i < length l -> nth i (map f l) d' = f (nth i l d).
Proof.
  revert i; induction l as [|x t IH]; intros [|i] H; cbn in *; try lia; auto.
  apply IH; lia.
Qed.

Lemma nth_gather A (d : A) l idx k d' :
  k < length idx -> nth k (gather d l idx) d' = nth (nth k idx 0) l d.
Proof. intros H. unfold gather. rewrite nth_map_in with (d := 0); auto. Qed.

Lemma gather_seq_id A (d : A) l : gather d l (seq 0 (length l)) = l.
Proof.
  unfold gather. induction l as [|x t IH]; cbn; [reflexivity|].
  rewrite <- seq_shift, map_map. f_equal. exact IH.
Qed.

Lemma map_nth_seq A (d : A) l : map (fun i => nth i l d) (seq 0 (length l)) = l.
Proof. exact (gather_seq_id d l). Qed.

(** ** Sorting: [onp.argsort(keys, kind='stable')] *)

(** Insertion into a list sorted by key; an equal key goes in FRONT, so that
    sorting by repeated insertion from the right is stable. *)
Fixpoint insert_key {A} (key : A -> nat) (x : A) (l : list A) : list A :=
  match l with
  | [] => [x]
  | y :: t => if key x <=? key y then x :: l else y :: insert_key key x t
  end.

Fixpoint sort_key {A} (key : A -> nat) (l : list A) : list A :=
  match l with
  | [] => []
  | x :: t => insert_key key x (sort_key key t)
  end.

Lemma insert_key_perm A (key : A -> nat) x l : Permutation (x :: l) (insert_key key x l).
Proof.
  induction l as [|y t IH]; cbn; [reflexivity|].
  destruct (key x <=? key y); [reflexivity|].
  rewrite perm_swap. constructor. exact IH.
Qed.

Lemma sort_key_perm A (key : A -> nat) l : Permutation l (sort_key key l).
Proof.
  induction l as [|x t IH]; cbn; [constructor|].
  rewrite <- insert_key_perm. constructor. exact IH.
Qed.

Definition key_le {A} (key : A -> nat) (x y : A) : Prop := key x <= key y.

Lemma insert_key_sorted A (key : A -> nat) x l :
  StronglySorted (key_le key) l -> StronglySorted (key_le key) (insert_key key x l).
Proof.
  induction l as [|y t IH]; cbn; intros H.
  - constructor; constructor.
  - inversion H as [|? ? Hs Hf]; subst.
    destruct (Nat.leb_spec (key x) (key y)) as [Hle|Hlt].
    + constructor; [exact H|]. constructor; [exact Hle|].
      eapply Forall_impl; [|exact Hf]. unfold key_le; intros a Ha; lia.
    + constructor; [apply IH; exact Hs|].
      rewrite Forall_forall. intros z Hz.
      assert (Hz' : In z (x :: t)).
      { eapply Permutation_in; [symmetry; apply insert_key_perm | exact Hz]. }
      rewrite Forall_forall in Hf. unfold key_le in *.
      destruct Hz' as [->|Hz']; [lia | auto].
Qed.

Lemma sort_key_sorted A (key : A -> nat) l : StronglySorted (key_le key) (sort_key key l).
Proof.
  induction l as [|x t IH]; cbn; [constructor|].
  apply insert_key_sorted. exact IH.
Qed.

Lemma sort_key_length A (key : A -> nat) l : length (sort_key key l) = length l.
Proof. symmetry. apply Permutation_length, sort_key_perm. Qed.

Lemma sort_key_in A (key : A -> nat) l x : In x (sort_key key l) <-> In x l.
Proof.
  split; apply Permutation_in; [symmetry|]; apply sort_key_perm.
Qed.

(** Stability: the sub-list of entries with a given key keeps its order. *)
Lemma insert_key_filter A (key : A -> nat) k x l :
  filter (fun y => key y =? k) (insert_key key x l) =
  filter (fun y => key y =? k) (x :: l).
Proof.
  induction l as [|y t IH]; cbn; [reflexivity|].
  destruct (Nat.leb_spec (key x) (key y)) as [Hle|Hlt]; [reflexivity|].
  cbn. rewrite IH. cbn.
  destruct (Nat.eqb_spec (key x) k), (Nat.eqb_spec (key y) k); try reflexivity; lia.
Qed.

Lemma sort_key_stable A (key : A -> nat) k l :
  filter (fun y => key y =? k) (sort_key key l) = filter (fun y => key y =? k) l.
Proof.
  induction l as [|x t IH]; cbn [sort_key]; [reflexivity|].
  rewrite insert_key_filter. cbn. rewrite IH. reflexivity.
Qed.

(** [onp.argsort(keys, kind='stable')]. *)
Definition argsort (keys : list nat) : list nat :=
  sort_key (fun i => nth i keys 0) (seq 0 (length keys)).

Lemma argsort_perm keys : Permutation (seq 0 (length keys)) (argsort keys).
Proof. apply sort_key_perm. Qed.

Lemma argsort_length keys : length (argsort keys) = length keys.
Proof. unfold argsort. rewrite sort_key_length. apply seq_length. Qed.

Lemma argsort_lt keys k : In k (argsort keys) -> k < length keys.
Proof.
  intros H. eapply Permutation_in in H; [|symmetry; apply argsort_perm].
  apply in_seq in H. lia.
Qed.

Lemma argsort_NoDup keys : NoDup (argsort keys).
Proof. eapply Permutation_NoDup; [apply argsort_perm | apply seq_NoDup]. Qed.

Lemma StronglySorted_map A B (R : B -> B -> Prop) (f : A -> B) l :
  StronglySorted (fun x y => R (f x) (f y)) l -> StronglySorted R (map f l).
Proof.
  induction 1 as [|x t Hs IH Hf]; cbn; constructor; auto.
  rewrite Forall_map. exact Hf.
Qed.

Lemma argsort_sorted keys : StronglySorted le (gather 0 keys (argsort keys)).
Proof.
  unfold gather. apply StronglySorted_map.
  exact (sort_key_sorted (fun i => nth i keys 0) (seq 0 (length keys))).
Qed.

Lemma gather_perm A (d : A) l idx :
  Permutation (seq 0 (length l)) idx -> Permutation l (gather d l idx).
Proof.
  intros H. rewrite <- (gather_seq_id d l) at 1.
  unfold gather. apply Permutation_map. exact H.
Qed.

Lemma argsort_gather_perm keys : Permutation keys (gather 0 keys (argsort keys)).
Proof. apply gather_perm, argsort_perm. Qed.

(** ** [onp.searchsorted(a, v)] (side='left'): first position whose entry is >= v *)
Fixpoint searchsorted (a : list nat) (v : nat) : nat :=
  match a with
  | [] => 0
  | x :: t => if x <? v then S (searchsorted t v) else 0
  end.

Lemma searchsorted_le a v : searchsorted a v <= length a.
Proof. induction a as [|x t IH]; cbn; [lia|]. destruct (x <? v); lia. Qed.

Lemma searchsorted_hit a v :
  StronglySorted lt a -> In v a ->
  searchsorted a v < length a /\ nth (searchsorted a v) a 0 = v.
Proof.
  induction a as [|x t IH]; cbn; intros Hs Hin; [tauto|].
  inversion Hs as [|? ? Hs' Hf]; subst. rewrite Forall_forall in Hf.
  destruct Hin as [->|Hin].
  - rewrite Nat.ltb_irrefl. cbn. split; [lia|reflexivity].
  - specialize (Hf _ Hin). destruct (Nat.ltb_spec x v); [|lia].
    destruct (IH Hs' Hin) as [H1 H2]. split; [lia | exact H2].
Qed.

Lemma searchsorted_miss a v :
  ~ In v a -> forall d, d <> v -> nth (searchsorted a v) a d <> v.
Proof.
  intros Hn d Hd. destruct (Nat.lt_ge_cases (searchsorted a v) (length a)) as [H|H].
  - intros E. apply Hn. rewrite <- E. apply nth_In. exact H.
  - rewrite nth_overflow; auto.
Qed.

(** ** [onp.cumsum] *)
Fixpoint cumsum_from (acc : nat) (l : list nat) : list nat :=
  match l with
  | [] => []
  | x :: t => (acc + x) :: cumsum_from (acc + x) t
  end.
Definition cumsum (l : list nat) : list nat := cumsum_from 0 l.

Lemma cumsum_from_length l acc : length (cumsum_from acc l) = length l.
Proof. revert acc; induction l as [|x t IH]; intros acc; cbn; auto. Qed.

Fixpoint sum_nat (l : list nat) : nat :=
  match l with [] => 0 | x :: t => x + sum_nat t end.

Lemma sum_nat_app l1 l2 : sum_nat (l1 ++ l2) = sum_nat l1 + sum_nat l2.
Proof. induction l1; cbn; lia. Qed.

Lemma nth_cumsum_from l acc k :
  k < length l -> nth k (cumsum_from acc l) 0 = acc + sum_nat (firstn (S k) l).
Proof.
  revert acc k; induction l as [|x t IH]; intros acc k H; cbn in H; [lia|].
  destruct k as [|k]; [cbn; lia|].
  change (nth (S k) (cumsum_from acc (x :: t)) 0) with (nth k (cumsum_from (acc + x) t) 0).
  rewrite IH by lia. cbn [firstn sum_nat]. lia.
Qed.

(** ** Boolean masks: [a[mask]] *)
Fixpoint mask_select {A} (l : list A) (m : list bool) : list A :=
  match l, m with
  | x :: t, b :: mt => if b then x :: mask_select t mt else mask_select t mt
  | _, _ => []
  end.

(** ** Misc list lemmas *)
Lemma StronglySorted_lt_NoDup l : StronglySorted lt l -> NoDup l.
Proof.
  induction 1 as [|x t Hs IH Hf]; constructor; auto.
  rewrite Forall_forall in Hf. intros Hin. specialize (Hf _ Hin). lia.
Qed.

Lemma StronglySorted_nth A (R : A -> A -> Prop) l d i j :
  StronglySorted R l -> i < j -> j < length l -> R (nth i l d) (nth j l d).
Proof.
  intros Hs. revert i j. induction Hs as [|x t Hs IH Hf]; cbn; intros i j Hij Hj; [lia|].
  destruct j as [|j]; [lia|]. destruct i as [|i].
  - rewrite Forall_forall in Hf. apply Hf, nth_In. lia.
  - apply IH; lia.
Qed.

Lemma StronglySorted_filter A (R : A -> A -> Prop) P l :
  StronglySorted R l -> StronglySorted R (filter P l).
Proof.
  induction 1 as [|x t Hs IH Hf]; cbn; [constructor|].
  destruct (P x); [constructor; auto | auto].
  rewrite Forall_forall in *. intros y Hy. apply filter_In in Hy. apply Hf, Hy.
Qed.

Lemma combine_map_fst A B (l : list A) (l' : list B) :
  length l = length l' -> map fst (combine l l') = l.
Proof.
  revert l'; induction l as [|x t IH]; intros [|y t'] H; cbn in *; try discriminate; auto.
  f_equal. apply IH. lia.
Qed.

Lemma combine_map_snd A B (l : list A) (l' : list B) :
  length l = length l' -> map snd (combine l l') = l'.
Proof.
  revert l'; induction l as [|x t IH]; intros [|y t'] H; cbn in *; try discriminate; auto.
  f_equal. apply IH. lia.
Qed.

Lemma combine_as_map A B (l : list A) (l' : list B) da db :
  length l = length l' ->
  combine l l' = map (fun i => (nth i l da, nth i l' db)) (seq 0 (length l)).
Proof.
  revert l'; induction l as [|x t IH]; intros [|y t'] H; cbn in *; try discriminate; auto.
  f_equal. rewrite <- seq_shift, map_map. apply IH. lia.
Qed.

Lemma combine_map_both A B C (f : A -> B) (g : A -> C) l :
  combine (map f l) (map g l) = map (fun x => (f x, g x)) l.
Proof. induction l as [|x t IH]; cbn; [reflexivity | f_equal; exact IH]. Qed.

(** Sums over [combine] of two equally long arrays as sums over positions. *)
Lemma sumf_combine (K : CRing) A B (f : A -> B -> K) l l' da db :
  length l = length l' ->
  sumf (fun p => f (fst p) (snd p)) (combine l l') =
  sumf (fun i => f (nth i l da) (nth i l' db)) (seq 0 (length l)).
Proof.
  intros H. rewrite (combine_as_map l l' da db H), sumf_map. reflexivity.
Qed.
