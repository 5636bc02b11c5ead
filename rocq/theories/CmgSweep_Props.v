(** C33, C92: a whole sweep of the multigrid smoother. *)
From Coq Require Import Reals ZArith List Arith Lia Bool Sorting.Permutation Sorting.Sorted.
From Verif Require Import Base Cmg_Model Cmg_Proofs Smooth_Proofs Cmg_Props.
From Verif Require CmgSolve_Model CmgSolve_Props CmgSmooth_Props Tmc_Model.
Import ListNotations.

Lemma filter_none {A} (f : A -> bool) l : (forall x, In x l -> f x = false) -> filter f l = [].
Proof. induction l as [|a l IH]; intros H; [reflexivity|]. cbn. rewrite (H a (or_introl eq_refl)). apply IH. intros x Hx. apply H. right. exact Hx. Qed.
Lemma classes_perm (f : nat -> Z) l : forall cs, NoDup cs -> Permutation (flat_map (fun c => filter (fun n => (f n =? c)%Z) l) cs) (filter (fun n => existsb (fun c => (f n =? c)%Z) cs) l).
Proof.
  intros cs. induction l as [|a l IH]; intros ND.
  - cbn. assert (E : flat_map (fun _ : Z => @nil nat) cs = []) by (clear ND; induction cs as [|c cs IHc]; [reflexivity|exact IHc]). rewrite E. constructor.
  - specialize (IH ND). cbn [filter]. destruct (existsb (fun c => (f a =? c)%Z) cs) eqn:EX.
    + apply existsb_exists in EX. destruct EX as (c & Hc & Ec). apply Z.eqb_eq in Ec. apply in_split in Hc. destruct Hc as (c1 & c2 & ->).
      assert (N1 : ~ In c c1 /\ ~ In c c2). { split; intros X; [apply NoDup_remove_2 in ND|apply NoDup_remove_2 in ND]; apply ND, in_or_app; [left|right]; exact X. }
      assert (G : forall q, ~ In c q -> flat_map (fun c0 => if (f a =? c0)%Z then a :: filter (fun n => (f n =? c0)%Z) l else filter (fun n => (f n =? c0)%Z) l) q = flat_map (fun c0 => filter (fun n => (f n =? c0)%Z) l) q).
      { induction q as [|x q IHq]; intros Hq; [reflexivity|]. cbn. rewrite IHq by (intros X; apply Hq; right; exact X).
        destruct (Z.eqb_spec (f a) x); [exfalso; apply Hq; left; congruence|reflexivity]. }
      rewrite flat_map_app in *. cbn [flat_map] in *. rewrite (G c1), (G c2) by apply N1. rewrite Ec, Z.eqb_refl.
      rewrite <- app_comm_cons. symmetry. apply Permutation_cons_app. symmetry. exact IH.
    + assert (G : flat_map (fun c0 => if (f a =? c0)%Z then a :: filter (fun n => (f n =? c0)%Z) l else filter (fun n => (f n =? c0)%Z) l) cs = flat_map (fun c0 => filter (fun n => (f n =? c0)%Z) l) cs).
      { clear IH ND. induction cs as [|x q IHq]; [reflexivity|]. cbn in *. apply orb_false_iff in EX. destruct EX as [E1 E2]. rewrite E1, IHq by exact E2. reflexivity. }
      rewrite G. exact IH.
Qed.
Lemma classes_sorted (f : nat -> Z) l cs : StronglySorted Z.le cs -> StronglySorted (fun n m => (f n <= f m)%Z) (flat_map (fun c => filter (fun n => (f n =? c)%Z) l) cs).
Proof.
  intros H. induction H as [|c cs Hs IH Hf]; cbn [flat_map]; [constructor|].
  assert (A : forall q, (forall n, In n q -> f n = c) -> StronglySorted (fun n m => (f n <= f m)%Z) (q ++ flat_map (fun c0 => filter (fun n => (f n =? c0)%Z) l) cs)).
  { induction q as [|n q IHq]; intros Hq; [exact IH|]. cbn. constructor; [apply IHq; intros m Hm; apply Hq; right; exact Hm|].
    apply Forall_forall. intros m Hm. rewrite (Hq n (or_introl eq_refl)). apply in_app_or in Hm. destruct Hm as [Hm|Hm].
    - rewrite (Hq m (or_intror Hm)). lia.
    - apply in_flat_map in Hm. destruct Hm as (c0 & H0 & Hm). apply filter_In in Hm. destruct Hm as [_ Hm]. apply Z.eqb_eq in Hm. rewrite Hm. rewrite Forall_forall in Hf. apply Hf. exact H0. }
  apply A. intros n Hn. apply filter_In in Hn. apply Z.eqb_eq. apply Hn.
Qed.

Section Ring.
  Variable K : CRing.
  Local Open Scope ring_K.
  Add Ring KR : (cth K).
  Lemma free_idem fn i : @free K fn i * @free K fn i = @free K fn i.
  Proof. unfold free. destruct (fn (i / 3)%nat); ring. Qed.
  Lemma step_masked cn E KE fn nn D col (b u : list K) : masked K fn nn (colour_step K cn E KE fn nn D col b u).
  Proof.
    split; [unfold colour_step; rewrite map_length, seq_length; reflexivity|]. intros i Hi. unfold colour_step, get.
    rewrite (nth_map_in _ _ 0%nat) by (rewrite seq_length; exact Hi). rewrite seq_nth by exact Hi. rewrite Nat.add_0_l.
    transitivity ((nth i u 0 + (if col (i / 3)%nat then correct K cn E KE fn nn D b u i else 0)) * (@free K fn i * @free K fn i)); [ring|]. rewrite free_idem. reflexivity.
  Qed.
  Lemma add0 (a : K) : a + 0 = a. Proof. ring. Qed.
  Lemma step_none cn E KE fn nn D col (b u : list K) : masked K fn nn u -> (forall n, (n < nn)%nat -> col n = false) -> colour_step K cn E KE fn nn D col b u = u.
  Proof.
    intros [L M] H. apply (nth_ext _ _ 0 0); [unfold colour_step; rewrite map_length, seq_length; symmetry; exact L|].
    intros i Hi. unfold colour_step in *. rewrite map_length, seq_length in Hi.
    rewrite (nth_map_in _ _ 0%nat) by (rewrite seq_length; exact Hi). rewrite seq_nth by exact Hi. rewrite Nat.add_0_l.
    rewrite H by (apply Nat.div_lt_upper_bound; lia). rewrite add0. apply M. exact Hi.
  Qed.
End Ring.

(** On every level the solver builds, one sweep updates every node exactly once, one after the other, in an order of non-decreasing colour. *)
Theorem C33_sweep :
  forall (K : CRing) L d cells0 l lev (E : list K) KE free_node D b u,
    dims_pos d -> (forall e, In e cells0 -> (0 <= e < dims_cells d)%Z) ->
    nth_error (build L d cells0) l = Some lev ->
    let cn := level_cells lev in let nn := length (l_nodes lev) in
    masked K free_node nn u ->
    exists order, Permutation order (seq 0 nn) /\ StronglySorted (fun n m => (level_color lev n <= level_color lev m)%Z) order /\
      sweep K cn E KE free_node nn D (level_color lev) b u = fold_left (node_step K cn E KE free_node nn D b) order u.
Proof.
  intros K L d cells0 l lev E KE fn D b u P C F cn nn M.
  exists (flat_map (fun c => filter (fun n => (level_color lev n =? c)%Z) (seq 0 nn)) [0; 1; 2; 3; 4; 5; 6; 7]%Z). split; [|split].
  - eapply Permutation_trans; [apply classes_perm; repeat constructor; cbn; lia|].
    assert (A : forall n, existsb (fun c => (level_color lev n =? c)%Z) [0; 1; 2; 3; 4; 5; 6; 7]%Z = true).
    { intros n. destruct (C33_colours L d cells0 l lev P C F) as (_ & _ & B). specialize (B (nth n (l_nodes lev) (-1)%Z)). apply existsb_exists. exists (level_color lev n). split; [|apply Z.eqb_refl].
      unfold level_color. cbn. lia. }
    assert (G : forall q, filter (fun n => existsb (fun c => (level_color lev n =? c)%Z) [0; 1; 2; 3; 4; 5; 6; 7]%Z) q = q).
    { induction q as [|x q IH]; [reflexivity|]. cbn [filter]. rewrite A, IH. reflexivity. }
    rewrite G. apply Permutation_refl.
  - apply classes_sorted. repeat constructor; lia.
  - assert (GO : forall cs v, masked K fn nn v -> fold_left (fun u c => colour_step K cn E KE fn nn D (fun n => (level_color lev n =? c)%Z) b u) cs v =
      fold_left (node_step K cn E KE fn nn D b) (flat_map (fun c => filter (fun n => (level_color lev n =? c)%Z) (seq 0 nn)) cs) v).
    { induction cs as [|c cs IH]; intros v Mv; [reflexivity|]. cbn [fold_left flat_map]. rewrite fold_left_app, IH by apply step_masked. f_equal.
      destruct (filter (fun n => (level_color lev n =? c)%Z) (seq 0 nn)) as [|x t] eqn:EF.
      - cbn [fold_left]. apply step_none; [exact Mv|]. intros n Hn. destruct (level_color lev n =? c)%Z eqn:Q; [|reflexivity]. exfalso.
        assert (I : In n (filter (fun n => (level_color lev n =? c)%Z) (seq 0 nn))) by (apply filter_In; split; [apply in_seq; lia|exact Q]). rewrite EF in I. exact I.
      - apply (C33_sequential K L d cells0 l lev E KE fn D c (x :: t) b v P C F Mv).
        + rewrite <- EF. apply NoDup_filter, seq_NoDup.
        + intros n. rewrite <- EF, filter_In, in_seq, Z.eqb_eq. unfold nn. split; intros [H1 H2]; (split; [lia|exact H2]).
        + discriminate. }
    unfold sweep. apply GO. exact M.
Qed.
Print Assumptions C33_sweep.

(** The smoother of the solver: a sweep passes through the eight colours in order; each pass changes the dofs of its colour only and leaves
    the equations of its free nodes satisfied. [smooth k] is [k] sweeps in a row. *)
Local Open Scope R_scope.
Import CmgSolve_Model CmgSolve_Props CmgSmooth_Props Tmc_Model.
Theorem C92_sweep : forall KE L b u, wf L -> symmetric KE -> coloured L -> CmgSolve_Props.masked L u ->
  exists us : nat -> vec, us 0%nat = u /\ us 8%nat = CmgSolve_Model.sweep KE L b u /\
  forall c, (c < 8)%nat -> (forall i, color L (i / 3) <> c -> us (S c) i = us c i) /\
    (forall n k, (k < 3)%nat -> color L n = c -> CmgSolve_Model.free L (3 * n)%nat = 1 -> det3 (fun i j => stiff KE L (3 * n + i) (3 * n + j)) <> 0 ->
       rs (3 * CN L) (fun j => stiff KE L (3 * n + k) j * us (S c) j) = b (3 * n + k)%nat).
Proof.
  intros KE L b u W Sy Co M. exists (fun c => fold_left (fun v c => CmgSolve_Model.colour_step KE L b c v) (seq 0 c) u).
  split; [reflexivity|]. split; [reflexivity|]. intros c Hc. cbv beta. rewrite seq_S, fold_left_app. cbn [fold_left Nat.add].
  apply C92_gauss_seidel; try assumption. destruct c as [|c]; [exact M|]. rewrite seq_S, fold_left_app. cbn [fold_left]. apply colour_masked.
Qed.
Print Assumptions C92_sweep.
Theorem C92_smooth : forall KE L b k j u, CmgSolve_Model.smooth KE L b 0 u = u /\ CmgSolve_Model.smooth KE L b (S k) u = CmgSolve_Model.sweep KE L b (CmgSolve_Model.smooth KE L b k u) /\
  CmgSolve_Model.smooth KE L b (k + j) u = CmgSolve_Model.smooth KE L b j (CmgSolve_Model.smooth KE L b k u).
Proof.
  intros KE L b k j u. split; [reflexivity|].
  assert (A : forall k j u, CmgSolve_Model.smooth KE L b (k + j) u = CmgSolve_Model.smooth KE L b j (CmgSolve_Model.smooth KE L b k u)).
  { clear. induction k as [|k IH]; intros j u; [reflexivity|]. cbn. apply IH. }
  split; [|apply A]. replace (S k) with (k + 1)%nat by lia. rewrite A. reflexivity.
Qed.
Print Assumptions C92_smooth.
