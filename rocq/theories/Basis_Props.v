(** Property C49: the node-reordering tables. *)
From Coq Require Import String.
From Verif Require Import Base Basis_Model Basis_Spec.
From Coq Require Import List Arith ZArith Lia Permutation.
Import ListNotations.
Local Open Scope string_scope.

Ltac elem_cases H :=
  repeat match type of H with
         | context [if ?b then _ else _] => destruct b eqn:?
         end;
  repeat match goal with E : (_ =? _) = true |- _ => apply String.eqb_eq in E; subst end.

Definition supported : list string :=
  ["HEX8"; "HEX20"; "TET4"; "TET10"; "QUAD4"; "QUAD8"; "QUAD9"; "TRI3"; "TRI6"].

Lemma re_order_supported e ro : re_order_of e = Some ro -> In e supported.
Proof.
  unfold re_order_of, get_elements. intros H. elem_cases H; cbn in H; try discriminate;
    unfold supported; cbn; tauto.
Qed.

Definition is_perm (l : list nat) : bool :=
  forallb (fun i => existsb (Nat.eqb i) l) (seq 0 (length l)).

Lemma is_perm_ok l : is_perm l = true -> Permutation l (seq 0 (length l)).
Proof.
  unfold is_perm. rewrite forallb_forall. intros H.
  apply Permutation_sym. apply NoDup_Permutation_bis.
  - apply seq_NoDup.
  - rewrite seq_length. lia.
  - intros x Hx. specialize (H x Hx). apply existsb_exists in H.
    destruct H as (y & Hy & E). apply Nat.eqb_eq in E. subst. exact Hy.
Qed.

(** Every supported element type has a table, and no other. *)
Theorem C49_supported :
  forall e, (exists ro, re_order_of e = Some ro) <->
    e = "HEX8" \/ e = "HEX20" \/ e = "TET4" \/ e = "TET10" \/ e = "QUAD4" \/
    e = "QUAD8" \/ e = "QUAD9" \/ e = "TRI3" \/ e = "TRI6".
Proof.
  intros e. split.
  - intros (ro & H). apply re_order_supported in H. unfold supported in H. cbn in H.
    intuition congruence.
  - intros H. repeat destruct H as [-> | H]; try subst e; eexists; vm_compute; reflexivity.
Qed.
Print Assumptions C49_supported.

(** The table is a permutation of the nodes of the element. *)
Theorem C49_permutation :
  forall e ro, re_order_of e = Some ro ->
    length ro = node_count e /\ Permutation ro (seq 0 (node_count e)).
Proof.
  intros e ro H. pose proof (re_order_supported e ro H) as S0.
  assert (length ro = node_count e /\ is_perm ro = true) as (L & P).
  { unfold supported in S0. cbn in S0.
    repeat destruct S0 as [<- | S0]; try tauto; vm_compute in H; inversion H; subst; vm_compute; tauto. }
  split; [exact L|]. rewrite <- L. apply is_perm_ok, P.
Qed.
Print Assumptions C49_permutation.

(** It is the right permutation: mesh node [i] sits where Basix node [ro[i]] sits,
    so basis function [i] of the reordered element is the one of mesh node [i]. *)
Theorem C49_layout :
  forall e ro, re_order_of e = Some ro ->
    take_inds (basix_layout e) ro = Some (meshio_layout e).
Proof.
  intros e ro H. pose proof (re_order_supported e ro H) as S0.
  unfold supported in S0. cbn in S0.
  repeat destruct S0 as [<- | S0]; try tauto; vm_compute in H; inversion H; subst; vm_compute; reflexivity.
Qed.
Print Assumptions C49_layout.

(** *** The conversion for every permutation table *)

Lemma argwhere_perm ro i : Permutation ro (seq 0 (length ro)) -> i < length ro ->
  exists p, argwhere_eq ro i = [p] /\ p < length ro /\ nth p ro 0 = i.
Proof.
  intros P Hi.
  assert (Hin : In i ro).
  { apply (Permutation_in i (Permutation_sym P)), in_seq. lia. }
  assert (ND : NoDup ro) by (apply (Permutation_NoDup (Permutation_sym P)), seq_NoDup).
  destruct (In_nth ro i 0 Hin) as (p & Hp & E).
  exists p. split; [|split; assumption].
  unfold argwhere_eq.
  rewrite (filter_ext_in _ (fun q => Nat.eqb q p)).
  - assert (H : forall n s, s <= p < s + n -> filter (fun q => Nat.eqb q p) (seq s n) = [p]).
    { induction n as [|n IH]; intros s Hs; [lia|]. cbn.
      destruct (Nat.eqb_spec s p).
      - subst. f_equal. clear. assert (forall n s, p < s -> filter (fun q => Nat.eqb q p) (seq s n) = []) as N.
        { induction n0 as [|m IHm]; intros s Hs; [reflexivity|]. cbn.
          destruct (Nat.eqb_spec s p); [lia|]. apply IHm. lia. }
        apply N. lia.
      - apply IH. lia. }
    apply H. lia.
  - intros q Hq. apply in_seq in Hq. cbn in Hq.
    destruct (Nat.eqb_spec (nth q ro 0) i) as [E1|E1]; destruct (Nat.eqb_spec q p) as [E2|E2]; try reflexivity.
    + exfalso. apply E2. apply (proj1 (NoDup_nth ro 0) ND); [lia|lia|congruence].
    + subst. congruence.
Qed.

(** For a permutation table the conversion never fails on nodes of the element, it
    loses none (distinct nodes stay distinct), and applying the table to the result
    gives back the original indices. *)
Theorem C49_reorder_round_trip :
  forall e ro inds, re_order_of e = Some ro ->
    (forall i, In i inds -> i < node_count e) ->
    exists out, reorder_inds inds ro = Some out /\ length out = length inds /\
      (forall p, In p out -> p < node_count e) /\
      take_inds ro out = Some inds /\
      (NoDup inds -> NoDup out).
Proof.
  intros e ro inds He Hin.
  destruct (C49_permutation e ro He) as (L & P). rewrite <- L in *.
  assert (exists out, reorder_inds inds ro = Some out /\ length out = length inds /\
      (forall p, In p out -> p < length ro) /\
      take_inds ro out = Some inds) as (out & R & Lo & B & T).
  { induction inds as [|i t IH].
    - exists []. repeat split. intros p [].
    - destruct (argwhere_perm ro i P) as (p & E & Hp & N); [apply Hin; left; reflexivity|].
      destruct IH as (out & R & Lo & B & T); [intros; apply Hin; right; assumption|].
      exists (p :: out). cbn [reorder_inds take_inds]. rewrite E, R. cbn. rewrite Lo.
      assert (nth_error ro p = Some i) as NE by (rewrite (nth_error_nth' ro 0 Hp), N; reflexivity).
      rewrite NE, T. repeat split; try reflexivity.
      intros q [<-|Hq]; [exact Hp | apply B, Hq]. }
  exists out. repeat split; try assumption.
  intros ND. clear -T ND. revert inds T ND.
  induction out as [|p out IH]; intros inds T ND; [constructor|].
  cbn in T. destruct (nth_error ro p) eqn:E; [|discriminate].
  destruct (take_inds ro out) eqn:E2; [|discriminate]. inversion T; subst. inversion ND; subst.
  constructor; [|apply (IH l eq_refl); assumption].
  intros Hp. apply H1. clear -E E2 Hp. revert l E2.
  induction out as [|q out IH]; intros l E2; [destruct Hp|].
  cbn in E2. destruct (nth_error ro q) eqn:Eq; [|discriminate].
  destruct (take_inds ro out) eqn:E3; [|discriminate]. inversion E2; subst.
  destruct Hp as [->|Hp]; [left; congruence | right; apply IH; auto].
Qed.
Print Assumptions C49_reorder_round_trip.

Lemma take_inds_compose A (V W : list A) ro : take_inds V ro = Some W ->
  forall out x, take_inds ro out = Some x -> take_inds W out = take_inds V x.
Proof.
  intros H.
  assert (N : forall p i, nth_error ro p = Some i -> nth_error W p = nth_error V i).
  { revert W H. induction ro as [|r ro IH]; intros W H p i Hp; [destruct p; discriminate|].
    cbn in H. destruct (nth_error V r) eqn:E; [|discriminate].
    destruct (take_inds V ro) eqn:E2; [|discriminate]. inversion H; subst.
    destruct p; cbn in *; [inversion Hp; subst; symmetry; assumption|]. apply (IH l eq_refl). exact Hp. }
  induction out as [|p out IH]; intros x T; cbn in T.
  - inversion T; reflexivity.
  - destruct (nth_error ro p) eqn:E; [|discriminate].
    destruct (take_inds ro out) eqn:E2; [|discriminate]. inversion T; subst.
    cbn. rewrite (N p n E), (IH l eq_refl). reflexivity.
Qed.

(** What the two uses of the table mean together: for any values tabulated at the
    Basix nodes, the reordered values picked at the reordered face indices are the
    Basix values of that face; in particular the face's corner points in the mesh
    numbering are the Basix corner points. *)
Theorem C49_faces :
  forall e ro (A : Type) (vals reordered : list A) face out, re_order_of e = Some ro ->
    (forall i, In i face -> i < node_count e) ->
    take_inds vals ro = Some reordered ->
    reorder_inds face ro = Some out ->
    take_inds reordered out = take_inds vals face /\
    take_inds (meshio_layout e) out = take_inds (basix_layout e) face.
Proof.
  intros e ro A vals reordered face out He Hf Hv Ho.
  destruct (C49_reorder_round_trip e ro face He Hf) as (out' & E & _ & _ & T & _).
  assert (out' = out) by congruence. subst.
  split; [eapply take_inds_compose; eauto|].
  eapply take_inds_compose; [apply C49_layout, He | exact T].
Qed.
Print Assumptions C49_faces.

(** An index outside the element raises instead of being dropped or clamped. *)
Theorem C49_out_of_range :
  forall e ro inds i, re_order_of e = Some ro -> In i inds -> node_count e <= i ->
    reorder_inds inds ro = None.
Proof.
  intros e ro inds i He Hin Hi. destruct (C49_permutation e ro He) as (L & P).
  assert (argwhere_eq ro i = []) as E.
  { unfold argwhere_eq. rewrite (filter_ext_in _ (fun _ => false)).
    - clear. induction (seq 0 (length ro)); cbn; auto.
    - intros p Hp. apply in_seq in Hp. apply Nat.eqb_neq. intros E.
      assert (In i ro) as H by (rewrite <- E; apply nth_In; lia).
      apply (Permutation_in i P) in H. apply in_seq in H. lia. }
  induction inds as [|j t IH]; [destruct Hin|]. cbn [reorder_inds].
  destruct Hin as [->|Hin]; [rewrite E; reflexivity|]. rewrite (IH Hin).
  destruct (argwhere_eq ro j) as [|? []]; reflexivity.
Qed.
Print Assumptions C49_out_of_range.

(** The six faces of HEX8 as Basix lists them, converted. *)
Example C49_example :
  option_map (fun ro => map (fun f => reorder_inds f ro)
    [[0;1;2;3]; [0;1;4;5]; [0;2;4;6]; [1;3;5;7]; [2;3;6;7]; [4;5;6;7]]) (re_order_of "HEX8") =
  Some [Some [0;1;3;2]; Some [0;1;4;5]; Some [0;3;4;7]; Some [1;2;5;6]; Some [3;2;7;6]; Some [4;5;7;6]].
Proof. vm_compute. reflexivity. Qed.
Print Assumptions C49_example.
