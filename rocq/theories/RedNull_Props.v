(** C101: the near-null-space handed to multigrid on the reduced (periodic) system. *)
From Coq Require Import Reals List String Ascii Lia Lra.
From Verif Require Import RedNull_Model.
Import ListNotations.
Open Scope R_scope.

(** ** Specification *)

(** Sum over the rows below [n]. *)
Fixpoint Sm (n : nat) (f : nat -> R) : R :=
  match n with O => 0 | S m => Sm m f + f m end.

(** The master-slave prolongation of a classification of the full unknowns: unknown [r]
    takes the value of the reduced unknown [cl r], i.e. [(P x) r = x (cl r)]. *)
Definition master_slave (n m : nat) (cl : nat -> nat) (P : prol) : Prop :=
  p_rows P = n /\ p_cols P = m /\ p_ents P = map (fun r => (r, cl r, 1)) (seq 0 n) /\
  forall r, (r < n)%nat -> (cl r < m)%nat.

(** Number of members of a class, as a real number. *)
Definition class_size (n : nat) (cl : nat -> nat) (c : nat) : R :=
  Sm n (fun r => if Nat.eqb (cl r) c then 1 else 0).

(** Squared distance between a full vector and the prolonged reduced vector [x]. *)
Definition dist2 (n : nat) (cl : nat -> nat) (b x : nat -> R) : R :=
  Sm n (fun r => (b r - x (cl r)) * (b r - x (cl r))).

(** Product with a stored sparse matrix. *)
Definition row_dot (es : list (nat * nat * R)) (x : nat -> R) (r : nat) : R :=
  lsum (map (fun e => if Nat.eqb (ent_row e) r then ent_val e * x (ent_col e) else 0) es).

(** ** Lemmas *)
Lemma Sm_ext n f g : (forall r, (r < n)%nat -> f r = g r) -> Sm n f = Sm n g.
Proof. induction n as [|n IH]; simpl; intro H; [reflexivity|]. rewrite IH by (intros; apply H; lia). rewrite H by lia. reflexivity. Qed.
Lemma Sm_plus n f g : Sm n (fun r => f r + g r) = Sm n f + Sm n g.
Proof. induction n as [|n IH]; simpl; [lra|]. rewrite IH. lra. Qed.
Lemma Sm_scal n a f : Sm n (fun r => a * f r) = a * Sm n f.
Proof. induction n as [|n IH]; simpl; [lra|]. rewrite IH. lra. Qed.
Lemma Sm_nonneg n f : (forall r, (r < n)%nat -> 0 <= f r) -> 0 <= Sm n f.
Proof. induction n as [|n IH]; simpl; intro H; [lra|]. pose proof (H n ltac:(lia)). pose proof (IH ltac:(intros; apply H; lia)). lra. Qed.
Lemma Sm_zero n f : (forall r, (r < n)%nat -> f r = 0) -> Sm n f = 0.
Proof. intro H. rewrite (Sm_ext n f (fun _ => 0 * 0)) by (intros; rewrite H by assumption; lra). rewrite Sm_scal. lra. Qed.
Lemma Sm_swap n m f : Sm n (fun r => Sm m (fun c => f r c)) = Sm m (fun c => Sm n (fun r => f r c)).
Proof.
  induction n as [|n IH]; simpl.
  - symmetry. apply Sm_zero. reflexivity.
  - rewrite IH. symmetry. apply Sm_plus.
Qed.
Lemma lsum_app a b : lsum (a ++ b) = lsum a + lsum b.
Proof. induction a as [|x a IH]; simpl; [lra|]. unfold lsum in *. simpl. rewrite IH. lra. Qed.
Lemma lsum_Sm n f : lsum (map f (seq 0 n)) = Sm n f.
Proof. induction n as [|n IH]; [reflexivity|]. rewrite seq_S, map_app, lsum_app, IH. simpl. unfold lsum; simpl. lra. Qed.

Lemma ms_dot n m cl P y c : master_slave n m cl P ->
  col_dot (p_ents P) y c = Sm n (fun r => if Nat.eqb (cl r) c then y r else 0).
Proof.
  intros (_ & _ & E & _). unfold col_dot. rewrite E, map_map, lsum_Sm.
  apply Sm_ext. intros r _. unfold ent_col, ent_val, ent_row; simpl.
  destruct (Nat.eqb (cl r) c); lra.
Qed.
Lemma ms_weight n m cl P c : master_slave n m cl P ->
  col_weight (p_ents P) c = class_size n cl c.
Proof. intro H. unfold col_weight. rewrite (ms_dot _ _ _ _ _ _ H). reflexivity. Qed.
Lemma class_size_ge n cl c r : (r < n)%nat -> cl r = c -> 1 <= class_size n cl c.
Proof.
  unfold class_size. induction n as [|n IH]; intros L E; [lia|]. simpl.
  destruct (Nat.eq_dec r n) as [->|N].
  - rewrite E, Nat.eqb_refl.
    pose proof (Sm_nonneg n (fun r => if Nat.eqb (cl r) c then 1 else 0)
      ltac:(intros s _; cbv beta; destruct (Nat.eqb (cl s) c); lra)). lra.
  - specialize (IH ltac:(lia) E). destruct (Nat.eqb (cl n) c); lra.
Qed.
Lemma tiny_pos : 0 < tiny.
Proof. apply Rinv_0_lt_compat, pow_lt. lra. Qed.
Lemma tiny_lt1 : tiny < 1.
Proof.
  unfold tiny. replace 1 with (/ 1) by apply Rinv_1. apply Rinv_lt_contravar.
  - rewrite Rmult_1_l. apply pow_lt. lra.
  - apply Rlt_pow_R1; [lra|lia].
Qed.
Lemma maxw w : 1 <= w -> Rmax w tiny = w.
Proof. intro H. apply Rmax_left. pose proof tiny_lt1. lra. Qed.

(** ** C101 *)

(** Each reduced mode is the plain average of the full mode over the class. *)
Theorem C101_average : forall n m cl P B c j,
  master_slave n m cl P ->
  (exists r, (r < n)%nat /\ cl r = c) ->
  project_nullspace P B c j * class_size n cl c
    = Sm n (fun r => if Nat.eqb (cl r) c then B r j else 0)
  /\ 1 <= class_size n cl c.
Proof.
  intros n m cl P B c j H (r & L & E).
  pose proof (class_size_ge n cl c r L E) as W. split; [|exact W].
  unfold project_nullspace. rewrite (ms_weight _ _ _ _ _ H), (ms_dot _ _ _ _ _ _ H), (maxw _ W).
  field. lra.
Qed.
Print Assumptions C101_average.

(** Modes that are periodic (constant on each class) are reproduced exactly: prolonging the
    reduced modes gives back the full ones, and the reduced modes are the unique ones that do. *)
Theorem C101_periodic_exact : forall n m cl P B C j,
  master_slave n m cl P ->
  (forall r, (r < n)%nat -> B r j = C (cl r)) ->
  forall r, (r < n)%nat -> project_nullspace P B (cl r) j = C (cl r).
Proof.
  intros n m cl P B C j H HB r L.
  destruct (C101_average n m cl P B (cl r) j H (ex_intro _ r (conj L eq_refl))) as [E W].
  assert (S1 : Sm n (fun s => if Nat.eqb (cl s) (cl r) then B s j else 0)
             = C (cl r) * class_size n cl (cl r)).
  { unfold class_size. rewrite <- Sm_scal. apply Sm_ext. intros s Ls. cbv beta.
    destruct (Nat.eqb_spec (cl s) (cl r)) as [e|]; [|lra]. rewrite HB by exact Ls. rewrite e. lra. }
  rewrite S1 in E. apply Rmult_eq_reg_r in E; [exact E|lra].
Qed.
Print Assumptions C101_periodic_exact.

(** In general the reduced mode is the closest periodic one: no reduced vector is nearer,
    after prolongation, to the full mode, and only the averages reach the minimum. *)
Theorem C101_closest : forall n m cl P B j x,
  master_slave n m cl P ->
  let y := fun c => project_nullspace P B c j in
  dist2 n cl (fun r => B r j) x
    = dist2 n cl (fun r => B r j) y
      + Sm n (fun r => (y (cl r) - x (cl r)) * (y (cl r) - x (cl r))).
Proof.
  intros n m cl P B j x H y. unfold dist2.
  pose (cross := fun r => (B r j - y (cl r)) * (y (cl r) - x (cl r))).
  assert (Hc : Sm n cross = 0).
  { assert (Hm : forall r, (r < n)%nat -> (cl r < m)%nat) by apply H.
    assert (E1 : Sm n cross = Sm n (fun r => Sm m (fun c => if Nat.eqb (cl r) c then (B r j - y c) * (y c - x c) else 0))).
    { apply Sm_ext. intros r L. specialize (Hm r L). unfold cross. clear - Hm.
      revert Hm. generalize m. intros k. induction k as [|k IH]; intro; [lia|]. simpl.
      destruct (Nat.eq_dec (cl r) k) as [e|ne].
      - rewrite e, Nat.eqb_refl. rewrite Sm_zero; [lra|].
        intros s Ls. destruct (Nat.eqb_spec k s); [lia|reflexivity].
      - rewrite <- IH by lia. destruct (Nat.eqb_spec (cl r) k); [contradiction|]. lra. }
    rewrite E1, Sm_swap. apply Sm_zero. intros c _.
    rewrite (Sm_ext n _ (fun r => (y c - x c) * ((if Nat.eqb (cl r) c then B r j else 0)
                                   + (- y c) * (if Nat.eqb (cl r) c then 1 else 0)))).
    2:{ intros r _. destruct (Nat.eqb (cl r) c); lra. }
    rewrite Sm_scal, Sm_plus, Sm_scal. fold (class_size n cl c).
    assert (D : (exists r, (r < n)%nat /\ cl r = c) \/ (forall r, (r < n)%nat -> cl r <> c)).
    { clear. induction n as [|k IH]; [right; intros; lia|].
      destruct (Nat.eq_dec (cl k) c) as [e|ne]; [left; exists k; split; [lia|exact e]|].
      destruct IH as [(r & L & E)|N]; [left; exists r; split; [lia|exact E]|].
      right. intros r L. destruct (Nat.eq_dec r k) as [->|]; [exact ne|apply N; lia]. }
    destruct D as [D|D].
    - destruct (C101_average n m cl P B c j H D) as [E _]. fold (y c) in E. rewrite <- E. lra.
    - rewrite Sm_zero. 2:{ intros r L. destruct (Nat.eqb_spec (cl r) c); [exfalso; apply (D r L); assumption|reflexivity]. }
      unfold class_size. rewrite Sm_zero. 2:{ intros r L. destruct (Nat.eqb_spec (cl r) c); [exfalso; apply (D r L); assumption|reflexivity]. }
      lra. }
  rewrite (Sm_ext n _ (fun r => ((B r j - y (cl r)) * (B r j - y (cl r))
      + (y (cl r) - x (cl r)) * (y (cl r) - x (cl r))) + 2 * cross r)).
  2:{ intros r _. unfold cross. ring. }
  rewrite Sm_plus, Sm_scal, Hc, Sm_plus. lra.
Qed.
Print Assumptions C101_closest.

(** A constant mode stays constant for every prolongation with a positive column. *)
Theorem C101_constant : forall P k c j,
  tiny <= col_weight (p_ents P) c ->
  project_nullspace P (fun _ _ => k) c j = k.
Proof.
  intros P k c j H. unfold project_nullspace. rewrite Rmax_left by exact H.
  assert (E : col_dot (p_ents P) (fun _ => k) c = k * col_weight (p_ents P) c).
  { clear H. unfold col_weight, col_dot. induction (p_ents P) as [|e es IH]; [unfold lsum; simpl; lra|].
    unfold lsum in *; simpl. rewrite IH. destruct (Nat.eqb (ent_col e) c); lra. }
  rewrite E. field. pose proof tiny_pos. lra.
Qed.
Print Assumptions C101_constant.

(** Not exact beyond master-slave prolongations: with interpolated rows a mode in the range
    of the prolongation is not recovered. *)
Theorem C101_interpolated_refuted : exists P C,
  (forall r, (r < p_rows P)%nat -> row_dot (p_ents P) (fun _ => 1) r = 1) /\
  (forall c, (c < p_cols P)%nat -> 1 <= col_weight (p_ents P) c) /\
  project_nullspace P (fun r _ => row_dot (p_ents P) C r) 0 0 <> C 0%nat.
Proof.
  exists {| p_rows := 3; p_cols := 2; p_ents := [(0%nat,0%nat,1); (1%nat,0%nat,/2); (1%nat,1%nat,/2); (2%nat,1%nat,1)] |}.
  exists (fun c => if Nat.eqb c 0 then 0 else 1).
  split; [|split].
  - intros r L. simpl in L. destruct r as [|[|[|r]]]; [..|lia];
      unfold row_dot, lsum, ent_row, ent_col, ent_val; simpl; lra.
  - intros c L. simpl in L. destruct c as [|[|c]]; [..|lia];
      unfold col_weight, col_dot, lsum, ent_row, ent_col, ent_val; simpl; lra.
  - unfold project_nullspace, col_weight, col_dot, row_dot, lsum, ent_row, ent_col, ent_val; simpl.
    rewrite maxw by lra. intro E.
    assert (X : 0 < (1 * (0 + (0 + (0 + (0 + 0)))) + 0 + / 2) ) by lra.
    match type of E with ?a / ?b = 0 =>
      assert (Y : a = 0) by (apply (Rmult_eq_reg_r (/ b)); [unfold Rdiv in E; rewrite E; lra | apply Rinv_neq_0_compat; lra]) end.
    lra.
Qed.
Print Assumptions C101_interpolated_refuted.

(** Rigid rotations are not periodic: after the projection they are no longer rotations of the
    cell, so the reduced multigrid gets modes that are not (near) null vectors. *)
Theorem C101_rotation_refuted : exists n m cl P B,
  master_slave n m cl P /\ exists r, (r < n)%nat /\ project_nullspace P B (cl r) 0 <> B r 0%nat.
Proof.
  exists 2%nat, 1%nat, (fun _ => 0%nat), {| p_rows := 2; p_cols := 1; p_ents := [(0%nat,0%nat,1); (1%nat,0%nat,1)] |},
    (fun r _ => INR r).
  assert (H : master_slave 2 1 (fun _ => 0%nat) {| p_rows := 2; p_cols := 1; p_ents := [(0%nat,0%nat,1); (1%nat,0%nat,1)] |}).
  { repeat split. intros; lia. }
  split; [exact H|]. exists 0%nat. split; [lia|].
  pose proof (C101_average 2 1 (fun _ => 0%nat) _ (fun r _ => INR r) 0 0 H
     (ex_intro _ 0%nat (conj (Nat.lt_0_succ 1) eq_refl))) as [E _].
  unfold class_size in E. simpl in E. simpl. intro Z. rewrite Z in E. lra.
Qed.
Print Assumptions C101_rotation_refuted.

(** The option rule: which near-null-space the reduced multigrid is built with. *)
Theorem C101_options : forall rbm P n_red,
  (* default and the name "rigid_body", in any capitalisation *)
  (forall ns, ns = NsNone \/ (exists s, ns = NsName s /\ lower s = "rigid_body"%string) ->
     reduced_nullspace rbm P n_red ns
       = Some (match rbm with Some B => NsModes (project_modes P B) | None => NsName "constant" end)) /\
  (* any other name is passed on as it is *)
  (forall s, lower s <> "rigid_body"%string -> reduced_nullspace rbm P n_red (NsName s) = Some (NsName s)) /\
  (* an array with the full number of rows is projected, with the reduced number is used as it
     is, and is refused otherwise *)
  (forall B, m_rows B = p_rows P ->
     reduced_nullspace rbm P n_red (NsModes B) = Some (NsModes (project_modes P B))) /\
  (forall B, m_rows B <> p_rows P -> m_rows B = n_red ->
     reduced_nullspace rbm P n_red (NsModes B) = Some (NsModes B)) /\
  (forall B, reduced_nullspace rbm P n_red (NsModes B) = None <-> m_rows B <> p_rows P /\ m_rows B <> n_red) /\
  (* whatever modes come out have one row per reduced unknown *)
  (forall ns B, n_red = p_cols P -> reduced_nullspace rbm P n_red ns = Some (NsModes B) -> m_rows B = n_red).
Proof.
  intros rbm P n_red. split; [|split; [|split; [|split; [|split]]]].
  - intros ns [->|(s & -> & E)]; simpl; [destruct rbm; reflexivity|].
    rewrite E. simpl. destruct rbm; reflexivity.
  - intros s E. simpl. destruct (String.eqb_spec (lower s) "rigid_body"); [contradiction|reflexivity].
  - intros B E. simpl. rewrite E, Nat.eqb_refl. reflexivity.
  - intros B N E. simpl. destruct (Nat.eqb_spec (m_rows B) (p_rows P)); [contradiction|].
    rewrite E, Nat.eqb_refl. reflexivity.
  - intro B. simpl. destruct (Nat.eqb_spec (m_rows B) (p_rows P)) as [e|e].
    { split; [discriminate|]. intros [N _]. contradiction. }
    destruct (Nat.eqb_spec (m_rows B) n_red) as [e2|e2].
    { split; [discriminate|]. intros [_ N]. contradiction. }
    split; [intros _; split; assumption|reflexivity].
  - intros ns B E H. rewrite E in *. destruct ns as [|s|A]; simpl in H.
    + destruct rbm; inversion H; reflexivity.
    + destruct (String.eqb (lower s) "rigid_body"); [destruct rbm|]; inversion H; reflexivity.
    + destruct (Nat.eqb_spec (m_rows A) (p_rows P)); [inversion H; reflexivity|].
      destruct (Nat.eqb_spec (m_rows A) (p_cols P)); [|discriminate]. inversion H. congruence.
Qed.
Print Assumptions C101_options.

(** A periodic row of three unknowns, the first and the last identified, with the mode (1,5,1):
    the hypotheses of the exactness theorem hold and the reduced mode is (1,5). *)
Example C101_example :
  let cl := fun r => match r with 1%nat => 1%nat | _ => 0%nat end in
  let P := {| p_rows := 3; p_cols := 2; p_ents := [(0%nat,0%nat,1); (1%nat,1%nat,1); (2%nat,0%nat,1)] |} in
  let B := fun (r : nat) (_ : nat) => match r with 1%nat => 5 | _ => 1 end in
  master_slave 3 2 cl P /\
  (forall r, (r < 3)%nat -> B r 0%nat = (fun c => match c with 1%nat => 5 | _ => 1 end) (cl r)) /\
  project_nullspace P B 0 0 = 1 /\ project_nullspace P B 1 0 = 5 /\ lower "Rigid_Body" = "rigid_body"%string.
Proof.
  intros cl P B.
  assert (H : master_slave 3 2 cl P).
  { repeat split. intros r L. destruct r as [|[|[|r]]]; simpl; lia. }
  assert (HB : forall r, (r < 3)%nat -> B r 0%nat = (fun c => match c with 1%nat => 5 | _ => 1 end) (cl r)).
  { intros r L. destruct r as [|[|[|r]]]; simpl; [reflexivity..|lia]. }
  split; [exact H|]. split; [exact HB|].
  split; [apply (C101_periodic_exact 3 2 cl P B _ 0 H HB 0); lia|].
  split; [apply (C101_periodic_exact 3 2 cl P B _ 0 H HB 1); lia|reflexivity].
Qed.
