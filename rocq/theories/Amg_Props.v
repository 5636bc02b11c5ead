(** Property C90: the near-null space handed to algebraic multigrid. *)
From Coq Require Import Reals List Arith Bool String Ascii Lia Lra.
From Verif Require Import Tmc_Model Tmc_Props Adaptive_Model Adaptive_Props FeFace_Model FeFace_Props Amg_Model.
Import ListNotations.
Open Scope R_scope.

Definition skew (W : nat -> nat -> R) : Prop := forall i j, W i j = - W j i.
Definition free (rows : option (list nat)) (d : nat) : Prop := match rows with Some rows => ~ In d rows | None => True end.
Lemma zero_free rows B d j : free rows d -> zero_rows rows B d j = B d j.
Proof. destruct rows as [rows|]; [|reflexivity]. intros H. cbn. destruct (existsb (Nat.eqb d) rows) eqn:E; [|reflexivity]. exfalso. apply H. apply existsb_exists in E. destruct E as (x & Hx & E). apply Nat.eqb_eq in E. subst x. exact Hx. Qed.
Lemma zero_fixed rows B d j : ~ free rows d -> zero_rows rows B d j = 0.
Proof. destruct rows as [rows|]; [|intros H; exfalso; apply H; exact I]. intros H. cbn. destruct (existsb (Nat.eqb d) rows) eqn:E; [reflexivity|]. exfalso. apply H. intros G. apply Bool.not_true_iff_false in E. apply E. apply existsb_exists. exists d. split; [exact G|apply Nat.eqb_refl]. Qed.

(** The modes at node [n], component [i]. *)
Definition mode3 (x : nat -> R) (i c : nat) : R :=
  match c with
  | 0%nat => delta i 0 | 1%nat => delta i 1 | 2%nat => delta i 2
  | 3%nat => match i with 1%nat => - x 2%nat | 2%nat => x 1%nat | _ => 0 end
  | 4%nat => match i with 0%nat => x 2%nat | 2%nat => - x 0%nat | _ => 0 end
  | 5%nat => match i with 0%nat => - x 1%nat | 1%nat => x 0%nat | _ => 0 end
  | _ => 0
  end.
Definition mode2 (x : nat -> R) (i c : nat) : R :=
  match c with 0%nat => delta i 0 | 1%nat => delta i 1 | 2%nat => match i with 0%nat => - x 1%nat | 1%nat => x 0%nat | _ => 0 end | _ => 0 end.
Lemma split_dof s n i : (i < s)%nat -> ((n * s + i) mod s = i /\ (n * s + i) / s = n)%nat.
Proof. intros H. split; [rewrite Nat.add_comm, Nat.mod_add by lia; apply Nat.mod_small, H|rewrite Nat.add_comm, Nat.div_add by lia; rewrite Nat.div_small by exact H; lia]. Qed.
Lemma modes3_at x n i c : (i < 3)%nat -> (c < 6)%nat -> modes3 x (n * 3 + i) c = mode3 (x n) i c.
Proof. intros Hi Hc. unfold modes3, set_stride. destruct (split_dof 3 n i Hi) as [-> ->]. destruct i as [|[|[|i]]]; try lia; destruct c as [|[|[|[|[|[|c]]]]]]; try lia; reflexivity. Qed.
Lemma modes2_at x n i c : (i < 2)%nat -> (c < 3)%nat -> modes2 x (n * 2 + i) c = mode2 (x n) i c.
Proof. intros Hi Hc. unfold modes2, set_stride. destruct (split_dof 2 n i Hi) as [-> ->]. destruct i as [|[|i]]; try lia; destruct c as [|[|[|c]]]; try lia; reflexivity. Qed.
Lemma rbm_inv p rows B : rigid_body_modes p rows = Some B ->
  (dim p = 3%nat /\ vec p = [3%nat] /\ B = {| cols := 6; entry := zero_rows rows (modes3 (coords p)) |}) \/ (dim p = 2%nat /\ vec p = [2%nat] /\ B = {| cols := 3; entry := zero_rows rows (modes2 (coords p)) |}).
Proof.
  unfold rigid_body_modes. destruct (vec p) as [|v [|v2 vs]]; try discriminate. destruct (Nat.eqb v (dim p)) eqn:E; [|discriminate]. apply Nat.eqb_eq in E. subst v.
  destruct (Nat.eqb (dim p) 3) eqn:E3; [apply Nat.eqb_eq in E3; intros [= <-]; left; rewrite E3; repeat split|]. destruct (Nat.eqb (dim p) 2) eqn:E2; [|discriminate]. apply Nat.eqb_eq in E2. intros [= <-]. right. rewrite E2. repeat split.
Qed.

(** When modes are given, and how many. *)
Theorem C90_given p rows : (rigid_body_modes p rows = None <-> ~ ((dim p = 2%nat \/ dim p = 3%nat) /\ vec p = [dim p])) /\
  forall B, rigid_body_modes p rows = Some B -> cols B = default_num_candidates p /\ (cols B = match dim p with 3%nat => 6%nat | _ => 3%nat end).
Proof.
  split.
  - split.
    + intros H [D V]. unfold rigid_body_modes in H. rewrite V, Nat.eqb_refl in H. destruct D as [D|D]; rewrite D in H; discriminate.
    + intros H. destruct (rigid_body_modes p rows) eqn:E; [|reflexivity]. exfalso. apply H. apply rbm_inv in E. destruct E as [(D & V & _)|(D & V & _)]; rewrite D, V; auto.
  - intros B H. apply rbm_inv in H. unfold default_num_candidates. destruct H as [(D & V & ->)|(D & V & ->)]; rewrite V, D; split; reflexivity.
Qed.
Print Assumptions C90_given.
(** Every column is an infinitesimal rigid motion [x |-> a + W x] with [W] skew on the free degrees of freedom, and zero on the
    constrained ones. *)
Theorem C90_rigid p rows B c : rigid_body_modes p rows = Some B -> (c < cols B)%nat ->
  (exists a W, skew W /\ forall n i, (i < dim p)%nat -> free rows (n * dim p + i) -> entry B (n * dim p + i) c = a i + rs (dim p) (fun j => W i j * points p n j)) /\
  forall d, ~ free rows d -> entry B d c = 0.
Proof.
  intros H Hc. apply rbm_inv in H. split.
  2: { intros d Hd. destruct H as [(_ & _ & ->)|(_ & _ & ->)]; apply zero_fixed, Hd. }
  destruct H as [(D & _ & ->)|(D & _ & ->)]; cbn [cols entry] in *; rewrite D.
  - set (m := fun i => rs (num_nodes p) (fun k => points p k i) / INR (num_nodes p)).
    set (W := fun (i j : nat) => match c, i, j with 3%nat, 1%nat, 2%nat => -1 | 3%nat, 2%nat, 1%nat => 1 | 4%nat, 0%nat, 2%nat => 1 | 4%nat, 2%nat, 0%nat => -1 | 5%nat, 0%nat, 1%nat => -1 | 5%nat, 1%nat, 0%nat => 1 | _, _, _ => 0 end).
    exists (fun i => (if Nat.ltb c 3 then delta i c else 0) - rs 3 (fun j => W i j * m j)), W. split.
    + intros i j. unfold W. destruct c as [|[|[|[|[|[|c]]]]]]; try lia; destruct i as [|[|[|i]]]; destruct j as [|[|[|j]]]; lra.
    + intros n i Hi Hf. rewrite (zero_free rows _ _ _ Hf), modes3_at by assumption. unfold W, coords, mode3, m.
      destruct c as [|[|[|[|[|[|c]]]]]]; try lia; destruct i as [|[|[|i]]]; try lia; unfold delta, coords; cbn [rs Nat.ltb Nat.leb Nat.eqb]; lra.
  - set (m := fun i => rs (num_nodes p) (fun k => points p k i) / INR (num_nodes p)).
    set (W := fun (i j : nat) => match c, i, j with 2%nat, 0%nat, 1%nat => -1 | 2%nat, 1%nat, 0%nat => 1 | _, _, _ => 0 end).
    exists (fun i => (if Nat.ltb c 2 then delta i c else 0) - rs 2 (fun j => W i j * m j)), W. split.
    + intros i j. unfold W. destruct c as [|[|[|c]]]; try lia; destruct i as [|[|i]]; destruct j as [|[|j]]; lra.
    + intros n i Hi Hf. rewrite (zero_free rows _ _ _ Hf), modes2_at by assumption. unfold W, coords, mode2, m.
      destruct c as [|[|[|c]]]; try lia; destruct i as [|[|i]]; try lia; unfold delta, coords; cbn [rs Nat.ltb Nat.leb Nat.eqb]; lra.
Qed.
Print Assumptions C90_rigid.
(** So, without boundary conditions, every column strains no cell: at every quadrature point of every cell of positive volume the
    computed displacement gradient is skew. *)
Theorem C90_no_strain p B c nn (cell : nat -> nat) N dN : rigid_body_modes p None = Some B -> (c < cols B)%nat ->
  let X := fun a i => points p (cell a) i in let u := fun a v => entry B (cell a * dim p + v) c in
  unity nn N -> unity_grads (dim p) nn dN -> detd (dim p) (jacobian nn dN X) <> 0 ->
  forall v j, (v < dim p)%nat -> (j < dim p)%nat -> to_grad (dim p) nn dN X u v j + to_grad (dim p) nn dN X u j v = 0.
Proof.
  intros H Hc X u U Ug D v j Hv Hj. destruct (C90_rigid p None B c H Hc) as [(a & W & Sk & E) _].
  assert (Dm : dim_ok (dim p)) by (apply rbm_inv in H; destruct H as [(Dp & _)|(Dp & _)]; rewrite Dp; [right|left]; reflexivity).
  assert (G : forall v j, (v < dim p)%nat -> (j < dim p)%nat -> to_grad (dim p) nn dN X u v j = W v j).
  { intros v' j' Hv' Hj'. rewrite <- (proj2 (C89_affine (dim p) nn N dN X a W v' U) Dm Ug D j' Hj'). unfold to_grad. apply rs_ext. intros k _. f_equal. unfold u. rewrite E by (exact Hv' || exact I). reflexivity. }
  rewrite !G by assumption. rewrite (Sk v j). ring.
Qed.
Print Assumptions C90_no_strain.
(** And every infinitesimal rigid motion is a combination of the columns on the free degrees of freedom. *)
Theorem C90_complete p rows B (a : nat -> R) W : rigid_body_modes p rows = Some B -> skew W ->
  exists q, forall n i, (i < dim p)%nat -> free rows (n * dim p + i) -> a i + rs (dim p) (fun j => W i j * points p n j) = rs (cols B) (fun c => q c * entry B (n * dim p + i) c).
Proof.
  intros H Sk. apply rbm_inv in H. set (m := fun i => rs (num_nodes p) (fun k => points p k i) / INR (num_nodes p)).
  assert (W0 : forall i, W i i = 0) by (intros i; pose proof (Sk i i); lra).
  destruct H as [(D & _ & ->)|(D & _ & ->)]; cbn [cols entry] in *; rewrite D.
  - exists (fun c => match c with 0%nat => a 0%nat + rs 3 (fun j => W 0%nat j * m j) | 1%nat => a 1%nat + rs 3 (fun j => W 1%nat j * m j) | 2%nat => a 2%nat + rs 3 (fun j => W 2%nat j * m j) | 3%nat => W 2%nat 1%nat | 4%nat => W 0%nat 2%nat | _ => W 1%nat 0%nat end).
    intros n i Hi Hf. rewrite (rs_ext 6 _ (fun c => match c with 0%nat => a 0%nat + rs 3 (fun j => W 0%nat j * m j) | 1%nat => a 1%nat + rs 3 (fun j => W 1%nat j * m j) | 2%nat => a 2%nat + rs 3 (fun j => W 2%nat j * m j) | 3%nat => W 2%nat 1%nat | 4%nat => W 0%nat 2%nat | _ => W 1%nat 0%nat end * mode3 (coords p n) i c)) by (intros c Hc; rewrite (zero_free rows _ _ _ Hf), modes3_at by assumption; reflexivity).
    assert (Ec : forall i, coords p n i = points p n i - m i) by reflexivity. cbn [rs].
    destruct i as [|[|[|i]]]; try lia; unfold mode3, delta; cbn [Nat.eqb]; rewrite !Ec, ?(Sk 0%nat 1%nat), ?(Sk 1%nat 2%nat), ?(Sk 2%nat 0%nat), ?W0; ring.
  - exists (fun c => match c with 0%nat => a 0%nat + rs 2 (fun j => W 0%nat j * m j) | 1%nat => a 1%nat + rs 2 (fun j => W 1%nat j * m j) | _ => W 1%nat 0%nat end).
    intros n i Hi Hf. rewrite (rs_ext 3 _ (fun c => match c with 0%nat => a 0%nat + rs 2 (fun j => W 0%nat j * m j) | 1%nat => a 1%nat + rs 2 (fun j => W 1%nat j * m j) | _ => W 1%nat 0%nat end * mode2 (coords p n) i c)) by (intros c Hc; rewrite (zero_free rows _ _ _ Hf), modes2_at by assumption; reflexivity).
    assert (Ec : forall i, coords p n i = points p n i - m i) by reflexivity. cbn [rs]. destruct i as [|[|i]]; try lia; unfold mode2, delta; cbn [Nat.eqb]; rewrite !Ec, ?(Sk 0%nat 1%nat), ?W0; ring.
Qed.
Print Assumptions C90_complete.

(** ** Scaling and independence *)
Lemma rs_dofs s f : forall n, rs (n * s) f = rs n (fun k => rs s (fun i => f (k * s + i)%nat)).
Proof.
  induction n as [|n IH]; [reflexivity|]. cbn [rs]. rewrite <- IH. replace (S n * s)%nat with (n * s + s)%nat by lia.
  assert (G : forall k m, rs (m + k) f = rs m f + rs k (fun i => f (m + i)%nat)).
  { induction k as [|k IHk]; intros m; [rewrite Nat.add_0_r; cbn; ring|]. rewrite Nat.add_succ_r. cbn [rs]. rewrite IHk. ring. }
  apply G.
Qed.
Lemma centred p i : num_nodes p <> 0%nat -> rs (num_nodes p) (fun n => coords p n i) = 0.
Proof. intros H. unfold coords. rewrite rs_minus, rs_const. field. apply not_0_INR, H. Qed.
(** Without boundary conditions the translations are orthogonal to each other and to the rotations. *)
Theorem C90_orthogonal p B c c' : rigid_body_modes p None = Some B -> num_nodes p <> 0%nat -> (c < dim p)%nat -> (c' < cols B)%nat -> c <> c' ->
  rs (num_nodes p * dim p) (fun d => entry B d c * entry B d c') = 0.
Proof.
  intros H Hn Hc Hc' Hd. rewrite rs_dofs. apply rbm_inv in H. pose proof (centred p 0 Hn) as Z0. pose proof (centred p 1 Hn) as Z1. pose proof (centred p 2 Hn) as Z2.
  destruct H as [(D & _ & ->)|(D & _ & ->)]; cbn [cols entry zero_rows] in *; rewrite D in *.
  - rewrite (rs_ext _ _ (fun n => rs 3 (fun i => mode3 (coords p n) i c * mode3 (coords p n) i c'))) by (intros n _; apply rs_ext; intros i Hi; rewrite !modes3_at by lia; reflexivity).
    assert (G : forall n, rs 3 (fun i => mode3 (coords p n) i c * mode3 (coords p n) i c') = mode3 (coords p n) c c') by (intros n; destruct c as [|[|[|c]]]; try lia; destruct c' as [|[|[|[|[|[|c']]]]]]; try lia; unfold mode3, delta; cbn; ring).
    rewrite (rs_ext _ _ (fun n => mode3 (coords p n) c c')) by (intros; apply G).
    destruct c as [|[|[|c]]]; try lia; destruct c' as [|[|[|[|[|[|c']]]]]]; try lia; cbn [mode3]; unfold delta; cbn [Nat.eqb]; try (apply rs_zero; reflexivity); try assumption;
      first [rewrite (rs_ext _ _ (fun n => -1 * coords p n 0%nat)) by (intros; lra); rewrite rs_scale, Z0; ring
            |rewrite (rs_ext _ _ (fun n => -1 * coords p n 1%nat)) by (intros; lra); rewrite rs_scale, Z1; ring
            |rewrite (rs_ext _ _ (fun n => -1 * coords p n 2%nat)) by (intros; lra); rewrite rs_scale, Z2; ring].
  - rewrite (rs_ext _ _ (fun n => rs 2 (fun i => mode2 (coords p n) i c * mode2 (coords p n) i c'))) by (intros n _; apply rs_ext; intros i Hi; rewrite !modes2_at by lia; reflexivity).
    assert (G : forall n, rs 2 (fun i => mode2 (coords p n) i c * mode2 (coords p n) i c') = mode2 (coords p n) c c') by (intros n; destruct c as [|[|c]]; try lia; destruct c' as [|[|[|c']]]; try lia; unfold mode2, delta; cbn; ring).
    rewrite (rs_ext _ _ (fun n => mode2 (coords p n) c c')) by (intros; apply G).
    destruct c as [|[|c]]; try lia; destruct c' as [|[|[|c']]]; try lia; cbn [mode2]; unfold delta; cbn [Nat.eqb]; try (apply rs_zero; reflexivity); try assumption.
    rewrite (rs_ext _ _ (fun n => -1 * coords p n 1%nat)) by (intros; lra). rewrite rs_scale, Z1. ring.
Qed.
Print Assumptions C90_orthogonal.
(** The columns are independent when the nodes do not lie on one line (in the plane: when there are two different nodes). *)
Theorem C90_independent3 p B n0 n1 n2 (q : nat -> R) : dim p = 3%nat -> rigid_body_modes p None = Some B -> (n0 < num_nodes p)%nat -> (n1 < num_nodes p)%nat -> (n2 < num_nodes p)%nat ->
  (exists i, (i < 3)%nat /\ cross (fun k => points p n1 k - points p n0 k) (fun k => points p n2 k - points p n0 k) i <> 0) ->
  (forall d, (d < num_nodes p * 3)%nat -> rs 6 (fun c => q c * entry B d c) = 0) -> forall c, (c < 6)%nat -> q c = 0.
Proof.
  intros D H H0 H1 H2 Hx E. apply rbm_inv in H. destruct H as [(_ & _ & ->)|(D2 & _)]; [|lia]. cbn [entry zero_rows] in E.
  assert (Ec : forall n i, coords p n i = points p n i - coords p n i + coords p n i - (points p n i - coords p n i)) by (intros; ring).
  set (m := fun i => rs (num_nodes p) (fun k => points p k i) / INR (num_nodes p)). assert (Em : forall n i, coords p n i = points p n i - m i) by reflexivity.
  assert (G : forall n, (n < num_nodes p)%nat -> q 0%nat + q 4%nat * (points p n 2%nat - m 2%nat) - q 5%nat * (points p n 1%nat - m 1%nat) = 0 /\
      q 1%nat - q 3%nat * (points p n 2%nat - m 2%nat) + q 5%nat * (points p n 0%nat - m 0%nat) = 0 /\ q 2%nat + q 3%nat * (points p n 1%nat - m 1%nat) - q 4%nat * (points p n 0%nat - m 0%nat) = 0).
  { intros n Hn. pose proof (E (n * 3 + 0)%nat ltac:(lia)) as A0. pose proof (E (n * 3 + 1)%nat ltac:(lia)) as A1. pose proof (E (n * 3 + 2)%nat ltac:(lia)) as A2.
    cbn [rs] in A0, A1, A2. rewrite !modes3_at in A0, A1, A2 by lia. unfold mode3, delta in A0, A1, A2. cbn [Nat.eqb] in A0, A1, A2. rewrite !Em in A0, A1, A2. repeat split; lra. }
  clear Ec. destruct (G n0 H0) as (A0 & A1 & A2). destruct (G n1 H1) as (B0 & B1 & B2). destruct (G n2 H2) as (C0 & C1 & C2).
  set (u := fun k => points p n1 k - points p n0 k) in *. set (v := fun k => points p n2 k - points p n0 k) in *.
  assert (U0 : q 4%nat * u 2%nat = q 5%nat * u 1%nat) by (unfold u; lra). assert (U1 : q 5%nat * u 0%nat = q 3%nat * u 2%nat) by (unfold u; lra). assert (U2 : q 3%nat * u 1%nat = q 4%nat * u 0%nat) by (unfold u; lra).
  assert (V0 : q 4%nat * v 2%nat = q 5%nat * v 1%nat) by (unfold v; lra). assert (V1 : q 5%nat * v 0%nat = q 3%nat * v 2%nat) by (unfold v; lra). assert (V2 : q 3%nat * v 1%nat = q 4%nat * v 0%nat) by (unfold v; lra).
  (* the axial vector is parallel to both differences, so it vanishes *)
  assert (K : forall w x, w * x = 0 -> x <> 0 -> w = 0) by (intros w x Hw Hz; apply Rmult_integral in Hw; tauto).
  assert (Q : q 3%nat = 0 /\ q 4%nat = 0 /\ q 5%nat = 0).
  { destruct Hx as (i & Hi & Hz).
    assert (P : forall r, (r = q 3%nat \/ r = q 4%nat \/ r = q 5%nat) -> r * cross u v i = 0).
    { intros r Hr. destruct i as [|[|[|i]]]; try lia; cbn [cross].
      - destruct Hr as [->|[->| ->]].
        + transitivity ((q 3%nat * u 1%nat) * v 2%nat - u 2%nat * (q 3%nat * v 1%nat)); [ring|]. rewrite U2, V2. transitivity ((q 4%nat * v 2%nat) * u 0%nat - (q 4%nat * u 2%nat) * v 0%nat); [ring|]. rewrite V0, U0.
          transitivity ((q 5%nat * u 0%nat) * v 1%nat - (q 5%nat * v 0%nat) * u 1%nat); [ring|]. rewrite U1, V1. transitivity (u 2%nat * (q 3%nat * v 1%nat) - (q 3%nat * u 1%nat) * v 2%nat); [ring|].
          assert (Y : (q 3%nat * u 1%nat) * v 2%nat - u 2%nat * (q 3%nat * v 1%nat) = u 2%nat * (q 3%nat * v 1%nat) - (q 3%nat * u 1%nat) * v 2%nat); [|lra].
          transitivity ((q 4%nat * v 2%nat) * u 0%nat - (q 4%nat * u 2%nat) * v 0%nat); [rewrite U2, V2; ring|]. rewrite V0, U0. transitivity ((q 5%nat * u 0%nat) * v 1%nat - (q 5%nat * v 0%nat) * u 1%nat); [ring|]. rewrite U1, V1. ring.
        + transitivity (u 1%nat * (q 4%nat * v 2%nat) - (q 4%nat * u 2%nat) * v 1%nat); [ring|]. rewrite V0, U0. ring.
        + transitivity ((q 5%nat * u 1%nat) * v 2%nat - u 2%nat * (q 5%nat * v 1%nat)); [ring|]. rewrite <- U0, <- V0. ring.
      - destruct Hr as [->|[->| ->]].
        + transitivity ((q 3%nat * u 2%nat) * v 0%nat - u 0%nat * (q 3%nat * v 2%nat)); [ring|]. rewrite <- U1, <- V1. ring.
        + transitivity (u 2%nat * (q 4%nat * v 0%nat) - (q 4%nat * u 0%nat) * v 2%nat); [ring|]. rewrite <- U2, <- V2.
          assert (Y : u 2%nat * (q 3%nat * v 1%nat) - q 3%nat * u 1%nat * v 2%nat = (q 3%nat * u 2%nat) * v 1%nat - u 1%nat * (q 3%nat * v 2%nat)) by ring. rewrite Y, <- U1, <- V1.
          assert (Y2 : q 5%nat * u 0%nat * v 1%nat - u 1%nat * (q 5%nat * v 0%nat) = u 0%nat * (q 5%nat * v 1%nat) - (q 5%nat * u 1%nat) * v 0%nat) by ring.
          assert (Y3 : u 0%nat * (q 5%nat * v 1%nat) - (q 5%nat * u 1%nat) * v 0%nat = (q 4%nat * u 0%nat) * v 2%nat - u 2%nat * (q 4%nat * v 0%nat)) by (rewrite <- V0, <- U0; ring).
          rewrite <- U2, <- V2 in Y3. rewrite <- U1, <- V1 in Y. lra.
        + transitivity (u 2%nat * (q 5%nat * v 0%nat) - (q 5%nat * u 0%nat) * v 2%nat); [ring|]. rewrite U1, V1. ring.
      - destruct Hr as [->|[->| ->]].
        + transitivity (u 0%nat * (q 3%nat * v 1%nat) - (q 3%nat * u 1%nat) * v 0%nat); [ring|]. rewrite U2, V2. ring.
        + transitivity ((q 4%nat * u 0%nat) * v 1%nat - u 1%nat * (q 4%nat * v 0%nat)); [ring|]. rewrite <- U2, <- V2. ring.
        + assert (Y1 : q 5%nat * (u 0%nat * v 1%nat - u 1%nat * v 0%nat) = (q 5%nat * u 0%nat) * v 1%nat - u 1%nat * (q 5%nat * v 0%nat)) by ring. rewrite U1, V1 in Y1.
          assert (Y2 : q 5%nat * (u 0%nat * v 1%nat - u 1%nat * v 0%nat) = u 0%nat * (q 5%nat * v 1%nat) - (q 5%nat * u 1%nat) * v 0%nat) by ring. rewrite <- V0, <- U0 in Y2.
          assert (Y3 : u 0%nat * (q 4%nat * v 2%nat) - q 4%nat * u 2%nat * v 0%nat = (q 4%nat * u 0%nat) * v 2%nat - u 2%nat * (q 4%nat * v 0%nat)) by ring. rewrite <- U2, <- V2 in Y3. lra. }
    repeat split; (eapply K; [apply P; auto|exact Hz]). }
  destruct Q as (Q3 & Q4 & Q5). rewrite Q3, Q4, Q5 in *. intros c Hc. destruct c as [|[|[|[|[|[|c]]]]]]; try lia; lra.
Qed.
Print Assumptions C90_independent3.
Theorem C90_independent2 p B n0 n1 (q : nat -> R) : dim p = 2%nat -> rigid_body_modes p None = Some B -> (n0 < num_nodes p)%nat -> (n1 < num_nodes p)%nat ->
  (exists i, (i < 2)%nat /\ points p n0 i <> points p n1 i) ->
  (forall d, (d < num_nodes p * 2)%nat -> rs 3 (fun c => q c * entry B d c) = 0) -> forall c, (c < 3)%nat -> q c = 0.
Proof.
  intros D H H0 H1 Hx E. apply rbm_inv in H. destruct H as [(D2 & _)|(_ & _ & ->)]; [lia|]. cbn [entry zero_rows] in E.
  set (m := fun i => rs (num_nodes p) (fun k => points p k i) / INR (num_nodes p)). assert (Em : forall n i, coords p n i = points p n i - m i) by reflexivity.
  assert (G : forall n, (n < num_nodes p)%nat -> q 0%nat - q 2%nat * (points p n 1%nat - m 1%nat) = 0 /\ q 1%nat + q 2%nat * (points p n 0%nat - m 0%nat) = 0).
  { intros n Hn. pose proof (E (n * 2 + 0)%nat ltac:(lia)) as A0. pose proof (E (n * 2 + 1)%nat ltac:(lia)) as A1.
    cbn [rs] in A0, A1. rewrite !modes2_at in A0, A1 by lia. unfold mode2, delta in A0, A1. cbn [Nat.eqb] in A0, A1. rewrite !Em in A0, A1. split; lra. }
  destruct (G n0 H0) as [A0 A1]. destruct (G n1 H1) as [B0 B1].
  assert (Q : q 2%nat = 0).
  { destruct Hx as (i & Hi & Hz). assert (P : q 2%nat * (points p n0 i - points p n1 i) = 0) by (destruct i as [|[|i]]; try lia; lra). apply Rmult_integral in P. destruct P as [P|P]; [exact P|exfalso; lra]. }
  rewrite Q in *. intros c Hc. destruct c as [|[|[|c]]]; try lia; lra.
Qed.
Print Assumptions C90_independent2.
(** A three-dimensional mesh whose nodes lie on a line parallel to the x axis gets a zero column. *)
Theorem C90_line p B n i : dim p = 3%nat -> rigid_body_modes p None = Some B -> num_nodes p <> 0%nat -> (forall k, (k < num_nodes p)%nat -> points p k 1%nat = points p 0%nat 1%nat /\ points p k 2%nat = points p 0%nat 2%nat) ->
  (n < num_nodes p)%nat -> (i < 3)%nat -> entry B (n * 3 + i) 3 = 0.
Proof.
  intros D H Hn E Hk Hi. apply rbm_inv in H. destruct H as [(_ & _ & ->)|(D2 & _)]; [|lia]. cbn [entry zero_rows]. rewrite modes3_at by lia.
  assert (Z : forall j, j = 1%nat \/ j = 2%nat -> coords p n j = 0).
  { intros j Hj. unfold coords. assert (Ej : forall k, (k < num_nodes p)%nat -> points p k j = points p 0%nat j) by (intros k Hk'; destruct (E k Hk'); destruct Hj; subst j; assumption).
    rewrite (rs_ext _ _ (fun _ => points p 0%nat j)) by (intros; apply Ej; assumption). rewrite rs_const, (Ej n Hk). field. apply not_0_INR, Hn. }
  destruct i as [|[|[|i]]]; try lia; cbn [mode3]; rewrite ?Z by auto; lra.
Qed.
Print Assumptions C90_line.

(** ** Presets *)
(** The whole table: no choice gives the rigid body modes or, for other problems, the constants; presets do not depend on letter
    case; ["rigid_body"] is refused where there are no modes, and every other name is refused, ["auto"] of the documentation included. *)
Theorem C90_presets p rows :
  resolve NSnone p rows = Some (rigid_body_modes p rows, false) /\ (forall B, resolve (NSarray B) p rows = Some (Some B, false)) /\
  (forall s, resolve (NSstr s) p rows = resolve (NSstr (lower s)) p rows) /\
  (forall B, rigid_body_modes p rows = Some B -> resolve (NSstr "rigid_body") p rows = Some (Some B, false)) /\ (rigid_body_modes p rows = None -> resolve (NSstr "rigid_body") p rows = None) /\
  resolve (NSstr "constant") p rows = Some (None, false) /\ resolve (NSstr "adaptive_sa") p rows = Some (None, true) /\
  (forall s, lower s <> "rigid_body"%string -> lower s <> "constant"%string -> lower s <> "adaptive_sa"%string -> resolve (NSstr s) p rows = None) /\ resolve (NSstr "auto") p rows = None.
Proof.
  assert (LA : forall c, lower_ascii (lower_ascii c) = lower_ascii c) by (intros c; destruct c as [[] [] [] [] [] [] [] []]; reflexivity).
  assert (L : forall s, lower (lower s) = lower s) by (induction s as [|c s IH]; [reflexivity|cbn [lower]; rewrite LA, IH; reflexivity]).
  split; [reflexivity|]. split; [reflexivity|]. split; [intros s; unfold resolve; rewrite L; reflexivity|]. split; [intros B H; cbn; rewrite H; reflexivity|]. split; [intros H; cbn; rewrite H; reflexivity|].
  split; [reflexivity|]. split; [reflexivity|]. split; [|reflexivity]. intros s H1 H2 H3. unfold resolve. apply String.eqb_neq in H1, H2, H3. rewrite H1, H2, H3. reflexivity.
Qed.
Print Assumptions C90_presets.
(** The adaptive search looks for as many candidates as asked for, otherwise for as many as there are rigid body modes (one if there
    are none); any other choice builds from the resolved columns. *)
Theorem C90_build ns k p rows :
  (build ns k p rows = None <-> resolve ns p rows = None) /\
  (forall B, resolve ns p rows = Some (B, false) -> build ns k p rows = Some (Aggregation B)) /\
  (forall B, resolve ns p rows = Some (B, true) -> exists c, build ns k p rows = Some (Adaptive c) /\ (dim p <> 0%nat -> (1 <= c)%nat) /\ (forall j, k = Some j -> j <> 0%nat -> c = j) /\
     (k = None \/ k = Some 0%nat -> (forall M, rigid_body_modes p rows = Some M -> c = cols M) /\ (vec p <> [dim p] -> c = 1%nat))) .
Proof.
  unfold build. split; [|split].
  - destruct (resolve ns p rows) as [[B []]|]; split; try discriminate; reflexivity.
  - intros B ->. reflexivity.
  - intros B ->. eexists. split; [reflexivity|]. split; [|split].
    + intros Hp. assert (G : (1 <= default_num_candidates p)%nat).
      { unfold default_num_candidates. destruct (vec p) as [|v [|v2 vs]]; try lia. destruct (Nat.eqb v (dim p)); [|lia]. apply Nat.div_le_lower_bound; [lia|]. nia. }
      destruct k as [[|k]|]; [exact G|lia|exact G].
    + intros j -> Hj. destruct j; [contradiction|reflexivity].
    + intros Hk. assert (Ed : match k with Some (S j) => S j | _ => default_num_candidates p end = default_num_candidates p) by (destruct Hk; subst k; reflexivity). rewrite Ed. split.
      * intros M HM. symmetry. apply (proj2 (C90_given p rows) M HM).
      * intros V. unfold default_num_candidates. destruct (vec p) as [|v [|v2 vs]]; try reflexivity. destruct (Nat.eqb v (dim p)) eqn:E; [|reflexivity]. apply Nat.eqb_eq in E. subst v. contradiction.
Qed.
Print Assumptions C90_build.
(** The outer method: as asked; by default GMRES (restart 50 unless given) when the hierarchy is rebuilt at every solve, and in the lowered
    options conjugate gradients exactly for a sample found symmetric positive definite. Without sample parameters there is no lowering. *)
Theorem C90_method s t spd r :
  rebuild_solver s = (if String.eqb s "auto" then "gmres"%string else s) /\ (rebuild_restart s r <> None <-> rebuild_solver s = "gmres"%string) /\
  (forall k, rebuild_restart s r = Some k -> k = match r with None => 50%nat | Some 0%nat => 50%nat | Some k => k end) /\
  (lowered_solver s t spd = None <-> t = false) /\ (forall m, lowered_solver s t spd = Some m -> m = "auto"%string -> False) /\
  (s <> "auto"%string -> t = true -> lowered_solver s t spd = Some s) /\ (lowered_solver "auto" true spd = Some "cg"%string <-> spd = true).
Proof.
  unfold rebuild_restart, lowered_solver. split; [reflexivity|]. split.
  { destruct (String.eqb (rebuild_solver s) "gmres") eqn:E; [apply String.eqb_eq in E; split; [intros _; exact E|discriminate]|apply String.eqb_neq in E; split; [intros H; exfalso; apply H; reflexivity|intros H; contradiction]]. }
  split. { intros k. destruct (String.eqb (rebuild_solver s) "gmres"); [|discriminate]. intros [= <-]. destruct r as [[|r]|]; reflexivity. }
  split; [destruct t; split; congruence|]. split.
  { intros m H Hm. subst m. destruct t; [|discriminate]. injection H as H. destruct (String.eqb s "auto") eqn:E; [destruct spd; discriminate|apply String.eqb_neq in E; contradiction]. }
  split; [intros Hs ->; apply String.eqb_neq in Hs; rewrite Hs; reflexivity|]. cbn. destruct spd; split; congruence.
Qed.
Print Assumptions C90_method.

(** A tetrahedron: six independent modes. *)
Definition tet : problem := {| vec := [3%nat]; dim := 3; num_nodes := 4; points := tet_r |}.
Example C90_example : exists B, rigid_body_modes tet None = Some B /\ cols B = 6%nat /\ entry B 1 5 = -1 / 4 /\ entry B 4 5 = 3 / 4 /\
  (exists i, (i < 3)%nat /\ cross (fun k => points tet 1 k - points tet 0 k) (fun k => points tet 2 k - points tet 0 k) i <> 0) /\ unity_grads 3 4 tet_dN /\ detd 3 (jacobian 4 tet_dN tet_r) = 1.
Proof.
  eexists. split; [reflexivity|]. split; [reflexivity|]. split; [cbn; unfold coords; cbn; lra|]. split; [cbn; unfold coords; cbn; lra|]. split; [exists 2%nat; split; [lia|cbn; lra]|]. split.
  - intros k Hk. destruct k as [|[|[|k]]]; try lia; cbn; lra.
  - unfold detd, det3, jacobian. cbn. lra.
Qed.
(** With the degrees of freedom of node 0 fixed. *)
Example C90_fixed : exists B, rigid_body_modes tet (Some [0; 1; 2]%nat) = Some B /\ entry B 1 1 = 0 /\ entry B 4 1 = 1.
Proof. eexists. split; [reflexivity|]. split; reflexivity. Qed.
