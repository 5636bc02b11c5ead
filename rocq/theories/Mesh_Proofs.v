(** Lemmas for mesh generation. *)
From Coq Require Import String ZArith QArith Bool Arith List Lia Lqa.
From Verif Require Import Base Assembly_Proofs Pbc_Proofs Band_Proofs Mesh_Model.
Import ListNotations.
Local Open Scope nat_scope.

Lemma nq_pos n : 0 < n -> (0 < nq n)%Q.
Proof. intros H. unfold nq. change 0%Q with (inject_Z 0). rewrite <- Zlt_Qlt. lia. Qed.
Lemma nq_lt n m : n < m -> (nq n < nq m)%Q.
Proof. intros H. unfold nq. rewrite <- Zlt_Qlt. lia. Qed.
Lemma nq_inj n m : (nq n == nq m)%Q -> n = m.
Proof. unfold nq. intros H. apply (proj1 (inject_Z_injective _ _)) in H. lia. Qed.
Lemma nq_S n : (nq (n + 1) == nq n + 1)%Q.
Proof. unfold nq. rewrite Nat2Z.inj_add, inject_Z_plus. reflexivity. Qed.
Lemma nq_add n m : (nq (n + m) == nq n + nq m)%Q.
Proof. unfold nq. rewrite Nat2Z.inj_add, inject_Z_plus. reflexivity. Qed.
Lemma nq_mul n m : (nq (n * m) == nq n * nq m)%Q.
Proof. unfold nq. rewrite Nat2Z.inj_mul, inject_Z_mult. reflexivity. Qed.

Lemma linspaceQ_length a b n : length (linspaceQ a b n) = n.
Proof. unfold linspaceQ. rewrite map_length, seq_length. reflexivity. Qed.
(** Entry i of linspace(a, a+L, N+1) is a + i L / N. *)
Lemma linspaceQ_nth a L N i d : 0 < N -> i <= N -> (nth i (linspaceQ a (a + L) (N + 1)) d == a + nq i * L / nq N)%Q.
Proof.
  intros HN Hi. unfold linspaceQ. rewrite (nth_indep _ d (a + nq 0 * ((a + L - a) / nq (N + 1 - 1)))%Q) by (rewrite map_length, seq_length; lia).
  rewrite (map_nth (fun i => (a + nq i * ((a + L - a) / nq (N + 1 - 1)))%Q) (seq 0 (N + 1)) 0 i).
  rewrite seq_nth by lia. replace (N + 1 - 1) with N by lia. apply nq_pos in HN. cbn [Nat.add].
  field. intros E. rewrite E in HN. lra.
Qed.

Lemma grid_points_length xs ys : length (grid_points xs ys) = length xs * length ys.
Proof. induction xs as [|x t IH]; [reflexivity|]. unfold grid_points in *. cbn [flat_map]. rewrite app_length, map_length. cbn [length Nat.mul]. f_equal. exact IH. Qed.
Lemma grid_points_nth xs ys i j d : i < length xs -> j < length ys ->
  nth (i * length ys + j) (grid_points xs ys) d = (nth i xs 0%Q, nth j ys 0%Q).
Proof.
  intros Hi Hj. unfold grid_points. rewrite flat_map_concat_map. rewrite nth_concat_rows.
  - rewrite (nth_map_in (fun x => map (fun y => (x, y)) ys) xs 0%Q) by exact Hi. rewrite nth_map_in with (d := 0%Q) by exact Hj. reflexivity.
  - intros r Hr. apply in_map_iff in Hr. destruct Hr as (x & <- & _). apply map_length.
  - rewrite map_length. exact Hi.
  - exact Hj.
Qed.

Lemma flat2_length {A} (f : nat -> nat -> A) Nx Ny :
  length (flat_map (fun i => map (fun j => f i j) (seq 0 Ny)) (seq 0 Nx)) = Nx * Ny.
Proof.
  rewrite flat_map_concat_map, (@concat_const_length _ Ny).
  - rewrite map_length, seq_length. reflexivity.
  - intros r Hr. apply in_map_iff in Hr. destruct Hr as (i & <- & _). rewrite map_length, seq_length. reflexivity.
Qed.
Lemma flat2_nth {A} (f : nat -> nat -> A) Nx Ny i j d : i < Nx -> j < Ny ->
  nth (i * Ny + j) (flat_map (fun i => map (fun j => f i j) (seq 0 Ny)) (seq 0 Nx)) d = f i j.
Proof.
  intros Hi Hj. rewrite flat_map_concat_map, nth_concat_rows.
  - rewrite nth_map_in with (d := 0) by (rewrite seq_length; exact Hi). rewrite seq_nth by exact Hi.
    rewrite nth_map_in with (d := 0) by (rewrite seq_length; exact Hj). rewrite seq_nth by exact Hj. reflexivity.
  - intros r Hr. apply in_map_iff in Hr. destruct Hr as (k & <- & _). rewrite map_length, seq_length. reflexivity.
  - rewrite map_length, seq_length. exact Hi.
  - exact Hj.
Qed.
Lemma flat2_in {A} (f : nat -> nat -> A) Nx Ny x :
  In x (flat_map (fun i => map (fun j => f i j) (seq 0 Ny)) (seq 0 Nx)) <-> exists i j, i < Nx /\ j < Ny /\ f i j = x.
Proof.
  rewrite in_flat_map. split.
  - intros (i & Hi & Hx). apply in_map_iff in Hx. destruct Hx as (j & E & Hj). apply in_seq in Hi, Hj. exists i, j. repeat split; try lia. exact E.
  - intros (i & j & Hi & Hj & E). exists i. split; [apply in_seq; lia|]. apply in_map_iff. exists j. split; [exact E|apply in_seq; lia].
Qed.
Lemma split2 Ny c : 0 < Ny -> exists i j, c = i * Ny + j /\ j < Ny.
Proof. intros H. exists (c / Ny), (c mod Ny). split; [rewrite Nat.mul_comm; apply Nat.div_mod; lia|apply Nat.mod_upper_bound; lia]. Qed.
Lemma pair_inj w i j i' j' : j < w -> j' < w -> i * w + j = i' * w + j' -> i = i' /\ j = j'.
Proof.
  intros A B E. assert (i = i').
  { destruct (Nat.lt_trichotomy i i') as [H|[H|H]]; [|exact H|]; exfalso; nia. }
  subst. split; [reflexivity|lia].
Qed.

(** ** Fine-grid compaction *)
Section F.
  Variables (offs : list (nat * nat)) (Nx Ny : nat).
  Local Notation U := (used offs Nx Ny).
  Hypothesis Ho : forall o, In o offs -> fst o <= 2 /\ snd o <= 2.
  Lemma used_iff n : U n = true <-> exists i j o, i < Nx /\ j < Ny /\ In o offs /\ n = gid Ny (2 * i + fst o) (2 * j + snd o).
  Proof.
    unfold used. rewrite existsb_exists. split.
    - intros (x & Hx & E). apply Nat.eqb_eq in E. subst x. apply in_concat in Hx. destruct Hx as (c & Hc & Hn).
      apply flat2_in in Hc. destruct Hc as (i & j & Hi & Hj & <-). apply in_map_iff in Hn. destruct Hn as (o & <- & Ho').
      exists i, j, o. auto.
    - intros (i & j & o & Hi & Hj & Ho' & ->). exists (gid Ny (2 * i + fst o) (2 * j + snd o)). split; [|apply Nat.eqb_refl].
      apply in_concat. exists (fine_cell offs Ny i j). split; [apply flat2_in; exists i, j; auto|].
      apply in_map_iff. exists o. auto.
  Qed.
  Lemma used_range n : U n = true -> n < nx_fine Nx * ny_fine Ny.
  Proof.
    intros H. apply used_iff in H. destruct H as (i & j & o & Hi & Hj & Hin & ->). apply Ho in Hin. unfold gid, nx_fine, ny_fine. nia.
  Qed.
  Lemma keep_nth N r : forall n, n < N -> U n = true -> r = rank U n -> nth r (filter U (seq 0 N)) 0 = n.
  Proof.
    induction N as [|N IH]; intros n Hn Hu ->; [lia|].
    rewrite seq_S, filter_app. cbn [Nat.add]. destruct (Nat.eq_dec n N) as [->|Hne].
    - rewrite app_nth2 by (unfold rank; lia). unfold rank. rewrite Nat.sub_diag. cbn. rewrite Hu. reflexivity.
    - rewrite app_nth1; [apply IH; [lia|exact Hu|reflexivity]|]. change (rank U n < rank U N). apply rank_lt; [lia|exact Hu].
  Qed.
  Lemma keep_in n : U n = true -> old_to_new offs Nx Ny n = Some (rank U n) /\ rank U n < length (filter U (seq 0 (nx_fine Nx * ny_fine Ny))) /\
    nth (rank U n) (filter U (seq 0 (nx_fine Nx * ny_fine Ny))) 0 = n.
  Proof.
    intros H. assert (R := used_range n H). split; [unfold old_to_new; rewrite H; reflexivity|].
    split; [apply (@rank_lt U _ _ R H)|]. apply keep_nth; auto.
  Qed.
  Lemma fine_point dx dy x0 y0 n d : 0 < Nx -> 0 < Ny -> forall i j, i <= 2 * Nx -> j <= 2 * Ny -> n = gid Ny i j -> U n = true ->
    let p := nth (rank U n) (fine_points offs Nx Ny dx dy x0 y0) d in
    (fst p == x0 + nq i * dx / nq (2 * Nx))%Q /\ (snd p == y0 + nq j * dy / nq (2 * Ny))%Q.
  Proof.
    intros HX HY i j Hi Hj E Hu p. destruct (keep_in n Hu) as (_ & L & K).
    unfold p, fine_points. rewrite nth_map_in with (d := 0) by exact L. rewrite K, E. unfold gid.
    assert (EP := grid_points_nth (linspaceQ x0 (x0 + dx) (nx_fine Nx)) (linspaceQ y0 (y0 + dy) (ny_fine Ny)) i j (0, 0)%Q).
    rewrite !linspaceQ_length in EP. rewrite EP by (unfold nx_fine, ny_fine; lia).
    cbn [fst snd]. unfold nx_fine, ny_fine. split; apply linspaceQ_nth; lia.
  Qed.
End F.
