From Coq Require Import QArith Bool List Lia Lqa.
From Verif Require Import Num_Model Newton_Model Newton_Spec.
Import ListNotations.
Open Scope Q_scope.
Set Implicit Arguments.

Lemma step_length_pos rho k : 0 < rho -> 0 < step_length rho k.
Proof. intros H. induction k; cbn; [reflexivity|]. apply Qmult_lt_0_compat; assumption. Qed.

Lemma step_length_le rho j k : 0 < rho -> rho <= 1 -> (j <= k)%nat -> step_length rho k <= step_length rho j.
Proof.
  intros H H1 Hjk. induction Hjk; [apply Qle_refl|]. cbn.
  apply Qle_trans with (step_length rho m); [|exact IHHjk].
  assert (P := step_length_pos m H). nra.
Qed.

Section LS.
  Variable res : list Q -> resid.
  Variables (sol delta : list Q) (r : resid) (c1 rho : Q).
  Hypothesis Hc : 0 < c1.
  Hypothesis Hrho : 0 < rho.

  Lemma qsgn_pos q : 0 < q -> qsgn q = 1%Z.
  Proof.
    unfold Qlt, qsgn. cbn. intros H. apply Z.sgn_pos. lia.
  Qed.

  Lemma acceptable_spec alpha : 0 < alpha -> norm_ok r -> norm_ok (res (axpy sol alpha delta)) ->
    acceptable res c1 sol delta r alpha = true <->
    sufficient c1 alpha (r_norm r) (r_norm (res (axpy sol alpha delta))).
  Proof.
    intros Ha [Hr _] [Ht Hn]. unfold acceptable, r_dot, sufficient.
    set (t := res (axpy sol alpha delta)) in *. rewrite andb_true_iff, negb_true_iff.
    assert (Pq : 0 < c1 * alpha) by (apply Qmult_lt_0_compat; assumption).
    destruct (r_norm r) as [| | |a] eqn:Er; try contradiction; destruct (r_norm t) as [| | |b] eqn:Et; try contradiction.
    - split; [intros [_ H]; cbn in H; discriminate | intros []].
    - split; [intros [_ H]; cbn in H; discriminate | intros []].
    - split; [intros [_ H]; cbn in H; discriminate | intros []].
    - split; [intros [_ H]; cbn in H; discriminate | intros []].
    - split; [intros [_ H]; cbn in H; discriminate | intros []].
    - split; [auto|]. intros _. split.
      + destruct (r_nan t); [specialize (Hn eq_refl); discriminate|reflexivity].
      + cbn -[ninf_mul Qmult Qlt qsgn]. unfold ninf_mul. rewrite (qsgn_pos Pq). reflexivity.
    - split; [intros [_ H]; cbn in H; discriminate | intros []].
    - split; [intros [_ H]; cbn in H; discriminate | intros []].
    - assert (Nt : r_nan t = false) by (destruct (r_nan t); [specialize (Hn eq_refl); discriminate|reflexivity]).
      cbn -[Qmult Qplus Qopp Qle_bool]. rewrite Qle_bool_iff. split.
      + intros [_ H]. nra.
      + intros H. split; [exact Nt|]. nra.
  Qed.

  Lemma scan_alpha n c : k_alpha (scan n (scan_step res c1 rho sol delta r) c) = 
    (fix go n a := match n with O => a | S n => go n (a * rho) end) n (k_alpha c).
  Proof. revert c. induction n; intros c; cbn; [reflexivity|]. rewrite IHn. reflexivity. Qed.

  Lemma scan_found n c : k_found c = true ->
    let c' := scan n (scan_step res c1 rho sol delta r) c in
    k_found c' = true /\ k_sol c' = k_sol c /\ k_norm c' = k_norm c /\ k_best c' = k_best c.
  Proof.
    revert c. induction n; intros c H; cbn; [auto|].
    destruct (IHn (scan_step res c1 rho sol delta r c)) as (A & B & C & D).
    - cbn. rewrite H. reflexivity.
    - cbn in *. rewrite A, B, C, D, H, andb_false_r. auto.
  Qed.

  Lemma scan_none n i c : k_alpha c = step_length rho i -> k_found c = false ->
    (forall k, (k < n)%nat -> acceptable res c1 sol delta r (step_length rho (i + k)) = false) ->
    k_found (scan n (scan_step res c1 rho sol delta r) c) = false.
  Proof.
    revert i c. induction n; intros i c Ha Hf H; cbn; [exact Hf|].
    apply (IHn (S i)).
    - cbn. rewrite Ha. reflexivity.
    - cbn. rewrite Hf, Ha. specialize (H 0%nat). rewrite Nat.add_0_r in H. rewrite H by lia. reflexivity.
    - intros k Hk. replace (S i + k)%nat with (i + S k)%nat by lia. apply H. lia.
  Qed.

  Lemma scan_first n i k c : k_alpha c = step_length rho i -> k_found c = false -> (k < n)%nat ->
    acceptable res c1 sol delta r (step_length rho (i + k)) = true ->
    (forall j, (j < k)%nat -> acceptable res c1 sol delta r (step_length rho (i + j)) = false) ->
    let c' := scan n (scan_step res c1 rho sol delta r) c in
    k_found c' = true /\ k_sol c' = axpy sol (step_length rho (i + k)) delta /\
    k_norm c' = r_norm (res (axpy sol (step_length rho (i + k)) delta)) /\
    k_best c' = Fin (step_length rho (i + k)).
  Proof.
    revert i k c. induction n; intros i k c Ha Hf Hk Hacc Hno; [lia|]. cbn.
    destruct k as [|k].
    - rewrite Nat.add_0_r in *. 
      destruct (@scan_found n (scan_step res c1 rho sol delta r c)) as (A & B & C & D).
      + cbn. rewrite Ha, Hacc, orb_true_r. reflexivity.
      + cbn in *. rewrite A, B, C, D, Ha, Hacc, Hf. cbn. auto.
    - replace (i + S k)%nat with (S i + k)%nat in * by lia.
      apply IHn; auto.
      + cbn. rewrite Ha. reflexivity.
      + cbn. rewrite Hf, Ha. specialize (Hno 0%nat). rewrite Nat.add_0_r in Hno. rewrite Hno by lia. reflexivity.
      + lia.
      + intros j Hj. replace (S i + j)%nat with (i + S j)%nat by lia. apply Hno. lia.
  Qed.

  (** The least accepted index, if any. *)
  Lemma first_or_none (P : nat -> bool) n :
    (exists k, (k < n)%nat /\ P k = true /\ forall j, (j < k)%nat -> P j = false) \/
    (forall k, (k < n)%nat -> P k = false).
  Proof.
    induction n as [|n IH]; [right; intros; lia|].
    destruct IH as [(k & Hk & HP & Hj) | H].
    - left. exists k. auto with arith.
    - destruct (P n) eqn:E; [left; exists n; auto|]. right. intros k Hk.
      destruct (Nat.eq_dec k n); [subst; exact E | apply H; lia].
  Qed.
End LS.

Section Loop.
  Context {A : Type}.
  Variables (cond : A -> bool) (body : A -> A).

  Lemma times_succ k (s : A) : times (S k) body s = times k body (body s).
  Proof. induction k; [reflexivity|]. cbn in *. rewrite IHk. reflexivity. Qed.

  (** A measure bounded by the fuel makes the loop terminate. *)
  Lemma while_spec (it : A -> nat) (mx : nat) fuel s :
    (forall x, cond x = true -> (it x < mx)%nat) ->
    (forall x, it (body x) = S (it x)) ->
    (mx <= it s + fuel)%nat ->
    exists k, while fuel cond body s = Some (times k body s) /\ (k <= fuel)%nat /\
      cond (times k body s) = false /\ (forall j, (j < k)%nat -> cond (times j body s) = true).
  Proof.
    intros Hc Hb. revert s. induction fuel as [|fuel IH]; intros s Hm.
    - exists 0%nat. cbn [while times]. destruct (cond s) eqn:E.
      + apply Hc in E. lia.
      + repeat split; auto. intros; lia.
    - cbn [while]. destruct (cond s) eqn:E.
      + destruct (IH (body s)) as (k & H1 & H2 & H3 & H4).
        { rewrite Hb. lia. }
        exists (S k). rewrite times_succ. repeat split; [exact H1 | lia | exact H3 |].
        intros [|j] Hj; [exact E|]. rewrite times_succ. apply H4. lia.
      + exists 0%nat. cbn. repeat split; auto; [lia|]. intros; lia.
  Qed.
End Loop.
