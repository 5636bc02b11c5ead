(** C127: the explicit schemes converge with their advertised order for nonlinear right hand sides. *)
From Coq Require Import Reals List String Lra Lia Arith.
From Coquelicot Require Import Coquelicot.
From Verif Require Import Explicit_Model.
Import ListNotations.
Local Open Scope R_scope.

(** ** Specification *)
(** The first [n] entries differ by at most [e]. *)
Definition close (n : nat) (u v : nat -> R) (e : R) : Prop := forall i, (i < n)%nat -> Rabs (u i - v i) <= e.
(** Lipschitz continuity in the state (greatest entry as the norm), which also says that only [n] entries matter. *)
Definition lipschitz (n : nat) (f : (nat -> R) -> R -> nat -> R) (L : R) : Prop := forall u v t e, close n u v e -> close n (f u t) (f v t) (L * e).
(** [Y k t i] is the [k]-th derivative of entry [i] of the exact solution at time [t] in [a, b]; derivatives up to the [m]-th, the second and higher bounded by [M]. *)
Definition smooth_solution (n : nat) (f : (nat -> R) -> R -> nat -> R) (a b : R) (m : nat) (M : R) (Y : nat -> R -> nat -> R) : Prop :=
  (forall k t i, (k < m)%nat -> a <= t <= b -> (i < n)%nat -> derivable_pt_lim (fun s => Y k s i) t (Y (S k) t i)) /\
  (forall t i, a <= t <= b -> (i < n)%nat -> Y 1%nat t i = f (Y 0%nat t) t i) /\
  (forall k t i, (2 <= k <= m)%nat -> a <= t <= b -> (i < n)%nat -> Rabs (Y k t i) <= M).
(** Positive steps of at most [H]. *)
Definition steps_within (H : R) (dts : list R) : Prop := List.Forall (fun h => 0 < h <= H) dts.
Definition total (dts : list R) : R := fold_right Rplus 0 dts.
(** [J t] is the derivative of the right hand side in the state along the solution: linear, bounded, with a quadratic remainder, and Lipschitz in time. *)
Definition tangent (n : nat) (f : (nat -> R) -> R -> nat -> R) (a b : R) (y : R -> nat -> R) (J : R -> (nat -> R) -> nat -> R) (L B : R) : Prop :=
  (forall t d d' c i, a <= t <= b -> (i < n)%nat -> J t (fun j => d j + c * d' j) i = J t d i + c * J t d' i) /\
  (forall t d m, a <= t <= b -> (forall j, (j < n)%nat -> Rabs (d j) <= m) -> forall i, (i < n)%nat -> Rabs (J t d i) <= L * m) /\
  (forall t u m, a <= t <= b -> close n u (y t) m -> forall i, (i < n)%nat -> Rabs (f u t i - f (y t) t i - J t (fun j => u j - y t j) i) <= B * (m * m)) /\
  (forall s t d m, a <= s <= b -> a <= t <= b -> (forall j, (j < n)%nat -> Rabs (d j) <= m) -> forall i, (i < n)%nat -> Rabs (J t d i - J s d i) <= B * Rabs (t - s) * m).

(** ** Stability of one step *)
Section Stability.
  Variables (n : nat) (f : (nat -> R) -> R -> nat -> R) (L : R).
  Hypothesis (HL : 0 <= L) (LF : lipschitz n f L).
  Lemma close_axpy a x x' u v e e' : 0 <= a -> close n x x' e' -> close n u v e -> close n (raxpy a x u) (raxpy a x' v) (e + a * e').
  Proof using.
    intros Ha Hx Hu i Hi. unfold raxpy. replace (u i + a * x i - (v i + a * x' i)) with ((u i - v i) + a * (x i - x' i)) by ring.
    eapply Rle_trans; [apply Rabs_triang|]. apply Rplus_le_compat; [apply Hu; exact Hi|]. rewrite Rabs_mult, (Rabs_right a) by lra.
    apply Rmult_le_compat_l; [exact Ha|]. apply Hx. exact Hi.
  Qed.
  Lemma close_weaken u v e e' : e <= e' -> close n u v e -> close n u v e'.
  Proof using. intros He H i Hi. eapply Rle_trans; [apply H; exact Hi|exact He]. Qed.
  Lemma close_sum4 a b c d a' b' c' d' ea eb ec ed : close n a a' ea -> close n b b' eb -> close n c c' ec -> close n d d' ed ->
    close n (fun i => a i + 2 * b i + 2 * c i + d i) (fun i => a' i + 2 * b' i + 2 * c' i + d' i) (ea + 2 * eb + 2 * ec + ed).
  Proof using.
    intros A B C D i Hi. pose proof (A i Hi) as A1. pose proof (B i Hi) as B1. pose proof (C i Hi) as C1. pose proof (D i Hi) as D1. cbv beta.
    apply Rabs_le. apply Rabs_le_between in A1. apply Rabs_le_between in B1. apply Rabs_le_between in C1. apply Rabs_le_between in D1. lra.
  Qed.
  (** Growth factors. *)
  Definition growth (scheme : string) (z : R) : R :=
    if String.eqb scheme "euler" then 1 + z else if String.eqb scheme "rk2" then 1 + z + z * z / 2 else 1 + z + z * z / 2 + z * z * z / 6 + z * z * z * z / 24.
  Lemma step_stable scheme u v t h e u' v' : 0 <= h -> close n u v e -> explicit_step f scheme u t h = Some u' -> explicit_step f scheme v t h = Some v' ->
    close n u' v' (growth scheme (L * h) * e).
  Proof using LF HL.
    intros Hh Huv. unfold explicit_step, growth. destruct (String.eqb scheme "euler").
    - intros E1 E2. injection E1 as <-. injection E2 as <-. eapply close_weaken; [|apply (close_axpy h _ _ u v e (L * e) Hh); [apply LF; exact Huv|exact Huv]]. right. ring.
    - destruct (String.eqb scheme "rk2").
      + cbv zeta. intros E1 E2. injection E1 as <-. injection E2 as <-. assert (Hh2 : 0 <= 1 / 2 * h) by lra.
        pose proof (close_axpy (1 / 2 * h) _ _ u v e (L * e) Hh2 (LF _ _ t _ Huv) Huv) as M. pose proof (LF _ _ (t + 1 / 2 * h) _ M) as K2.
        eapply close_weaken; [|apply (close_axpy h _ _ u v e _ Hh K2 Huv)]. right. field.
      + destruct (String.eqb scheme "rk4"); [|discriminate]. cbv zeta. intros E1 E2. injection E1 as <-. injection E2 as <-. assert (Hh2 : 0 <= 1 / 2 * h) by lra. assert (Hh6 : 0 <= h / 6) by lra.
        pose proof (LF _ _ t _ Huv) as K1.
        pose proof (LF _ _ (t + 1 / 2 * h) _ (close_axpy (1 / 2 * h) _ _ u v e _ Hh2 K1 Huv)) as K2.
        pose proof (LF _ _ (t + 1 / 2 * h) _ (close_axpy (1 / 2 * h) _ _ u v e _ Hh2 K2 Huv)) as K3.
        pose proof (LF _ _ (t + h) _ (close_axpy h _ _ u v e _ Hh K3 Huv)) as K4.
        eapply close_weaken; [|apply (close_axpy (h / 6) _ _ u v e _ Hh6 (close_sum4 _ _ _ _ _ _ _ _ _ _ _ _ K1 K2 K3 K4) Huv)]. right. field.
  Qed.
  (** Taylor polynomials of the exponential lie below it. *)
  Lemma exp_poly z : 0 <= z -> 1 + z <= exp z /\ 1 + z + z * z / 2 <= exp z /\ 1 + z + z * z / 2 + z * z * z / 6 <= exp z /\ 1 + z + z * z / 2 + z * z * z / 6 + z * z * z * z / 24 <= exp z.
  Proof using.
    intros Hz.
    assert (G : forall (p p' : R -> R), (forall x, is_derive p x (p' x)) -> p 0 <= 1 -> (forall x, 0 <= x -> p' x <= exp x) -> forall x, 0 <= x -> p x <= exp x).
    { intros p p' D P0 LE x Hx. destruct (Req_dec x 0) as [->|Nx]; [rewrite exp_0; exact P0|].
      destruct (MVT_gen (fun s => exp s - p s) 0 x (fun s => exp s - p' s)) as (c & Hc & E).
      - intros s _. exact (is_derive_minus exp p s (exp s) (p' s) (is_derive_exp s) (D s)).
      - intros s _. apply derivable_continuous_pt. exists (exp s - p' s). apply is_derive_Reals. exact (is_derive_minus exp p s (exp s) (p' s) (is_derive_exp s) (D s)).
      - rewrite Rmin_left, Rmax_right in Hc by lra. rewrite exp_0, Rminus_0_r in E. pose proof (LE c (proj1 Hc)) as H1. assert (0 <= (exp c - p' c) * x) by (apply Rmult_le_pos; lra). lra. }
    assert (G1 : forall x, 0 <= x -> 1 <= exp x) by (intros x Hx; pose proof (exp_ineq1_le x); lra).
    assert (G2 : forall x, 0 <= x -> 1 + x <= exp x) by (intros x Hx; apply exp_ineq1_le).
    assert (G3 : forall x, 0 <= x -> 1 + x + x * x / 2 <= exp x).
    { apply (G (fun x => 1 + x + x * x / 2) (fun x => 1 + x)); [intros x; auto_derive; [exact I|field]|lra|exact G2]. }
    assert (G4 : forall x, 0 <= x -> 1 + x + x * x / 2 + x * x * x / 6 <= exp x).
    { apply (G (fun x => 1 + x + x * x / 2 + x * x * x / 6) (fun x => 1 + x + x * x / 2)); [intros x; auto_derive; [exact I|field]|lra|exact G3]. }
    assert (G5 : forall x, 0 <= x -> 1 + x + x * x / 2 + x * x * x / 6 + x * x * x * x / 24 <= exp x).
    { apply (G (fun x => 1 + x + x * x / 2 + x * x * x / 6 + x * x * x * x / 24) (fun x => 1 + x + x * x / 2 + x * x * x / 6)); [intros x; auto_derive; [exact I|field]|lra|exact G4]. }
    repeat split; auto.
  Qed.
  Lemma growth_exp scheme z : 0 <= z -> growth scheme z <= exp z.
  Proof using. intros Hz. destruct (exp_poly z Hz) as (A & B & _ & D). unfold growth. destruct (String.eqb scheme "euler"); [exact A|]. destruct (String.eqb scheme "rk2"); assumption. Qed.
  Lemma growth_pos scheme z : 0 <= z -> 0 <= growth scheme z.
  Proof using. intros Hz. pose proof (Rmult_le_pos z z Hz Hz). pose proof (Rmult_le_pos _ z H Hz). pose proof (Rmult_le_pos _ z H0 Hz). unfold growth. destruct (String.eqb scheme "euler"); [lra|]. destruct (String.eqb scheme "rk2"); lra. Qed.

  (** Local errors add up. *)
  Lemma global scheme (y : R -> nat -> R) a b H c p : 0 <= c -> 0 <= H ->
    (forall t h, a <= t -> 0 < h <= H -> t + h <= b -> exists v, explicit_step f scheme (y t) t h = Some v /\ close n v (y (t + h)) (c * h ^ S p)) ->
    forall dts t u e, (forall w h, explicit_step f scheme w t h <> None) -> a <= t -> t + total dts <= b -> steps_within H dts -> 0 <= e -> close n u (y t) e ->
    exists v, integrate f scheme u t dts = Some v /\ close n v (y (t + total dts)) (exp (L * total dts) * (e + c * H ^ p * total dts)).
  Proof using LF HL.
    intros Hc HH LO dts. assert (Hp : 0 <= c * H ^ p) by (apply Rmult_le_pos; [exact Hc|apply pow_le; exact HH]).
    induction dts as [|h r IH]; intros t u e NN Ha Hb SW He Hu.
    - exists u. split; [reflexivity|]. cbn [total fold_right]. rewrite Rmult_0_r, exp_0, Rplus_0_r, Rmult_0_r. replace (1 * (e + 0)) with e by ring. exact Hu.
    - inversion SW as [|h0 r0 Hh SW' E]; subst. cbn [total fold_right integrate] in *. fold (total r) in *.
      assert (TP : 0 <= total r). { clear -SW'. induction SW' as [|x l Hx _ IH]; cbn; [lra|]. fold (total l). lra. }
      destruct (LO t h Ha Hh) as (w & Ew & Cw); [lra|]. destruct (explicit_step f scheme u t h) as [u'|] eqn:Eu; [|exfalso; apply (NN u h Eu)].
      assert (SB := step_stable scheme u (y t) t h e u' w (Rlt_le _ _ (proj1 Hh)) Hu Eu Ew).
      assert (LH : 0 <= L * h) by (apply Rmult_le_pos; lra).
      set (e1 := exp (L * h) * (e + c * H ^ p * h)).
      assert (C1 : close n u' (y (t + h)) e1).
      { intros i Hi. replace (u' i - y (t + h) i) with ((u' i - w i) + (w i - y (t + h) i)) by ring. eapply Rle_trans; [apply Rabs_triang|].
        eapply Rle_trans; [apply Rplus_le_compat; [apply SB; exact Hi|apply Cw; exact Hi]|]. unfold e1. rewrite Rmult_plus_distr_l. apply Rplus_le_compat.
        - apply Rmult_le_compat_r; [exact He|]. apply growth_exp. exact LH.
        - assert (X1 : c * h ^ S p <= c * H ^ p * h). { cbn [pow]. replace (c * H ^ p * h) with (c * (h * H ^ p)) by ring. apply Rmult_le_compat_l; [exact Hc|]. apply Rmult_le_compat_l; [lra|]. apply pow_incr. lra. }
          assert (X2 : 1 <= exp (L * h)) by (pose proof (exp_ineq1_le (L * h)); lra). assert (X3 : 0 <= c * H ^ p * h) by (apply Rmult_le_pos; lra).
          eapply Rle_trans; [exact X1|]. rewrite <- (Rmult_1_l (c * H ^ p * h)) at 1. apply Rmult_le_compat_r; assumption. }
      assert (P1 : 0 <= e1). { unfold e1. apply Rmult_le_pos; [left; apply exp_pos|]. apply Rplus_le_le_0_compat; [exact He|]. apply Rmult_le_pos; lra. }
      assert (NN' : forall w0 h0, explicit_step f scheme w0 (t + h) h0 <> None).
      { intros w0 h0 X. apply (NN w0 h0). revert X. unfold explicit_step. destruct (String.eqb scheme "euler"); [discriminate|]. destruct (String.eqb scheme "rk2"); [discriminate|]. destruct (String.eqb scheme "rk4"); [discriminate|reflexivity]. }
      destruct (IH (t + h) u' e1 NN') as (v & Ev & Cv); [lra|lra|exact SW'|exact P1|exact C1|].
      exists v. split; [exact Ev|]. replace (t + (h + total r)) with (t + h + total r) by ring. eapply close_weaken; [|exact Cv].
      replace (L * (h + total r)) with (L * total r + L * h) by ring. rewrite exp_plus, (Rmult_assoc (exp (L * total r))). apply Rmult_le_compat_l; [left; apply exp_pos|].
      assert (X2 : 1 <= exp (L * h)) by (pose proof (exp_ineq1_le (L * h)); lra). assert (X4 : 0 <= c * H ^ p * total r) by (apply Rmult_le_pos; lra).
      unfold e1. replace (e + c * H ^ p * (h + total r)) with ((e + c * H ^ p * h) + c * H ^ p * total r) by ring. rewrite (Rmult_plus_distr_l (exp (L * h)) (e + c * H ^ p * h)). apply Rplus_le_compat_l.
      rewrite <- (Rmult_1_l (c * H ^ p * total r)) at 1. apply Rmult_le_compat_r; assumption.
  Qed.
End Stability.

(** ** Taylor expansion *)
Section Taylor.
  Variables (a b : R).
  (** A function that starts at zero and whose slope is at most [M (x - a)^k] grows to at most [M (x - a)^(k+1) / (k+1)]. *)
  Lemma grow (D D' : R -> R) M k : D a = 0 -> (forall x, a <= x <= b -> derivable_pt_lim D x (D' x)) -> (forall x, a <= x <= b -> Rabs (D' x) <= M * (x - a) ^ k) ->
    forall x, a <= x <= b -> Rabs (D x) <= M / INR (S k) * (x - a) ^ S k.
  Proof using.
    intros D0 HD HB x Hx. assert (K : INR (S k) <> 0) by (apply not_0_INR; discriminate).
    destruct (Req_dec x a) as [->|Nx]; [rewrite D0, Rabs_R0, Rminus_diag_eq by reflexivity; cbn [pow]; lra|].
    assert (P : forall s, is_derive (fun s => M / INR (S k) * (s - a) ^ S k) s (M * (s - a) ^ k)).
    { intros s. apply is_derive_ext with (f := fun s => scal (M / INR (S k)) ((s - a) ^ S k)); [reflexivity|].
      evar_last. apply is_derive_scal. apply is_derive_pow. auto_derive; [exact I|reflexivity]. change (pred (S k)) with k. unfold scal; simpl mult. field. exact K. }
    assert (G : forall sg, (sg = 1 \/ sg = -1) -> 0 <= M / INR (S k) * (x - a) ^ S k - sg * D x).
    { intros sg Hs. destruct (MVT_gen (fun s => M / INR (S k) * (s - a) ^ S k - sg * D s) a x (fun s => M * (s - a) ^ k - sg * D' s)) as (c & Hc & E).
      - intros s Hs'. rewrite Rmin_left, Rmax_right in Hs' by lra. apply (is_derive_minus (fun s => M / INR (S k) * (s - a) ^ S k) (fun s => sg * D s) s _ (sg * D' s) (P s)).
        apply (is_derive_scal D s sg (D' s)). apply is_derive_Reals. apply HD. lra.
      - intros s Hs'. rewrite Rmin_left, Rmax_right in Hs' by lra. apply derivable_continuous_pt. exists (M * (s - a) ^ k - sg * D' s). apply is_derive_Reals.
        apply (is_derive_minus (fun s => M / INR (S k) * (s - a) ^ S k) (fun s => sg * D s) s _ (sg * D' s) (P s)). apply (is_derive_scal D s sg (D' s)). apply is_derive_Reals. apply HD. lra.
      - rewrite Rmin_left, Rmax_right in Hc by lra. cbv beta in E. rewrite D0 in E. replace (a - a) with 0 in E by ring. rewrite (pow_i (S k)) in E by lia.
        assert (B := HB c ltac:(lra)). apply Rabs_le_between in B. assert (0 <= (M * (c - a) ^ k - sg * D' c) * (x - a)) by (apply Rmult_le_pos; [destruct Hs as [->| ->]; lra|lra]). lra. }
    apply Rabs_le. pose proof (G 1 (or_introl eq_refl)). pose proof (G (-1) (or_intror eq_refl)). lra.
  Qed.
  Variables (G : nat -> R -> R) (M : R).
  Definition chain (m : nat) : Prop := (forall k x, (k < m)%nat -> a <= x <= b -> derivable_pt_lim (G k) x (G (S k) x)).
End Taylor.
Lemma chain_shift a b G m : chain a b G (S m) -> chain a b (fun k => G (S k)) m.
Proof. intros H k x Hk Hx. apply (H (S k) x); [lia|exact Hx]. Qed.
Lemma bound_pow0 M z : M * z ^ 0 = M. Proof. cbn. ring. Qed.
Lemma sub_dpl (f g : R -> R) x f' g' l : derivable_pt_lim f x f' -> is_derive g x g' -> l = f' - g' -> derivable_pt_lim (fun s => f s - g s) x l.
Proof. intros Hf Hg ->. apply is_derive_Reals. apply (is_derive_minus f g x f' g'); [apply is_derive_Reals; exact Hf|exact Hg]. Qed.
Lemma taylor1 a b G M : chain a b G 1 -> (forall x, a <= x <= b -> Rabs (G 1%nat x) <= M) -> forall x, a <= x <= b -> Rabs (G 0%nat x - G 0%nat a) <= M * (x - a) ^ 1.
Proof.
  intros C B x Hx. assert (X := grow a b (fun s => G 0%nat s - G 0%nat a) (G 1%nat) M 0). cbv beta in X. eapply Rle_trans; [apply X|]; clear X; try exact Hx.
  - ring.
  - intros s Hs. eapply sub_dpl; [apply C; [lia|exact Hs]|auto_derive; [exact I|reflexivity]|ring].
  - intros s Hs. rewrite bound_pow0. apply B. exact Hs.
  - right. cbn [INR]. field.
Qed.
Lemma taylor2 a b G M : chain a b G 2 -> (forall x, a <= x <= b -> Rabs (G 2%nat x) <= M) -> forall x, a <= x <= b -> Rabs (G 0%nat x - (G 0%nat a + (x - a) * G 1%nat a)) <= M / 2 * (x - a) ^ 2.
Proof.
  intros C B x Hx. assert (X := grow a b (fun s => G 0%nat s - (G 0%nat a + (s - a) * G 1%nat a)) (fun s => G 1%nat s - G 1%nat a) M 1). cbv beta in X. eapply Rle_trans; [apply X|]; clear X; try exact Hx.
  - ring.
  - intros s Hs. eapply sub_dpl; [apply C; [lia|exact Hs]|auto_derive; [exact I|reflexivity]|ring].
  - apply (taylor1 a b (fun k => G (S k))); [apply chain_shift; exact C|exact B].
  - right. cbn [INR]. field.
Qed.
Lemma taylor3 a b G M : chain a b G 3 -> (forall x, a <= x <= b -> Rabs (G 3%nat x) <= M) -> forall x, a <= x <= b ->
  Rabs (G 0%nat x - (G 0%nat a + (x - a) * G 1%nat a + (x - a) ^ 2 / 2 * G 2%nat a)) <= M / 6 * (x - a) ^ 3.
Proof.
  intros C B x Hx. assert (X := grow a b (fun s => G 0%nat s - (G 0%nat a + (s - a) * G 1%nat a + (s - a) ^ 2 / 2 * G 2%nat a)) (fun s => G 1%nat s - (G 1%nat a + (s - a) * G 2%nat a)) (M / 2) 2). cbv beta in X.
  eapply Rle_trans; [apply X|]; clear X; try exact Hx.
  - field.
  - intros s Hs. eapply sub_dpl; [apply C; [lia|exact Hs]|auto_derive; [exact I|reflexivity]|field].
  - apply (taylor2 a b (fun k => G (S k))); [apply chain_shift; exact C|exact B].
  - right. cbn [INR]. field.
Qed.
Lemma taylor4 a b G M : chain a b G 4 -> (forall x, a <= x <= b -> Rabs (G 4%nat x) <= M) -> forall x, a <= x <= b ->
  Rabs (G 0%nat x - (G 0%nat a + (x - a) * G 1%nat a + (x - a) ^ 2 / 2 * G 2%nat a + (x - a) ^ 3 / 6 * G 3%nat a)) <= M / 24 * (x - a) ^ 4.
Proof.
  intros C B x Hx. assert (X := grow a b (fun s => G 0%nat s - (G 0%nat a + (s - a) * G 1%nat a + (s - a) ^ 2 / 2 * G 2%nat a + (s - a) ^ 3 / 6 * G 3%nat a))
    (fun s => G 1%nat s - (G 1%nat a + (s - a) * G 2%nat a + (s - a) ^ 2 / 2 * G 3%nat a)) (M / 6) 3). cbv beta in X.
  eapply Rle_trans; [apply X|]; clear X; try exact Hx.
  - field.
  - intros s Hs. eapply sub_dpl; [apply C; [lia|exact Hs]|auto_derive; [exact I|reflexivity]|field].
  - apply (taylor3 a b (fun k => G (S k))); [apply chain_shift; exact C|exact B].
  - right. cbn [INR]. field.
Qed.
Lemma taylor5 a b G M : chain a b G 5 -> (forall x, a <= x <= b -> Rabs (G 5%nat x) <= M) -> forall x, a <= x <= b ->
  Rabs (G 0%nat x - (G 0%nat a + (x - a) * G 1%nat a + (x - a) ^ 2 / 2 * G 2%nat a + (x - a) ^ 3 / 6 * G 3%nat a + (x - a) ^ 4 / 24 * G 4%nat a)) <= M / 120 * (x - a) ^ 5.
Proof.
  intros C B x Hx. assert (X := grow a b (fun s => G 0%nat s - (G 0%nat a + (s - a) * G 1%nat a + (s - a) ^ 2 / 2 * G 2%nat a + (s - a) ^ 3 / 6 * G 3%nat a + (s - a) ^ 4 / 24 * G 4%nat a))
    (fun s => G 1%nat s - (G 1%nat a + (s - a) * G 2%nat a + (s - a) ^ 2 / 2 * G 3%nat a + (s - a) ^ 3 / 6 * G 4%nat a)) (M / 24) 4). cbv beta in X.
  eapply Rle_trans; [apply X|]; clear X; try exact Hx.
  - field.
  - intros s Hs. eapply sub_dpl; [apply C; [lia|exact Hs]|auto_derive; [exact I|reflexivity]|field].
  - apply (taylor4 a b (fun k => G (S k))); [apply chain_shift; exact C|exact B].
  - right. cbn [INR]. field.
Qed.

(** ** Local errors *)
Section Local.
  Variables (n : nat) (f : (nat -> R) -> R -> nat -> R) (L a b M : R) (m : nat) (Y : nat -> R -> nat -> R).
  Hypothesis (HL : 0 <= L) (LF : lipschitz n f L) (HY : smooth_solution n f a b m M Y).
  Lemma sol_chain j k i t : (j + k <= m)%nat -> a <= t -> (i < n)%nat -> chain t b (fun q s => Y (j + q)%nat s i) k.
  Proof using HY. intros Hj Ht Hi q x Hq Hx. replace (j + S q)%nat with (S (j + q)) by lia. apply HY; [lia|lra|exact Hi]. Qed.
  Lemma sol_bound j i t : (2 <= j <= m)%nat -> a <= t -> (i < n)%nat -> forall x, t <= x <= b -> Rabs (Y j x i) <= M.
  Proof using HY. intros Hj Ht Hi x Hx. apply HY; [exact Hj|lra|exact Hi]. Qed.
  Lemma euler_local t h : (m = 2)%nat -> a <= t -> 0 < h -> t + h <= b -> exists v, explicit_step f "euler" (Y 0%nat t) t h = Some v /\ close n v (Y 0%nat (t + h)) (M / 2 * h ^ 2).
  Proof using HY.
    intros Em Ha Hh Hb. eexists. split; [reflexivity|]. intros i Hi. unfold raxpy. destruct HY as (_ & E & _). rewrite <- E by (try exact Hi; lra).
    pose proof (taylor2 t b (fun q s => Y (0 + q)%nat s i) M (sol_chain 0 2 i t ltac:(lia) Ha Hi) (sol_bound 2 i t ltac:(lia) Ha Hi) (t + h) ltac:(lra)) as T.
    cbn [Nat.add] in T. replace (t + h - t) with h in T by ring. rewrite Rabs_minus_sym. exact T.
  Qed.
  Lemma rk2_local t h : (m = 3)%nat -> a <= t -> 0 < h -> t + h <= b -> exists v, explicit_step f "rk2" (Y 0%nat t) t h = Some v /\ close n v (Y 0%nat (t + h)) ((7 / 24 * M + L * M / 8) * h ^ 3).
  Proof using HY LF HL.
    intros Em Ha Hh Hb. eexists. split; [reflexivity|]. intros i Hi. unfold raxpy at 1. destruct HY as (_ & E & _).
    assert (M1 : close n (raxpy (1 / 2 * h) (f (Y 0%nat t) t) (Y 0%nat t)) (Y 0%nat (t + 1 / 2 * h)) (M / 2 * (1 / 2 * h) ^ 2)).
    { intros j Hj. unfold raxpy. rewrite <- E by (try exact Hj; lra).
      pose proof (taylor2 t b (fun q s => Y (0 + q)%nat s j) M (sol_chain 0 2 j t ltac:(lia) Ha Hj) (sol_bound 2 j t ltac:(lia) Ha Hj) (t + 1 / 2 * h) ltac:(lra)) as T.
      cbn [Nat.add] in T. replace (t + 1 / 2 * h - t) with (1 / 2 * h) in T by ring. rewrite Rabs_minus_sym. exact T. }
    pose proof (LF _ _ (t + 1 / 2 * h) _ M1 i Hi) as M2. rewrite <- E in M2 by (try exact Hi; lra).
    pose proof (taylor3 t b (fun q s => Y (0 + q)%nat s i) M (sol_chain 0 3 i t ltac:(lia) Ha Hi) (sol_bound 3 i t ltac:(lia) Ha Hi) (t + h) ltac:(lra)) as T3.
    pose proof (taylor2 t b (fun q s => Y (1 + q)%nat s i) M (sol_chain 1 2 i t ltac:(lia) Ha Hi) (sol_bound 3 i t ltac:(lia) Ha Hi) (t + 1 / 2 * h) ltac:(lra)) as T2.
    cbn [Nat.add] in T3, T2. replace (t + h - t) with h in T3 by ring. replace (t + 1 / 2 * h - t) with (1 / 2 * h) in T2 by ring.
    set (k2 := f (raxpy (1 / 2 * h) (f (Y 0%nat t) t) (Y 0%nat t)) (t + 1 / 2 * h) i) in *.
    replace (Y 0%nat t i + h * k2 - Y 0%nat (t + h) i) with
      (h * (k2 - Y 1%nat (t + 1 / 2 * h) i) + h * (Y 1%nat (t + 1 / 2 * h) i - (Y 1%nat t i + 1 / 2 * h * Y 2%nat t i)) - (Y 0%nat (t + h) i - (Y 0%nat t i + h * Y 1%nat t i + h ^ 2 / 2 * Y 2%nat t i))) by field.
    replace ((7 / 24 * M + L * M / 8) * h ^ 3) with (h * (L * (M / 2 * (1 / 2 * h) ^ 2)) + h * (M / 2 * (1 / 2 * h) ^ 2) + M / 6 * h ^ 3) by field.
    apply Rabs_le_between in M2. apply Rabs_le_between in T2. apply Rabs_le_between in T3.
    assert (S1 : forall z e, - e <= z <= e -> - (h * e) <= h * z <= h * e) by (intros z e [Z1 Z2]; split; [replace (- (h * e)) with (h * - e) by ring|]; apply Rmult_le_compat_l; lra).
    apply S1 in M2. apply S1 in T2. apply Rabs_le. lra.
  Qed.
End Local.

(** ** The fourth order scheme *)
Section Fourth.
  Variables (n : nat) (f : (nat -> R) -> R -> nat -> R) (L a b M B : R) (Y : nat -> R -> nat -> R) (J : R -> (nat -> R) -> nat -> R).
  Hypothesis (HL : 0 <= L) (LF : lipschitz n f L) (HM : 0 <= M) (HB : 0 <= B) (HY : smooth_solution n f a b 5 M Y) (HJ : tangent n f a b (Y 0%nat) J L B).
  Definition dom (t h : R) : Prop := a <= t /\ 0 < h <= 1 /\ t + h <= b.
  Definition ordh (p : nat) (g : R -> R -> nat -> R) : Prop := exists C, 0 <= C /\ forall t h i, dom t h -> (i < n)%nat -> Rabs (g t h i) <= C * h ^ p.
  Lemma O_ext p g g' : (forall t h i, dom t h -> (i < n)%nat -> g t h i = g' t h i) -> ordh p g -> ordh p g'.
  Proof using. intros E (C & HC & H). exists C. split; [exact HC|]. intros t h i D Hi. rewrite <- E by assumption. apply H; assumption. Qed.
  Lemma O_add p g g' : ordh p g -> ordh p g' -> ordh p (fun t h i => g t h i + g' t h i).
  Proof using.
    intros (C & HC & H) (C' & HC' & H'). exists (C + C'). split; [lra|]. intros t h i D Hi. eapply Rle_trans; [apply Rabs_triang|]. rewrite Rmult_plus_distr_r.
    apply Rplus_le_compat; [apply H|apply H']; assumption.
  Qed.
  Lemma O_scal p c g : ordh p g -> ordh p (fun t h i => c * g t h i).
  Proof using. intros (C & HC & H). exists (Rabs c * C). split; [apply Rmult_le_pos; [apply Rabs_pos|exact HC]|]. intros t h i D Hi. rewrite Rabs_mult, Rmult_assoc. apply Rmult_le_compat_l; [apply Rabs_pos|]. apply H; assumption. Qed.
  Lemma O_h p g : ordh p g -> ordh (S p) (fun t h i => h * g t h i).
  Proof using.
    intros (C & HC & H). exists C. split; [exact HC|]. intros t h i D Hi. rewrite Rabs_mult, (Rabs_right h) by (destruct D as (_ & D & _); lra).
    cbn [pow]. replace (C * (h * h ^ p)) with (h * (C * h ^ p)) by ring. apply Rmult_le_compat_l; [destruct D as (_ & D & _); lra|]. apply H; assumption.
  Qed.
  Lemma O_weak p q g : (q <= p)%nat -> ordh p g -> ordh q g.
  Proof using.
    intros Hq (C & HC & H). exists C. split; [exact HC|]. intros t h i D Hi. eapply Rle_trans; [apply H; assumption|]. apply Rmult_le_compat_l; [exact HC|].
    destruct D as (_ & D & _). replace p with (q + (p - q))%nat by lia. rewrite pow_add. rewrite <- (Rmult_1_r (h ^ q)) at 2. apply Rmult_le_compat_l; [apply pow_le; lra|].
    rewrite <- (pow1 (p - q)). apply pow_incr. lra.
  Qed.
  (** The tangent at an inner time. *)
  Definition inner (c : R) : Prop := 0 <= c <= 1.
  Lemma inner_time c t h : inner c -> dom t h -> a <= t + c * h <= b.
  Proof using. intros [C0 C1] (D1 & D2 & D3). assert (0 <= c * h <= h) by (split; [apply Rmult_le_pos; lra|rewrite <- (Rmult_1_l h) at 2; apply Rmult_le_compat_r; lra]). lra. Qed.
  Lemma O_J p c e : inner c -> ordh p e -> ordh p (fun t h => J (t + c * h) (e t h)).
  Proof using HJ HL.
    intros Ic (C & HC & H). exists (L * C). split; [apply Rmult_le_pos; assumption|]. intros t h i D Hi. rewrite Rmult_assoc. apply HJ; [apply inner_time; assumption|intros j Hj; apply H; assumption|exact Hi].
  Qed.
  Lemma O_Jdiff p c e : inner c -> ordh p e -> ordh (S p) (fun t h i => J (t + c * h) (e t h) i - J t (e t h) i).
  Proof using HJ HB.
    intros Ic (C & HC & H). exists (B * C). split; [apply Rmult_le_pos; assumption|]. intros t h i D Hi. destruct HJ as (_ & _ & _ & J4).
    eapply Rle_trans; [apply (J4 t (t + c * h) (e t h) (C * h ^ p)); [pose proof D as (D1 & D2 & D3); lra|apply inner_time; assumption|intros j Hj; apply H; assumption|exact Hi]|].
    destruct D as (D1 & D2 & D3). replace (t + c * h - t) with (c * h) by ring. destruct Ic as [C0 C1]. rewrite Rabs_right by (apply Rle_ge, Rmult_le_pos; lra).
    assert (P : 0 <= h ^ p) by (apply pow_le; lra). cbn [pow]. replace (B * C * (h * h ^ p)) with (B * (h * (C * h ^ p))) by ring. replace (B * (c * h) * (C * h ^ p)) with (B * (c * h * (C * h ^ p))) by ring.
    apply Rmult_le_compat_l; [exact HB|]. apply Rmult_le_compat_r; [apply Rmult_le_pos; assumption|]. rewrite <- (Rmult_1_l h) at 2. apply Rmult_le_compat_r; lra.
  Qed.
  Lemma J_ext_at s d d' i : a <= s <= b -> (forall j, (j < n)%nat -> d j = d' j) -> (i < n)%nat -> J s d i = J s d' i.
  Proof using HJ.
    intros Hs E Hi. destruct HJ as (J1 & J2 & _). pose proof (J1 s d d' (-1) i Hs Hi) as E1.
    pose proof (J2 s (fun j => d j + -1 * d' j) 0 Hs) as Z. rewrite Rmult_0_r in Z. specialize (Z ltac:(intros j Hj; rewrite (E j Hj); replace (d' j + -1 * d' j) with 0 by ring; rewrite Rabs_R0; lra) i Hi).
    pose proof (Rabs_pos (J s (fun j => d j + -1 * d' j) i)). assert (Z0 : J s (fun j => d j + -1 * d' j) i = 0) by (destruct (Req_dec (J s (fun j => d j + -1 * d' j) i) 0) as [Q|Q]; [exact Q|apply Rabs_pos_lt in Q; lra]). lra.
  Qed.
  Lemma J_sub c t h d d' i : inner c -> dom t h -> (i < n)%nat -> J (t + c * h) (fun j => d j + d' j) i = J (t + c * h) d i + J (t + c * h) d' i.
  Proof using HJ.
    intros Ic D Hi. destruct HJ as (J1 & _). pose proof (J1 (t + c * h) d d' 1 i (inner_time c t h Ic D) Hi) as E. rewrite Rmult_1_l in E. rewrite <- E.
    apply J_ext_at; [apply inner_time; assumption|intros j Hj; ring|exact Hi].
  Qed.
  Lemma O_quad p c (u : R -> R -> nat -> R) : inner c -> ordh p (fun t h j => u t h j - Y 0%nat (t + c * h) j) ->
    ordh (p + p) (fun t h i => f (u t h) (t + c * h) i - Y 1%nat (t + c * h) i - J (t + c * h) (fun j => u t h j - Y 0%nat (t + c * h) j) i).
  Proof using HJ HB HY.
    intros Ic (C & HC & H). exists (B * (C * C)). split; [repeat apply Rmult_le_pos; assumption|]. intros t h i D Hi. destruct HJ as (_ & _ & J3 & _). destruct HY as (_ & E & _).
    rewrite (E (t + c * h) i (inner_time c t h Ic D) Hi). eapply Rle_trans; [apply (J3 (t + c * h) (u t h) (C * h ^ p)); [apply inner_time; assumption|intros j Hj; apply H; assumption|exact Hi]|].
    right. rewrite pow_add. ring.
  Qed.
  (** Remainders of the solution. *)
  Lemma rem_O p c (g : R -> R -> nat -> R) q : inner c -> 0 <= q -> (forall t h i, dom t h -> (i < n)%nat -> Rabs (g t h i) <= q * (c * h) ^ p) -> ordh p g.
  Proof using.
    intros [C0 C1] Hq H. exists q. split; [exact Hq|]. intros t h i D Hi. eapply Rle_trans; [apply H; assumption|]. apply Rmult_le_compat_l; [exact Hq|]. destruct D as (_ & D & _).
    apply pow_incr. split; [apply Rmult_le_pos; lra|]. rewrite <- (Rmult_1_l h) at 2. apply Rmult_le_compat_r; lra.
  Qed.
  Lemma ends c t h : inner c -> dom t h -> t <= t + c * h <= b.
  Proof using. intros Ic D. pose proof (inner_time c t h Ic D). destruct Ic, D as (D1 & D2 & D3). assert (0 <= c * h) by (apply Rmult_le_pos; lra). lra. Qed.
  Lemma R2 k c : inner c -> (k <= 3)%nat -> ordh 2 (fun t h i => Y k (t + c * h) i - (Y k t i + c * h * Y (S k) t i)).
  Proof using HY HM.
    intros Ic Hk. apply (rem_O 2 c _ (M / 2) Ic); [lra|]. intros t h i D Hi. assert (Ha := proj1 D).
    pose proof (taylor2 t b (fun q s => Y (k + q)%nat s i) M (sol_chain n f a b M 5 Y HY k 2 i t ltac:(lia) Ha Hi) (sol_bound n f a b M 5 Y HY (k + 2) i t ltac:(lia) Ha Hi) (t + c * h) (ends c t h Ic D)) as T.
    cbv beta in T. rewrite Nat.add_0_r, (Nat.add_comm k 1) in T. cbn [Nat.add] in T. replace (t + c * h - t) with (c * h) in T by ring. exact T.
  Qed.
  Lemma R3 k c : inner c -> (k <= 2)%nat -> ordh 3 (fun t h i => Y k (t + c * h) i - (Y k t i + c * h * Y (S k) t i + (c * h) ^ 2 / 2 * Y (S (S k)) t i)).
  Proof using HY HM.
    intros Ic Hk. apply (rem_O 3 c _ (M / 6) Ic); [lra|]. intros t h i D Hi. assert (Ha := proj1 D).
    pose proof (taylor3 t b (fun q s => Y (k + q)%nat s i) M (sol_chain n f a b M 5 Y HY k 3 i t ltac:(lia) Ha Hi) (sol_bound n f a b M 5 Y HY (k + 3) i t ltac:(lia) Ha Hi) (t + c * h) (ends c t h Ic D)) as T.
    cbv beta in T. rewrite Nat.add_0_r, (Nat.add_comm k 1), (Nat.add_comm k 2) in T. cbn [Nat.add] in T. replace (t + c * h - t) with (c * h) in T by ring. exact T.
  Qed.
  Lemma R4 k c : inner c -> (k <= 1)%nat -> ordh 4 (fun t h i => Y k (t + c * h) i - (Y k t i + c * h * Y (S k) t i + (c * h) ^ 2 / 2 * Y (S (S k)) t i + (c * h) ^ 3 / 6 * Y (S (S (S k))) t i)).
  Proof using HY HM.
    intros Ic Hk. apply (rem_O 4 c _ (M / 24) Ic); [lra|]. intros t h i D Hi. assert (Ha := proj1 D).
    pose proof (taylor4 t b (fun q s => Y (k + q)%nat s i) M (sol_chain n f a b M 5 Y HY k 4 i t ltac:(lia) Ha Hi) (sol_bound n f a b M 5 Y HY (k + 4) i t ltac:(lia) Ha Hi) (t + c * h) (ends c t h Ic D)) as T.
    cbv beta in T. rewrite Nat.add_0_r, (Nat.add_comm k 1), (Nat.add_comm k 2), (Nat.add_comm k 3) in T. cbn [Nat.add] in T. replace (t + c * h - t) with (c * h) in T by ring. exact T.
  Qed.
  Lemma R5 c : inner c -> ordh 5 (fun t h i => Y 0%nat (t + c * h) i - (Y 0%nat t i + c * h * Y 1%nat t i + (c * h) ^ 2 / 2 * Y 2%nat t i + (c * h) ^ 3 / 6 * Y 3%nat t i + (c * h) ^ 4 / 24 * Y 4%nat t i)).
  Proof using HY HM.
    intros Ic. apply (rem_O 5 c _ (M / 120) Ic); [lra|]. intros t h i D Hi. assert (Ha := proj1 D).
    pose proof (taylor5 t b (fun q s => Y (0 + q)%nat s i) M (sol_chain n f a b M 5 Y HY 0 5 i t ltac:(lia) Ha Hi) (sol_bound n f a b M 5 Y HY 5 i t ltac:(lia) Ha Hi) (t + c * h) (ends c t h Ic D)) as T.
    cbn [Nat.add] in T. replace (t + c * h - t) with (c * h) in T by ring. exact T.
  Qed.

  Lemma I12 : inner (1 / 2). Proof using. unfold inner. lra. Qed.
  Lemma I1 : inner 1. Proof using. unfold inner. lra. Qed.
  Lemma I0 : inner 0. Proof using. unfold inner. lra. Qed.
  Definition st1 (t h : R) : nat -> R := f (Y 0%nat t) t.
  Definition ar2 (t h : R) : nat -> R := raxpy (1 / 2 * h) (st1 t h) (Y 0%nat t).
  Definition st2 (t h : R) : nat -> R := f (ar2 t h) (t + 1 / 2 * h).
  Definition ar3 (t h : R) : nat -> R := raxpy (1 / 2 * h) (st2 t h) (Y 0%nat t).
  Definition st3 (t h : R) : nat -> R := f (ar3 t h) (t + 1 / 2 * h).
  Definition ar4 (t h : R) : nat -> R := raxpy h (st3 t h) (Y 0%nat t).
  Definition st4 (t h : R) : nat -> R := f (ar4 t h) (t + 1 * h).
  Definition er2 (t h : R) : nat -> R := fun j => ar2 t h j - Y 0%nat (t + 1 / 2 * h) j.
  Definition er3 (t h : R) : nat -> R := fun j => ar3 t h j - Y 0%nat (t + 1 / 2 * h) j.
  Definition er4 (t h : R) : nat -> R := fun j => ar4 t h j - Y 0%nat (t + 1 * h) j.
  Definition re2 (t h : R) : nat -> R := fun i => st2 t h i - Y 1%nat (t + 1 / 2 * h) i - J (t + 1 / 2 * h) (er2 t h) i.
  Definition re3 (t h : R) : nat -> R := fun i => st3 t h i - Y 1%nat (t + 1 / 2 * h) i - J (t + 1 / 2 * h) (er3 t h) i.
  Definition re4 (t h : R) : nat -> R := fun i => st4 t h i - Y 1%nat (t + 1 * h) i - J (t + 1 * h) (er4 t h) i.
  Definition er23 (t h : R) : nat -> R := fun j => er2 t h j + er3 t h j.
  Lemma k1_ok t h i : dom t h -> (i < n)%nat -> st1 t h i = Y 1%nat t i.
  Proof using HY. intros (D1 & D2 & D3) Hi. unfold st1. destruct HY as (_ & E & _). symmetry. apply E; [lra|exact Hi]. Qed.
  Lemma k2_ok t h i : st2 t h i = Y 1%nat (t + 1 / 2 * h) i + J (t + 1 / 2 * h) (er2 t h) i + re2 t h i. Proof using. unfold re2. ring. Qed.
  Lemma k3_ok t h i : st3 t h i = Y 1%nat (t + 1 / 2 * h) i + J (t + 1 / 2 * h) (er3 t h) i + re3 t h i. Proof using. unfold re3. ring. Qed.
  Lemma k4_ok t h i : st4 t h i = Y 1%nat (t + 1 * h) i + J (t + 1 * h) (er4 t h) i + re4 t h i. Proof using. unfold re4. ring. Qed.
  Lemma er2_eq t h i : dom t h -> (i < n)%nat -> er2 t h i = Y 0%nat t i + 1 / 2 * h * Y 1%nat t i - Y 0%nat (t + 1 / 2 * h) i.
  Proof using HY. intros D Hi. unfold er2, ar2, raxpy. rewrite (k1_ok t h i D Hi). reflexivity. Qed.
  Lemma er3_eq t h i : er3 t h i = Y 0%nat t i + 1 / 2 * h * (Y 1%nat (t + 1 / 2 * h) i + J (t + 1 / 2 * h) (er2 t h) i + re2 t h i) - Y 0%nat (t + 1 / 2 * h) i.
  Proof using. rewrite <- k2_ok. reflexivity. Qed.
  Lemma er4_eq t h i : er4 t h i = Y 0%nat t i + h * (Y 1%nat (t + 1 / 2 * h) i + J (t + 1 / 2 * h) (er3 t h) i + re3 t h i) - Y 0%nat (t + 1 * h) i.
  Proof using. rewrite <- k3_ok. reflexivity. Qed.
  Lemma O_er2 : ordh 2 er2.
  Proof using HY HM.
    apply (O_ext 2 (fun t h i => -1 * (Y 0%nat (t + 1 / 2 * h) i - (Y 0%nat t i + 1 / 2 * h * Y 1%nat t i)))); [|apply O_scal, (R2 0 (1 / 2) I12); lia].
    intros t h i D Hi. rewrite (er2_eq t h i D Hi). ring.
  Qed.
  Lemma O_re2 : ordh 4 re2. Proof using HJ HB HY HM. apply (O_quad 2 (1 / 2) ar2 I12). exact O_er2. Qed.
  Lemma O_er23 : ordh 3 er23.
  Proof using HJ HB HY HM HL.
    apply (O_ext 3 (fun t h i => -2 * (Y 0%nat (t + 1 / 2 * h) i - (Y 0%nat t i + 1 / 2 * h * Y 1%nat t i + (1 / 2 * h) ^ 2 / 2 * Y 2%nat t i)) +
      1 / 2 * (h * ((Y 1%nat (t + 1 / 2 * h) i - (Y 1%nat t i + 1 / 2 * h * Y 2%nat t i)) + (J (t + 1 / 2 * h) (er2 t h) i + re2 t h i))))).
    - intros t h i D Hi. unfold er23. rewrite er3_eq, (er2_eq t h i D Hi). field.
    - apply O_add; [apply O_scal, (R3 0 (1 / 2) I12); lia|]. apply O_scal, O_h. apply O_add; [apply (R2 1 (1 / 2) I12); lia|]. apply O_add; [apply (O_J 2 (1 / 2) er2 I12 O_er2)|apply (O_weak 4); [lia|exact O_re2]].
  Qed.
  Lemma O_er3 : ordh 2 er3.
  Proof using HJ HB HY HM HL.
    apply (O_ext 2 (fun t h i => er23 t h i + -1 * er2 t h i)); [intros t h i _ _; unfold er23; ring|]. apply O_add; [apply (O_weak 3); [lia|exact O_er23]|apply O_scal, O_er2].
  Qed.
  Lemma O_re3 : ordh 4 re3. Proof using HJ HB HY HM HL. apply (O_quad 2 (1 / 2) ar3 I12). exact O_er3. Qed.
  Lemma O_W : ordh 4 (fun t h i => er4 t h i + 2 * er23 t h i).
  Proof using HJ HB HY HM HL.
    apply (O_ext 4 (fun t h i => -4 * (Y 0%nat (t + 1 / 2 * h) i - (Y 0%nat t i + 1 / 2 * h * Y 1%nat t i + (1 / 2 * h) ^ 2 / 2 * Y 2%nat t i + (1 / 2 * h) ^ 3 / 6 * Y 3%nat t i)) +
      (-1 * (Y 0%nat (t + 1 * h) i - (Y 0%nat t i + 1 * h * Y 1%nat t i + (1 * h) ^ 2 / 2 * Y 2%nat t i + (1 * h) ^ 3 / 6 * Y 3%nat t i)) +
       h * (2 * (Y 1%nat (t + 1 / 2 * h) i - (Y 1%nat t i + 1 / 2 * h * Y 2%nat t i + (1 / 2 * h) ^ 2 / 2 * Y 3%nat t i)) + (J (t + 1 / 2 * h) (er23 t h) i + (re2 t h i + re3 t h i)))))).
    - intros t h i D Hi. change (J (t + 1 / 2 * h) (er23 t h) i) with (J (t + 1 / 2 * h) (fun j => er2 t h j + er3 t h j) i). rewrite (J_sub (1 / 2) t h _ _ i I12 D Hi).
      unfold er23. rewrite er4_eq, er3_eq, (er2_eq t h i D Hi). field.
    - apply O_add; [apply O_scal, (R4 0 (1 / 2) I12); lia|]. apply O_add; [apply O_scal, (R4 0 1 I1); lia|]. apply O_h. apply O_add; [apply O_scal, (R3 1 (1 / 2) I12); lia|].
      apply O_add; [apply (O_J 3 (1 / 2) er23 I12 O_er23)|]. apply (O_weak 4); [lia|]. apply O_add; [exact O_re2|exact O_re3].
  Qed.
  Lemma O_er4 : ordh 3 er4.
  Proof using HJ HB HY HM HL.
    apply (O_ext 3 (fun t h i => (er4 t h i + 2 * er23 t h i) + -2 * er23 t h i)); [intros t h i _ _; ring|]. apply O_add; [apply (O_weak 4); [lia|exact O_W]|apply O_scal, O_er23].
  Qed.
  Lemma O_re4 : ordh 4 re4. Proof using HJ HB HY HM HL. apply (O_weak 6); [lia|]. apply (O_quad 3 1 ar4 I1). exact O_er4. Qed.
  Lemma O_S : ordh 4 (fun t h i => 2 * st2 t h i + 2 * st3 t h i + st4 t h i - 4 * Y 1%nat (t + 1 / 2 * h) i - Y 1%nat (t + 1 * h) i).
  Proof using HJ HB HY HM HL.
    apply (O_ext 4 (fun t h i => 2 * (J (t + 1 / 2 * h) (er23 t h) i - J t (er23 t h) i) + ((J (t + 1 * h) (er4 t h) i - J t (er4 t h) i) +
      (J (t + 0 * h) (fun j => er4 t h j + 2 * er23 t h j) i + (2 * (re2 t h i + re3 t h i) + re4 t h i))))).
    - intros t h i D Hi. pose proof (inner_time 0 t h I0 D) as T0. change (J (t + 1 / 2 * h) (er23 t h) i) with (J (t + 1 / 2 * h) (fun j => er2 t h j + er3 t h j) i). rewrite (J_sub (1 / 2) t h _ _ i I12 D Hi).
      rewrite (proj1 HJ (t + 0 * h) (er4 t h) (er23 t h) 2 i T0 Hi). replace (t + 0 * h) with t by ring. rewrite k2_ok, k3_ok, k4_ok. ring.
    - apply O_add; [apply O_scal, (O_Jdiff 3 (1 / 2) er23 I12 O_er23)|]. apply O_add; [apply (O_Jdiff 3 1 er4 I1 O_er4)|]. apply O_add; [apply (O_J 4 0 _ I0 O_W)|].
      apply O_add; [apply O_scal, O_add; [exact O_re2|exact O_re3]|exact O_re4].
  Qed.
  Lemma rk4_local : exists C, 0 <= C /\ forall t h, a <= t -> 0 < h <= 1 -> t + h <= b ->
    exists v, explicit_step f "rk4" (Y 0%nat t) t h = Some v /\ close n v (Y 0%nat (t + h)) (C * h ^ 5).
  Proof using HJ HB HY HM HL.
    assert (LO : ordh 5 (fun t h i => Y 0%nat t i + h / 6 * (st1 t h i + 2 * st2 t h i + 2 * st3 t h i + st4 t h i) - Y 0%nat (t + 1 * h) i)).
    { apply (O_ext 5 (fun t h i => -1 * (Y 0%nat (t + 1 * h) i - (Y 0%nat t i + 1 * h * Y 1%nat t i + (1 * h) ^ 2 / 2 * Y 2%nat t i + (1 * h) ^ 3 / 6 * Y 3%nat t i + (1 * h) ^ 4 / 24 * Y 4%nat t i)) +
        1 / 6 * (h * ((2 * st2 t h i + 2 * st3 t h i + st4 t h i - 4 * Y 1%nat (t + 1 / 2 * h) i - Y 1%nat (t + 1 * h) i) +
          (4 * (Y 1%nat (t + 1 / 2 * h) i - (Y 1%nat t i + 1 / 2 * h * Y 2%nat t i + (1 / 2 * h) ^ 2 / 2 * Y 3%nat t i + (1 / 2 * h) ^ 3 / 6 * Y 4%nat t i)) +
           (Y 1%nat (t + 1 * h) i - (Y 1%nat t i + 1 * h * Y 2%nat t i + (1 * h) ^ 2 / 2 * Y 3%nat t i + (1 * h) ^ 3 / 6 * Y 4%nat t i))))))).
      - intros t h i D Hi. rewrite (k1_ok t h i D Hi). field.
      - apply O_add; [apply O_scal, (R5 1 I1)|]. apply O_scal, O_h. apply O_add; [exact O_S|]. apply O_add; [apply O_scal, (R4 1 (1 / 2) I12); lia|apply (R4 1 1 I1); lia]. }
    destruct LO as (C & HC & H). exists C. split; [exact HC|]. intros t h Ha Hh Hb. eexists. split; [reflexivity|]. intros i Hi. specialize (H t h i (conj Ha (conj Hh Hb)) Hi).
    unfold st4 in H. replace (t + 1 * h) with (t + h) in H by ring. exact H.
  Qed.
End Fourth.

(** ** Theorems *)
(** Two runs with the same steps stay within [exp (L T)] times their initial distance; a scheme with another name is an error at the first step. *)
Theorem C127_stability :
  forall n f L scheme dts u v t e, 0 <= L -> lipschitz n f L -> In scheme ["euler"; "rk2"; "rk4"]%string -> List.Forall (fun h => 0 <= h) dts -> 0 <= e -> close n u v e ->
  exists u' v', integrate f scheme u t dts = Some u' /\ integrate f scheme v t dts = Some v' /\ close n u' v' (exp (L * total dts) * e).
Proof.
  intros n f L scheme dts u v t e HL LF HS HD. revert u v t e. induction HD as [|h r Hh _ IH]; intros u v t e He Huv.
  - exists u, v. split; [reflexivity|]. split; [reflexivity|]. cbn. rewrite Rmult_0_r, exp_0, Rmult_1_l. exact Huv.
  - assert (X : forall w, exists w', explicit_step f scheme w t h = Some w') by (intros w; destruct HS as [<-|[<-|[<-|[]]]]; eexists; reflexivity).
    destruct (X u) as (u1 & Eu), (X v) as (v1 & Ev). pose proof (step_stable n f L HL LF scheme u v t h e u1 v1 Hh Huv Eu Ev) as C1.
    assert (LH : 0 <= L * h) by (apply Rmult_le_pos; assumption).
    assert (C2 : close n u1 v1 (exp (L * h) * e)) by (eapply close_weaken; [|exact C1]; apply Rmult_le_compat_r; [exact He|apply growth_exp; exact LH]).
    destruct (IH u1 v1 (t + h) (exp (L * h) * e)) as (u' & v' & E1 & E2 & C); [apply Rmult_le_pos; [left; apply exp_pos|exact He]|exact C2|].
    exists u', v'. cbn [integrate]. rewrite Eu, Ev. split; [exact E1|]. split; [exact E2|]. cbn [total fold_right]. fold (total r).
    eapply close_weaken; [|exact C]. right. rewrite Rmult_plus_distr_l, exp_plus. ring.
Qed.
Print Assumptions C127_stability.
Theorem C127_unknown : forall f scheme u t h dts, ~ In scheme ["euler"; "rk2"; "rk4"]%string -> integrate f scheme u t (h :: dts) = None.
Proof.
  intros f scheme u t h dts N. cbn [integrate]. unfold explicit_step. cbn [In] in N.
  destruct (String.eqb_spec scheme "euler") as [E|_]; [exfalso; apply N; auto|]. destruct (String.eqb_spec scheme "rk2") as [E|_]; [exfalso; apply N; auto|].
  destruct (String.eqb_spec scheme "rk4") as [E|_]; [exfalso; apply N; auto|]. reflexivity.
Qed.
Print Assumptions C127_unknown.
(** 'euler' is first order: with any steps of at most [H], at the end of the run the error is at most [exp (L T) (e + M/2 H T)], [e] the error of the initial state. *)
Theorem C127_euler :
  forall n f L a b M Y H dts u e, 0 <= L -> lipschitz n f L -> 0 <= M -> smooth_solution n f a b 2 M Y ->
  0 <= H -> steps_within H dts -> a + total dts <= b -> 0 <= e -> close n u (Y 0%nat a) e ->
  exists v, integrate f "euler" u a dts = Some v /\ close n v (Y 0%nat (a + total dts)) (exp (L * total dts) * (e + M / 2 * H * total dts)).
Proof.
  intros n f L a b M Y H dts u e HL LF HM HY HH SW Hb He Hu. rewrite <- (pow_1 H). eapply (global n f L HL LF "euler" (Y 0%nat) a b H (M / 2) 1); try eassumption; try lra; [|discriminate].
  intros t h Ha Hh Hb'. apply (euler_local n f a b M 2 Y HY); [reflexivity|exact Ha|lra|exact Hb'].
Qed.
Print Assumptions C127_euler.
(** 'rk2' is second order. *)
Theorem C127_rk2 :
  forall n f L a b M Y H dts u e, 0 <= L -> lipschitz n f L -> 0 <= M -> smooth_solution n f a b 3 M Y ->
  0 <= H -> steps_within H dts -> a + total dts <= b -> 0 <= e -> close n u (Y 0%nat a) e ->
  exists v, integrate f "rk2" u a dts = Some v /\ close n v (Y 0%nat (a + total dts)) (exp (L * total dts) * (e + (7 / 24 * M + L * M / 8) * H ^ 2 * total dts)).
Proof.
  intros n f L a b M Y H dts u e HL LF HM HY HH SW Hb He Hu. assert (HC : 0 <= 7 / 24 * M + L * M / 8) by (pose proof (Rmult_le_pos L M HL HM); lra).
  eapply (global n f L HL LF "rk2" (Y 0%nat) a b H _ 2); try eassumption; try lra; [|discriminate].
  intros t h Ha Hh Hb'. apply (rk2_local n f L a b M 3 Y HL LF HY); [reflexivity|exact Ha|lra|exact Hb'].
Qed.
Print Assumptions C127_rk2.
(** 'rk4' is fourth order: the constant depends only on the equation, its solution and its tangent. *)
Theorem C127_rk4 :
  forall n f L a b M B Y J, 0 <= L -> lipschitz n f L -> 0 <= M -> 0 <= B -> smooth_solution n f a b 5 M Y -> tangent n f a b (Y 0%nat) J L B ->
  exists C, 0 <= C /\ forall H dts u e, 0 <= H <= 1 -> steps_within H dts -> a + total dts <= b -> 0 <= e -> close n u (Y 0%nat a) e ->
  exists v, integrate f "rk4" u a dts = Some v /\ close n v (Y 0%nat (a + total dts)) (exp (L * total dts) * (e + C * H ^ 4 * total dts)).
Proof.
  intros n f L a b M B Y J HL LF HM HB HY HJ. destruct (rk4_local n f L a b M B Y J HL HM HB HY HJ) as (C & HC & LO). exists C. split; [exact HC|].
  intros H dts u e HH SW Hb He Hu. eapply (global n f L HL LF "rk4" (Y 0%nat) a b H C 4); try eassumption; try lra; [|discriminate].
  intros t h Ha Hh Hb'. apply LO; [exact Ha|lra|exact Hb'].
Qed.
Print Assumptions C127_rk4.

(** ** Concrete case: two entries of y' = sin y - sin (sin t) + cos t, solved by y = sin t. *)
Definition xf (u : nat -> R) (t : R) : nat -> R := fun i => sin (u i) - sin (sin t) + cos t.
Definition xY (k : nat) (t : R) (i : nat) : R := match k with 0%nat => sin t | 1 => cos t | 2 => - sin t | 3 => - cos t | 4 => sin t | _ => cos t end.
Definition xJ (t : R) (d : nat -> R) : nat -> R := fun i => cos (sin t) * d i.
Lemma sin_lip x y : Rabs (sin x - sin y) <= Rabs (x - y).
Proof.
  destruct (MVT_abs sin cos y x) as (c & E & _); [intros c _; apply derivable_pt_lim_sin|]. rewrite E. rewrite <- (Rmult_1_l (Rabs (x - y))) at 2. apply Rmult_le_compat_r; [apply Rabs_pos|].
  apply Rabs_le. apply COS_bound.
Qed.
Lemma cos_lip x y : Rabs (cos x - cos y) <= Rabs (x - y).
Proof.
  destruct (MVT_abs cos (fun c => - sin c) y x) as (c & E & _); [intros c _; apply derivable_pt_lim_cos|]. rewrite E. rewrite <- (Rmult_1_l (Rabs (x - y))) at 2. apply Rmult_le_compat_r; [apply Rabs_pos|].
  apply Rabs_le. pose proof (SIN_bound c). lra.
Qed.
Lemma sin_quad x y : Rabs (sin x - sin y - cos y * (x - y)) <= Rabs (x - y) * Rabs (x - y).
Proof.
  destruct (MVT_abs (fun s => sin s - cos y * s) (fun s => cos s - cos y) y x) as (c & E & Hc).
  - intros c _. apply is_derive_Reals. auto_derive; [exact I|ring].
  - replace (sin x - sin y - cos y * (x - y)) with (sin x - cos y * x - (sin y - cos y * y)) by ring. rewrite E. apply Rmult_le_compat_r; [apply Rabs_pos|].
    eapply Rle_trans; [apply cos_lip|]. unfold Rmin, Rmax in Hc. destruct (Rle_dec y x); apply Rabs_le; [rewrite Rabs_right by lra|rewrite Rabs_left1 by lra]; lra.
Qed.
Example C127_example :
  lipschitz 2 xf 1 /\ smooth_solution 2 xf 0 1 2 1 xY /\ smooth_solution 2 xf 0 1 3 1 xY /\ smooth_solution 2 xf 0 1 5 1 xY /\ tangent 2 xf 0 1 (xY 0%nat) xJ 1 1 /\
  steps_within (1 / 2) [1 / 2; 1 / 4; 1 / 4] /\ 0 + total [1 / 2; 1 / 4; 1 / 4] <= 1.
Proof.
  assert (SS : forall m, (2 <= m <= 5)%nat -> smooth_solution 2 xf 0 1 m 1 xY).
  { intros m Hm. split; [|split].
    - intros k t i Hk _ _. assert (K5 : (k < 5)%nat) by lia. destruct k as [|[|[|[|[|k]]]]]; [| | | | |lia]; apply is_derive_Reals; unfold xY; auto_derive; try exact I; ring.
    - intros t i _ _. unfold xY, xf. ring.
    - intros k t i _ _ _. pose proof (SIN_bound t). pose proof (COS_bound t). apply Rabs_le. destruct k as [|[|[|[|[|k]]]]]; cbn [xY]; lra. }
  split. { intros u v t e H i Hi. unfold xf. replace (sin (u i) - sin (sin t) + cos t - (sin (v i) - sin (sin t) + cos t)) with (sin (u i) - sin (v i)) by ring. eapply Rle_trans; [apply sin_lip|]. rewrite Rmult_1_l. apply H. exact Hi. }
  split; [apply SS; lia|]. split; [apply SS; lia|]. split; [apply SS; lia|]. split.
  { split; [|split; [|split]].
    - intros t d d' c i _ _. unfold xJ. ring.
    - intros t d m _ Hd i Hi. unfold xJ. rewrite Rabs_mult. apply Rmult_le_compat; try apply Rabs_pos; [apply Rabs_le, COS_bound|apply Hd; exact Hi].
    - intros t u m _ Hu i Hi. unfold xf, xJ, xY. replace (sin (u i) - sin (sin t) + cos t - (sin (sin t) - sin (sin t) + cos t) - cos (sin t) * (u i - sin t)) with (sin (u i) - sin (sin t) - cos (sin t) * (u i - sin t)) by ring.
      eapply Rle_trans; [apply sin_quad|]. rewrite Rmult_1_l. apply Rmult_le_compat; try apply Rabs_pos; apply (Hu i Hi).
    - intros s t d m _ _ Hd i Hi. unfold xJ. replace (cos (sin t) * d i - cos (sin s) * d i) with ((cos (sin t) - cos (sin s)) * d i) by ring. rewrite Rabs_mult, Rmult_1_l. apply Rmult_le_compat; try apply Rabs_pos; [|apply Hd; exact Hi].
      eapply Rle_trans; [apply cos_lip|apply sin_lip]. }
  split; [repeat constructor; lra|cbn; lra].
Qed.
