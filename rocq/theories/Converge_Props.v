(** C122: Newton solves converge quadratically with full steps near a solution, and solve linear problems in one step. *)
From Coq Require Import QArith Qminmax Qabs Qfield Bool List Lia Lqa.
From Verif Require Import Num_Model Newton_Model Newton_Spec Newton_Proofs Newton_Props.
Import ListNotations.
Open Scope Q_scope.

(** ** Specification *)
(** The undamped Newton step. *)
Definition full (direction : list Q -> list Q) (x : list Q) : list Q := axpy x 1 (direction x).
(** A residual that a full step squares up to the factor [C], wherever its norm is at most [a0]; [C = 0] for linear problems solved exactly. *)
Definition quadratic (res : list Q -> resid) (direction : list Q -> list Q) (C a0 : Q) : Prop :=
  forall x a, r_norm (res x) = Fin a -> a <= a0 -> exists b, r_norm (res (full direction x)) = Fin b /\ b <= C * (a * a).
(** Reduction of the residual after [k] steps: 1, q, q^3, q^7, ... *)
Fixpoint err (q : Q) (k : nat) : Q := match k with O => 1 | S k => q * (err q k * err q k) end.

Lemma err_bounds q k : 0 <= q -> q <= 1 -> 0 <= err q k /\ err q k <= 1.
Proof. intros H0 H1. induction k as [|k [A B]]; cbn [err]; [lra|]. split; nra. Qed.
Lemma times_S {A} k (f : A -> A) x : times (S k) f x = f (times k f x).
Proof. reflexivity. Qed.
Lemma norm_pos (res : list Q -> resid) x a : norm_ok (res x) -> r_norm (res x) = Fin a -> 0 <= a.
Proof. intros [H _] E. rewrite E in H. exact H. Qed.

Section Full.
  Variables (res : list Q -> resid) (direction : list Q -> list Q) (C a0 : Q) (sol0 : list Q).
  Hypothesis (NO : forall s, norm_ok (res s)) (C0 : 0 <= C) (E0 : r_norm (res sol0) = Fin a0) (Q1 : C * a0 <= 1) (QC : quadratic res direction C a0).
  Lemma a0_pos : 0 <= a0.
  Proof using NO E0. exact (norm_pos res sol0 a0 (NO sol0) E0). Qed.
  Lemma full_norm k : exists b, r_norm (res (times k (full direction) sol0)) = Fin b /\ 0 <= b /\ b <= a0 * err (C * a0) k.
  Proof using NO C0 E0 Q1 QC.
    pose proof a0_pos as P. assert (Q0 : 0 <= C * a0) by nra. induction k as [|k (b & E & B0 & B1)].
    - exists a0. cbn [times err]. split; [exact E0|]. lra.
    - pose proof (err_bounds (C * a0) k Q0 Q1) as [e0 e1]. destruct (QC _ b E) as (b' & E' & B'); [nra|].
      exists b'. rewrite times_S. split; [exact E'|]. split; [exact (norm_pos res _ b' (NO _) E')|]. cbn [err].
      assert (b * b <= (a0 * err (C * a0) k) * (a0 * err (C * a0) k)) by nra. set (e := err (C * a0) k) in *.
      assert (C * (b * b) <= C * ((a0 * e) * (a0 * e))) by (rewrite !(Qmult_comm C); apply Qmult_le_compat_r; assumption).
      lra.
  Qed.
  Lemma small k b : r_norm (res (times k (full direction) sol0)) = Fin b -> b <= a0.
  Proof using NO C0 E0 Q1 QC.
    intros E. destruct (full_norm k) as (b' & E' & B0 & B1). rewrite E in E'. injection E' as <-. pose proof a0_pos as P. assert (Q0 : 0 <= C * a0) by nra.
    pose proof (err_bounds (C * a0) k Q0 Q1) as [e0 e1]. nra.
  Qed.
End Full.

Section Jit.
  Variables (res : list Q -> resid) (direction : list Q -> list Q) (o : newton_opts) (C a0 : Q) (sol0 : list Q).
  Hypothesis (Hc : 0 < o_c1 o) (Hr : 0 < o_rho o) (HB : (0 < o_backtracks o)%nat).
  Hypothesis (NO : forall s, norm_ok (res s)) (C0 : 0 <= C) (E0 : r_norm (res sol0) = Fin a0) (Q1 : (C * a0) * (C * a0) <= 1 - 2 * o_c1 o) (QC : quadratic res direction C a0).
  Lemma q_le : C * a0 <= 1.
  Proof using Hc C0 Q1. destruct (Qlt_le_dec 1 (C * a0)) as [L|L]; [|exact L]. exfalso. nra. Qed.
  Lemma step_full k : one_step res direction o (times k (full direction) sol0) = (times (S k) (full direction) sol0, r_norm (res (times (S k) (full direction) sol0)), true).
  Proof using Hc Hr HB NO C0 E0 Q1 QC.
    set (x := times k (full direction) sol0). destruct (full_norm res direction C a0 sol0 NO C0 E0 q_le QC k) as (a & E & A0 & A1). fold x in E.
    pose proof (small res direction C a0 sol0 NO C0 E0 q_le QC k a E) as A2.
    destruct (QC x a E A2) as (b & Eb & B). pose proof (norm_pos res _ b (NO _) Eb) as B0.
    destruct (C17_first_acceptable res o x (direction x) Hc Hr NO) as [F _]. specialize (F 0%nat HB). cbn [step_length] in F.
    unfold one_step. rewrite F; [reflexivity| |intros j Hj; lia].
    change (axpy x 1 (direction x)) with (full direction x). rewrite E, Eb. cbn [sufficient].
    pose proof (a0_pos res a0 sol0 NO E0) as P.
    assert (X : b * b <= (C * (a * a)) * (C * (a * a))) by nra.
    assert (Y : (C * a) * (C * a) <= 1 - 2 * o_c1 o).
    { assert (C * a <= C * a0) by (rewrite !(Qmult_comm C); apply Qmult_le_compat_r; assumption). assert (0 <= C * a) by nra. nra. }
    assert (Z : ((C * a) * (C * a)) * (a * a) <= (1 - 2 * o_c1 o) * (a * a)) by (apply Qmult_le_compat_r; [exact Y|nra]). lra.
  Qed.
  Lemma iterate_full k : iterate res direction o sol0 k = times k (full direction) sol0.
  Proof using Hc Hr HB NO C0 E0 Q1 QC. induction k as [|k IH]; [reflexivity|]. unfold iterate in *. rewrite times_S, IH, step_full. reflexivity. Qed.
  Lemma accepted_full k : accepted res direction o sol0 k = true.
  Proof using Hc Hr HB NO C0 E0 Q1 QC. destruct k as [|k]; [reflexivity|]. cbn [accepted]. rewrite iterate_full, step_full. reflexivity. Qed.
End Jit.

(** ** Theorems *)

(** Near a solution every full step is accepted, no line-search error is raised, the residual falls quadratically, and the solver returns the first
    full-step iterate that meets a tolerance (or the last one allowed). *)
Theorem C122_newton :
  forall res direction o eager sol0 C a0, 0 < o_c1 o -> 0 < o_rho o -> (0 < o_backtracks o)%nat -> (forall s, norm_ok (res s)) -> 0 <= C ->
  r_norm (res sol0) = Fin a0 -> (C * a0) * (C * a0) <= 1 - 2 * o_c1 o -> quadratic res direction C a0 ->
  exists norms : nat -> Q, (forall j, r_norm (res (times j (full direction) sol0)) = Fin (norms j) /\ 0 <= norms j /\ norms j <= a0 * err (C * a0) j) /\
  exists k, (k <= o_max_iter o)%nat /\ newton_forward res direction o eager sol0 = Returned (times k (full direction) sol0) /\
    (k = o_max_iter o \/ norms k <= o_tol o \/ norms k / Qmax a0 tiny <= o_rel_tol o) /\
    (forall j, (j < k)%nat -> o_tol o < norms j /\ o_rel_tol o < norms j / Qmax a0 tiny).
Proof.
  intros res direction o eager sol0 C a0 Hc Hr HB NO C0 E0 Q1 QC.
  set (norms := fun j => match r_norm (res (times j (full direction) sol0)) with Fin b => b | _ => 0 end).
  assert (N : forall j, r_norm (res (times j (full direction) sol0)) = Fin (norms j) /\ 0 <= norms j /\ norms j <= a0 * err (C * a0) j).
  { intros j. destruct (full_norm res direction C a0 sol0 NO C0 E0 (q_le o C a0 Hc C0 Q1) QC j) as (b & E & B). unfold norms. rewrite E. split; [reflexivity|exact B]. }
  exists norms. split; [exact N|].
  assert (AT : forall j, above_tol res direction o sol0 j = true <-> o_tol o < norms j /\ o_rel_tol o < norms j / Qmax a0 tiny).
  { intros j. unfold above_tol, norm_at. rewrite !(iterate_full res direction o C a0 sol0 Hc Hr HB NO C0 E0 Q1 QC). rewrite (proj1 (N j)). cbn [times]. rewrite E0.
    rewrite andb_true_iff, nlt_Fin.
    assert (MX : exists m, nmax (Fin a0) (Fin tiny) = Fin m /\ m == Qmax a0 tiny).
    { unfold nmax, nle. destruct (Qle_bool a0 tiny) eqn:L.
      - exists tiny. split; [reflexivity|]. symmetry. apply Q.max_r. apply Qle_bool_iff. exact L.
      - exists a0. split; [reflexivity|]. symmetry. apply Q.max_l. destruct (Qlt_le_dec tiny a0) as [H|H]; [apply Qlt_le_weak; exact H|]. apply Qle_bool_iff in H. congruence. }
    destruct MX as (m & -> & Em). cbn [ndiv_pos]. rewrite nlt_Fin, Em. reflexivity. }
  destruct (C18_outcome res direction o eager sol0) as (k & Hk & Out & Stop & Go). exists k. split; [exact Hk|].
  rewrite (accepted_full res direction o C a0 sol0 Hc Hr HB NO C0 E0 Q1 QC), (iterate_full res direction o C a0 sol0 Hc Hr HB NO C0 E0 Q1 QC) in Out. cbn [negb] in Out. rewrite andb_false_r in Out.
  split; [exact Out|]. split.
  - destruct Stop as [S|[S|S]]; [left; exact S| |rewrite (accepted_full res direction o C a0 sol0 Hc Hr HB NO C0 E0 Q1 QC) in S; discriminate]. right.
    destruct (Qlt_le_dec (o_tol o) (norms k)) as [L|L]; [right|left; exact L]. destruct (Qlt_le_dec (o_rel_tol o) (norms k / Qmax a0 tiny)) as [L'|L']; [|exact L'].
    rewrite (proj2 (AT k) (conj L L')) in S. discriminate.
  - intros j Hj. apply AT, (Go j Hj).
Qed.
Print Assumptions C122_newton.

(** A linear problem with an exact linear solve takes exactly one step, when the sufficient-decrease constant is at most one half. *)
Theorem C122_linear :
  forall res direction o eager sol0 a0, 0 < o_c1 o -> o_c1 o <= 1 # 2 -> 0 < o_rho o -> (0 < o_backtracks o)%nat -> (0 < o_max_iter o)%nat -> (forall s, norm_ok (res s)) ->
  (forall x, exists z, r_norm (res (full direction x)) = Fin z /\ z == 0) ->
  r_norm (res sol0) = Fin a0 -> 0 <= o_tol o -> o_tol o < a0 -> o_rel_tol o < a0 / Qmax a0 tiny ->
  newton_forward res direction o eager sol0 = Returned (full direction sol0).
Proof.
  intros res direction o eager sol0 a0 Hc Hc2 Hr HB HM NO EX E0 T0 T1 T2.
  assert (QC : quadratic res direction 0 a0) by (intros x a _ _; destruct (EX x) as (z & E & Z); exists z; split; [exact E|lra]).
  destruct (C122_newton res direction o eager sol0 0 a0 Hc Hr HB NO (Qle_refl 0) E0 ltac:(lra) QC) as (norms & N & k & Hk & Out & Stop & Go).
  assert (N0 : norms 0%nat = a0). { destruct (N 0%nat) as [E _]. cbn [times] in E. rewrite E0 in E. injection E as ->. reflexivity. }
  assert (N1 : norms 1%nat == 0). { destruct (N 1%nat) as [E _]. cbn [times] in E. destruct (EX sol0) as (z & Ez & Z). rewrite Ez in E. injection E as <-. exact Z. }
  assert (k = 1)%nat as ->; [|exact Out].
  destruct k as [|[|k]]; [|reflexivity|].
  - exfalso. rewrite N0 in Stop. destruct Stop as [S|[S|S]]; [lia| |]; lra.
  - exfalso. destruct (Go 1%nat ltac:(lia)) as [A _]. rewrite N1 in A. lra.
Qed.
Print Assumptions C122_linear.

(** Above one half the full step of a linear problem is rejected although it is exact. *)
Definition cv_res (s : list Q) : resid := {| r_nan := false; r_norm := Fin (let x := nth 0 s 0 in if Qle_bool 0 x then x else - x) |}.
Definition cv_dir (s : list Q) : list Q := map Qopp s.
Definition cv_opts (c : Q) : newton_opts := {| o_tol := 1 # 1000; o_rel_tol := 1 # 1000; o_max_iter := 3; o_c1 := c; o_rho := 1 # 2; o_backtracks := 5; o_raise := true |}.
Theorem C122_half_refuted :
  exists res direction o sol0 s, (forall x, norm_ok (res x)) /\ 0 < o_c1 o /\ o_c1 o < 1 /\ (forall x, exists z, r_norm (res (full direction x)) = Fin z /\ z == 0) /\
  newton_forward res direction o true sol0 = Returned s /\ o_max_iter o = 3%nat /\ ~ nth 0 s 0 == nth 0 (full direction sol0) 0.
Proof.
  exists cv_res, cv_dir, (cv_opts (3 # 5)), [1].
  eexists. split; [|split; [|split; [|split; [|split; [vm_compute; reflexivity|split; [reflexivity|vm_compute; discriminate]]]]]]; try (cbn; lra).
  - intros x. split; [|discriminate]. cbn. destruct (Qle_bool 0 (nth 0 x 0)) eqn:L; [apply Qle_bool_iff; exact L|].
    destruct (Qlt_le_dec (nth 0 x 0) 0) as [H|H]; [lra|]. apply Qle_bool_iff in H. congruence.
  - intros x. eexists. split; [reflexivity|]. destruct x as [|x t]; [reflexivity|]. unfold full, axpy, cv_dir. cbn [combine map fst snd nth].
    destruct (Qle_bool 0 (x + 1 * - x)); ring.
Qed.
Print Assumptions C122_half_refuted.

(** The host loops (extra residual term, rebuilt multigrid) take the same full steps and stop only for a documented reason. *)
Theorem C122_host :
  forall res direction zero_du o sol0 C a0, (0 < o_backtracks o)%nat -> (forall s, norm_ok (res s)) -> 0 <= C -> 0 < o_tol o ->
  r_norm (res sol0) = Fin a0 -> C * a0 < 1 -> quadratic res direction C a0 ->
  let h := host_run res direction zero_du o sol0 in
  h_sol h = times (h_steps h) (full direction) sol0 /\ (exists b, h_rn h = Fin b /\ 0 <= b /\ b <= a0 * err (C * a0) (h_steps h)) /\
  (h_steps h = o_max_iter o \/ nlt (h_rn h) (Fin (o_tol o)) = true \/
   (h_steps h <> 0%nat /\ nlt (ndiv_pos (h_rn h) (nadd (Fin a0) (Fin tiny))) (Fin (o_rel_tol o)) = true) \/ zero_du (direction (h_sol h)) = true).
Proof.
  intros res direction zero_du o sol0 C a0 HB NO C0 HT E0 Q1 QC h.
  destruct (C18_host_loop res direction zero_du o sol0) as (path & P0 & PL & PE & PM & PN & PS & Stop). fold h in PL, PE, PM, PN, PS, Stop.
  assert (Q1' : C * a0 <= 1) by lra.
  assert (Good : forall k, let x := times k (full direction) sol0 in exists a, r_norm (res x) = Fin a /\ 0 <= a /\ (0 < a -> nlt (r_norm (res (full direction x))) (r_norm (res x)) = true)).
  { intros k x. destruct (full_norm res direction C a0 sol0 NO C0 E0 Q1' QC k) as (a & E & A0 & A1). fold x in E. exists a. split; [exact E|]. split; [exact A0|]. intros Ap.
    pose proof (small res direction C a0 sol0 NO C0 E0 Q1' QC k a E) as A2. destruct (QC x a E A2) as (b & Eb & B). rewrite E, Eb. apply nlt_Fin.
    assert (C * a <= C * a0) by (rewrite !(Qmult_comm C); apply Qmult_le_compat_r; assumption). assert (C * a < 1) by lra. nra. }
  assert (PT : forall j, (j <= h_steps h)%nat -> nth j path [] = times j (full direction) sol0).
  { induction j as [|j IH]; intros Hj; [exact P0|]. destruct (PS j ltac:(lia)) as (k & Hk & Eb & Lt & Fst). rewrite (IH ltac:(lia)) in Eb, Lt, Fst.
    destruct (Good j) as (a & Ea & Ap & Dec). destruct k as [|k]; [exact Eb|]. exfalso.
    pose proof (Fst 0%nat ltac:(lia)) as F0. cbn [step_length] in F0. change (axpy (times j (full direction) sol0) 1 (direction (times j (full direction) sol0))) with (full direction (times j (full direction) sol0)) in F0.
    destruct (Qlt_le_dec 0 a) as [L|L]; [rewrite (Dec L) in F0; discriminate|].
    rewrite Ea in Lt. pose proof (NO (nth (S j) path [])) as [Nn _]. destruct (r_norm (res (nth (S j) path []))) as [| | |z] eqn:Ez; try discriminate Lt; [destruct Nn|]. apply nlt_Fin in Lt. lra. }
  assert (HS : h_sol h = times (h_steps h) (full direction) sol0).
  { rewrite <- PE, <- (PT (h_steps h) (Nat.le_refl _)). clear -PL. destruct (exists_last (l := path)) as (l' & z & ->); [intros ->; discriminate|]. rewrite app_length in PL. cbn in PL. rewrite last_last, app_nth2 by lia. replace (h_steps h - length l')%nat with 0%nat by lia. reflexivity. }
  split; [exact HS|]. split.
  - rewrite PN, HS. apply (full_norm res direction C a0 sol0 NO C0 E0 Q1' QC).
  - rewrite PN. rewrite E0 in Stop. destruct Stop as [S|[S|[S|[S|S]]]]; auto.
    destruct (Good (h_steps h)) as (a & Ea & Ap & Dec). pose proof (S 0%nat HB) as F0. cbn [step_length] in F0. rewrite HS in F0.
    destruct (Qlt_le_dec 0 a) as [L|L]; [unfold full in Dec at 1; rewrite (Dec L) in F0; discriminate|].
    right. left. rewrite HS, Ea. apply nlt_Fin. lra.
Qed.
Print Assumptions C122_host.

(** Least index with a decidable property. *)
Lemma least (P : nat -> Prop) (D : forall j, {P j} + {~ P j}) k : P k -> exists j, (j <= k)%nat /\ P j /\ forall i, (i < j)%nat -> ~ P i.
Proof.
  revert P D. induction k as [|k IH]; intros P D H; [exists 0%nat; split; [lia|]; split; [exact H|intros; lia]|].
  destruct (D 0%nat) as [Z|Z]; [exists 0%nat; split; [lia|]; split; [exact Z|intros; lia]|].
  destruct (IH (fun j => P (S j)) (fun j => D (S j)) H) as (j & Hj & Pj & Nj). exists (S j). split; [lia|]. split; [exact Pj|]. intros [|i] Hi; [exact Z|apply Nj; lia].
Qed.
Lemma suff_dec c a x y : {sufficient c a x y} + {~ sufficient c a x y}.
Proof. destruct x as [| | |p], y as [| | |q]; cbn; auto. destruct (Qlt_le_dec (p * p - 2 * c * a * (p * p)) (q * q)) as [L|L]; [right; lra|left; exact L]. Defined.

(** No spurious line-search failure: along an exact Newton direction, if the residual follows its linear prediction [1 - alpha] up to
    [C alpha^2], the line search succeeds within the number of halvings that brings [alpha] below [(1 - c1) / (1 + 2 C)]. *)
Theorem C122_search_succeeds :
  forall res o sol delta C a k, 0 < o_c1 o -> o_c1 o < 1 -> 0 < o_rho o -> o_rho o <= 1 -> (forall s, norm_ok (res s)) -> 0 <= C -> r_norm (res sol) = Fin a ->
  (forall alpha, 0 < alpha -> alpha <= 1 -> exists b, r_norm (res (axpy sol alpha delta)) = Fin b /\ b <= (1 - alpha + C * (alpha * alpha)) * a) ->
  (k < o_backtracks o)%nat -> step_length (o_rho o) k * (1 + 2 * C) <= 1 - o_c1 o ->
  exists j, (j <= k)%nat /\
    armijo res o sol delta (res sol) = (axpy sol (step_length (o_rho o) j) delta, r_norm (res (axpy sol (step_length (o_rho o) j) delta)), Fin (step_length (o_rho o) j), true).
Proof.
  intros res o sol delta C a k Hc Hc1 Hr Hr1 NO C0 Ea TB Hk Hs.
  destruct (C17_first_acceptable res o sol delta Hc Hr NO) as [F _].
  assert (OK : sufficient (o_c1 o) (step_length (o_rho o) k) (r_norm (res sol)) (r_norm (res (axpy sol (step_length (o_rho o) k) delta)))).
  { assert (S0 : 0 < step_length (o_rho o) k) by (apply step_length_pos; exact Hr).
    set (al := step_length (o_rho o) k) in *. assert (P1 : 0 <= al * C) by (apply Qmult_le_0_compat; lra). assert (A1 : al <= 1 - o_c1 o) by lra. assert (A2 : 2 * (al * C) <= 1 - o_c1 o) by lra.
    destruct (TB al S0 ltac:(lra)) as (b & Eb & B). rewrite Ea, Eb. cbn [sufficient].
    pose proof (norm_pos res sol a (NO sol) Ea) as Pa. pose proof (norm_pos res _ b (NO _) Eb) as Pb.
    set (be := (1 + o_c1 o) * (1 # 2)). assert (Be : 0 < be /\ be < 1) by (unfold be; lra).
    assert (X : (1 - al + C * (al * al)) <= 1 - be * al).
    { assert (al * C * al <= (1 - o_c1 o) * (1 # 2) * al) by (apply Qmult_le_compat_r; lra). unfold be. lra. }
    assert (X0 : 0 <= 1 - be * al) by nra.
    assert (Y : b <= (1 - be * al) * a). { eapply Qle_trans; [exact B|]. apply Qmult_le_compat_r; [exact X|exact Pa]. }
    assert (Z : (1 - be * al) * (1 - be * al) <= 1 - 2 * o_c1 o * al).
    { assert (b1 : be * be <= 1) by nra. assert (S2 : 0 <= al * al) by nra. pose proof (Qmult_le_compat_r _ _ _ b1 S2). assert (al * al <= (1 - o_c1 o) * al) by (apply Qmult_le_compat_r; lra). unfold be in *. lra. }
    assert (BB : b * b <= ((1 - be * al) * a) * ((1 - be * al) * a)) by nra.
    assert (ZZ : (1 - be * al) * (1 - be * al) * (a * a) <= (1 - 2 * o_c1 o * al) * (a * a)) by (apply Qmult_le_compat_r; [exact Z|nra]). lra. }
  destruct (least (fun j => sufficient (o_c1 o) (step_length (o_rho o) j) (r_norm (res sol)) (r_norm (res (axpy sol (step_length (o_rho o) j) delta)))) (fun j => suff_dec _ _ _ _) k OK) as (j & Hj & Pj & Nj).
  exists j. split; [exact Hj|]. apply F; [lia|exact Pj|exact Nj].
Qed.
Print Assumptions C122_search_succeeds.

(** The scalar problem [x^2 = 2] on iterates close to the root meets the hypotheses with [C = 1/4]; three steps from 3/2 give ten digits. *)
Example C122_example :
  let res := fun s : list Q => let x := nth 0 s 0 in {| r_nan := false; r_norm := if Qle_bool 1 x then Fin (Qabs.Qabs (x * x - 2)) else PInf |} in
  let direction := fun s : list Q => let x := nth 0 s 0 in [- ((x * x - 2) / (2 * x))] in
  (forall s, norm_ok (res s)) /\ r_norm (res [3 # 2]) = Fin (1 # 4) /\
  quadratic res direction (1 # 4) (1 # 4) /\
  newton_forward res direction {| o_tol := 1 # 10 ^ 9; o_rel_tol := 1 # 10 ^ 9; o_max_iter := 9; o_c1 := 1 # 10000; o_rho := 1 # 2; o_backtracks := 30; o_raise := true |} true [3 # 2] =
    Returned (times 3 (full direction) [3 # 2]).
Proof.
  intros res direction. split; [|split; [reflexivity|split; [|vm_compute; reflexivity]]].
  - intros s. split; [|discriminate]. unfold res. cbv zeta. cbn [r_norm]. destruct (Qle_bool 1 (nth 0 s 0)); [apply Qabs_nonneg|exact I].
  - intros s a E A. destruct s as [|x t]; [discriminate E|]. unfold res in E. cbn [r_norm nth] in E. destruct (Qle_bool 1 x) eqn:L; [|discriminate]. injection E as <-. apply Qle_bool_iff in L.
    assert (X : nth 0 (full direction (x :: t)) 0 == (x * x + 2) / (2 * x)).
    { unfold full, axpy, direction. cbn [combine map fst snd nth]. field. lra. }
    assert (X1 : 1 <= (x * x + 2) / (2 * x)) by (apply Qle_shift_div_l; nra).
    exists (Qabs (nth 0 (full direction (x :: t)) 0 * nth 0 (full direction (x :: t)) 0 - 2)). unfold res. cbv zeta. set (y := nth 0 (full direction (x :: t)) 0) in *. split.
    + cbn [r_norm]. replace (Qle_bool 1 y) with true; [reflexivity|]. symmetry. apply Qle_bool_iff. rewrite X. exact X1.
    + assert (Y : y * y - 2 == (x * x - 2) * (x * x - 2) / (4 * (x * x))) by (rewrite X; field; lra).
      rewrite Y. assert (AA : Qabs (x * x - 2) * Qabs (x * x - 2) == (x * x - 2) * (x * x - 2)).
      { rewrite <- Qabs_Qmult. apply Qabs_pos. set (z := x * x - 2). destruct (Qlt_le_dec z 0); nra. }
      rewrite AA. assert (P : 0 <= (x * x - 2) * (x * x - 2)) by (set (z := x * x - 2); destruct (Qlt_le_dec z 0); nra).
      set (w := (x * x - 2) * (x * x - 2)) in *. assert (XX : 1 <= x * x) by nra.
      rewrite Qabs_pos by (apply Qle_shift_div_l; nra). apply Qle_shift_div_r; nra.
Qed.
(** A linear residual with [c1 = 3/5]: the search succeeds at [alpha = 1/2], within the two halvings the theorem allows. *)
Example C122_example_search :
  (forall alpha, 0 < alpha -> alpha <= 1 -> exists b, r_norm (cv_res (axpy [1] alpha (cv_dir [1]))) = Fin b /\ b <= (1 - alpha + 0 * (alpha * alpha)) * 1) /\
  step_length (o_rho (cv_opts (3 # 5))) 2 * (1 + 2 * 0) <= 1 - o_c1 (cv_opts (3 # 5)) /\
  armijo cv_res (cv_opts (3 # 5)) [1] (cv_dir [1]) (cv_res [1]) = (axpy [1] (1 * (1 # 2)) (cv_dir [1]), r_norm (cv_res (axpy [1] (1 * (1 # 2)) (cv_dir [1]))), Fin (1 * (1 # 2)), true).
Proof.
  split; [|split; [cbn; lra|vm_compute; reflexivity]]. intros al A0 A1. eexists. split; [reflexivity|]. unfold axpy, cv_dir. cbn [combine map fst snd nth].
  destruct (Qle_bool 0 (1 + al * - (1))) eqn:L; [lra|]. exfalso. assert (H : 0 <= 1 + al * - (1)) by lra. apply Qle_bool_iff in H. congruence.
Qed.
