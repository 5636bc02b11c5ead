(** C18: the stopping tests of the Newton loops as inequalities between rationals. *)
From Coq Require Import QArith Qminmax Qabs Bool List Arith ZArith Lqa Lia.
From Verif Require Import Num_Model Newton_Model Newton_Props.
Import ListNotations.
Local Open Scope Q_scope.

Lemma nlt_iff p q : nlt (Fin p) (Fin q) = true <-> p < q.
Proof.
  cbn. rewrite negb_true_iff. split; [intros H; apply Qnot_le_lt; intros L; apply Qle_bool_iff in L; congruence|].
  intros H. destruct (Qle_bool q p) eqn:E; [|reflexivity]. apply Qle_bool_iff in E. exfalso. apply (Qlt_not_le _ _ H E).
Qed.
Lemma div_eq r d : 0 < d -> r / d * d == r.
Proof. intros D. field. intros E. rewrite E in D. discriminate D. Qed.
Lemma lt_div a r d : 0 < d -> (a < r / d <-> a * d < r).
Proof. intros D. rewrite <- (div_eq r d D) at 2. symmetry. apply Qmult_lt_r. exact D. Qed.
Lemma div_lt a r d : 0 < d -> (r / d < a <-> r < a * d).
Proof. intros D. rewrite <- (div_eq r d D) at 2. symmetry. apply Qmult_lt_r. exact D. Qed.
Lemma nmax_fin p q : exists m, nmax (Fin p) (Fin q) = Fin m /\ m == Qmax p q.
Proof.
  cbn. destruct (Qle_bool p q) eqn:E.
  - apply Qle_bool_iff in E. exists q. split; [reflexivity|]. symmetry. apply Q.max_r. exact E.
  - exists p. split; [reflexivity|]. symmetry. apply Q.max_l. apply Qlt_le_weak, Qnot_le_lt. intros L. apply Qle_bool_iff in L. congruence.
Qed.

(** One more pass is made exactly if the residual norm [r] exceeds both the absolute tolerance and the relative one, [r0] the norm at the guess
    (at least 1e-30); a residual that is not a number never asks for one. *)
Theorem C18_stopping_test :
  forall res direction o sol0 j r0, r_norm (res sol0) = Fin r0 ->
  let norm := r_norm (res (iterate res direction o sol0 j)) in
  (forall r, norm = Fin r -> (above_tol res direction o sol0 j = true <-> o_tol o < r /\ o_rel_tol o * Qmax r0 (1 # 10 ^ 30) < r)) /\
  (norm = NaN -> above_tol res direction o sol0 j = false) /\
  (norm = PInf -> above_tol res direction o sol0 j = true).
Proof.
  intros res direction o sol0 j r0 H0 norm. unfold above_tol. assert (N0 : norm_at res direction o sol0 0 = Fin r0) by exact H0. rewrite N0.
  destruct (nmax_fin r0 tiny) as (mx & Em & Qm). rewrite Em. unfold norm_at. fold norm.
  assert (P : 0 < mx) by (rewrite Qm; apply Qlt_le_trans with tiny; [reflexivity|apply Q.le_max_r]).
  split; [|split].
  - intros r ->. rewrite andb_true_iff, nlt_iff. change (ndiv_pos (Fin r) (Fin mx)) with (Fin (r / mx)). rewrite nlt_iff, (lt_div _ _ _ P), Qm. reflexivity.
  - intros ->. reflexivity.
  - intros ->. reflexivity.
Qed.
Print Assumptions C18_stopping_test.
(** The flag that the host loops report: the final norm is below the absolute tolerance or below [rel_tol (r0 + 1e-30)]. *)
Theorem C18_reported_flag :
  forall res direction zero_du o sol0 r0, r_norm (res sol0) = Fin r0 -> 0 <= r0 ->
  (forall s r c, hybrid_solve res direction zero_du o sol0 = Some (s, Fin r, c) -> (c = true <-> r < o_tol o \/ r < o_rel_tol o * (r0 + (1 # 10 ^ 30)))) /\
  (forall s r c, amg_solve res direction o sol0 = (s, Fin r, c) -> (c = true <-> r < o_tol o \/ r < o_rel_tol o * (r0 + (1 # 10 ^ 30)))).
Proof.
  intros res direction zero_du o sol0 r0 H0 P0. destruct (C18_hybrid_returns res direction zero_du o sol0) as (_ & A & B).
  assert (P : 0 < r0 + tiny) by (apply Qlt_le_trans with (0 + tiny); [reflexivity|apply Qplus_le_compat; [exact P0|apply Qle_refl]]).
  assert (X : forall r, (nlt (Fin r) (Fin (o_tol o)) = true \/ nlt (ndiv_pos (Fin r) (nadd (Fin r0) (Fin tiny))) (Fin (o_rel_tol o)) = true) <-> r < o_tol o \/ r < o_rel_tol o * (r0 + (1 # 10 ^ 30))).
  { intros r. change (ndiv_pos (Fin r) (nadd (Fin r0) (Fin tiny))) with (Fin (r / (r0 + tiny))). rewrite !nlt_iff, (div_lt _ _ _ P). reflexivity. }
  split; intros s r c E; [apply A in E|apply B in E]; destruct E as [_ E]; rewrite H0 in E; rewrite E; apply X.
Qed.
Print Assumptions C18_reported_flag.

(** The scalar problem of C18_example: guess 4, residual norm 12 at the guess, tolerance 1e-6. *)
Example C18_stopping_example :
  exists r0, r_norm (ex_res [4]) = Fin r0 /\ 0 <= r0 /\
  above_tol ex_res (fun s => map Qred (ex_dir s)) ex_opts [4] 0 = true /\ above_tol ex_res (fun s => map Qred (ex_dir s)) ex_opts [4] 4 = false /\
  (exists s r, amg_solve ex_res (fun s => map Qred (ex_dir s)) ex_opts [4] = (s, Fin r, true)).
Proof. eexists. split; [vm_compute; reflexivity|]. split; [discriminate|]. split; [vm_compute; reflexivity|]. split; [vm_compute; reflexivity|]. eexists. eexists. vm_compute. reflexivity. Qed.
