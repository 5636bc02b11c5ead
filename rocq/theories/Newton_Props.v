(** Properties C17 and C18 (line searches and Newton iteration control). *)
From Coq Require Import QArith Qabs Bool List Lia Lqa.
From Verif Require Import Num_Model Newton_Model Newton_Spec Newton_Proofs.
Import ListNotations.
Open Scope Q_scope.

(** ** C17 *)

(** The result is decided by the first acceptable trial among 1, rho, rho^2, ...;
    if there is none, it is the tiny fallback step, flagged as a failure. *)
Theorem C17_first_acceptable :
  forall (res : list Q -> resid) (o : newton_opts) (sol delta : list Q),
  0 < o_c1 o -> 0 < o_rho o -> (forall s, norm_ok (res s)) ->
  let trial k := axpy sol (step_length (o_rho o) k) delta in
  let ok k := sufficient (o_c1 o) (step_length (o_rho o) k) (r_norm (res sol)) (r_norm (res (trial k))) in
  (forall k, (k < o_backtracks o)%nat -> ok k -> (forall j, (j < k)%nat -> ~ ok j) ->
     armijo res o sol delta (res sol) =
     (trial k, r_norm (res (trial k)), Fin (step_length (o_rho o) k), true)) /\
  ((forall k, (k < o_backtracks o)%nat -> ~ ok k) ->
     let fb := axpy sol (1 # 100000000) delta in
     armijo res o sol delta (res sol) = (fb, r_norm (res fb), Fin (1 # 100000000), false)).
Proof.
  intros res o sol delta Hc Hr Hn trial ok.
  assert (AS : forall k, acceptable res (o_c1 o) sol delta (res sol) (step_length (o_rho o) k) = true <-> ok k).
  { intros k. apply acceptable_spec; auto. apply step_length_pos. exact Hr. }
  assert (AF : forall k, ~ ok k -> acceptable res (o_c1 o) sol delta (res sol) (step_length (o_rho o) k) = false).
  { intros k H. destruct (acceptable _ _ _ _ _ _) eqn:E; [|reflexivity]. apply AS in E. contradiction. }
  split.
  - intros k Hk Hok Hno. unfold armijo.
    destruct (@scan_first res sol delta (res sol) (o_c1 o) (o_rho o) (o_backtracks o) 0 k
      {| k_alpha := 1; k_sol := sol; k_norm := r_norm (res sol); k_best := NaN; k_found := false |}
      eq_refl eq_refl Hk) as (A & B & C & D).
    + apply AS. exact Hok.
    + intros j Hj. apply AF. apply Hno. exact Hj.
    + rewrite A, B, C, D. reflexivity.
  - intros H fb. unfold armijo.
    rewrite (@scan_none res sol delta (res sol) (o_c1 o) (o_rho o) (o_backtracks o) 0); auto.
Qed.
Print Assumptions C17_first_acceptable.

(** Consequences for a reported success: the step is the largest acceptable one, the
    reported norm is the norm at the returned point, and it is strictly smaller. *)
Theorem C17_success :
  forall (res : list Q -> resid) (o : newton_opts) (sol delta sol' : list Q) (norm' alpha : num),
  0 < o_c1 o -> 0 < o_rho o -> o_rho o <= 1 -> (forall s, norm_ok (res s)) ->
  armijo res o sol delta (res sol) = (sol', norm', alpha, true) ->
  norm' = r_norm (res sol') /\
  (exists k, (k < o_backtracks o)%nat /\ alpha = Fin (step_length (o_rho o) k) /\
     sol' = axpy sol (step_length (o_rho o) k) delta /\
     sufficient (o_c1 o) (step_length (o_rho o) k) (r_norm (res sol)) norm' /\
     (forall j, (j < o_backtracks o)%nat ->
        sufficient (o_c1 o) (step_length (o_rho o) j) (r_norm (res sol))
                   (r_norm (res (axpy sol (step_length (o_rho o) j) delta))) ->
        step_length (o_rho o) j <= step_length (o_rho o) k)) /\
  (r_norm (res sol) <> Fin 0 -> (forall q, r_norm (res sol) = Fin q -> ~ q == 0) ->
     decreases (r_norm (res sol)) norm').
Proof.
  intros res o sol delta sol' norm' alpha Hc Hr Hr1 Hn E.
  destruct (C17_first_acceptable res o sol delta Hc Hr Hn) as [F1 F2].
  set (P := fun k => acceptable res (o_c1 o) sol delta (res sol) (step_length (o_rho o) k)).
  assert (AS : forall k, P k = true <->
      sufficient (o_c1 o) (step_length (o_rho o) k) (r_norm (res sol))
                 (r_norm (res (axpy sol (step_length (o_rho o) k) delta)))).
  { intros k. apply acceptable_spec; auto. apply step_length_pos. exact Hr. }
  destruct (first_or_none P (o_backtracks o)) as [(k & Hk & HP & Hj)|H].
  - assert (Hok := proj1 (AS k) HP).
    rewrite (F1 k Hk Hok) in E by (intros j Hjk Hc'; apply AS in Hc'; rewrite Hj in Hc' by exact Hjk; discriminate).
    inversion E; subst. clear E. split; [reflexivity|]. split.
    + exists k. repeat split; auto. intros j Hjb Hjs. apply step_length_le; auto.
      destruct (Nat.le_gt_cases k j) as [|Hlt]; [assumption|]. apply AS in Hjs. rewrite Hj in Hjs by exact Hlt. discriminate.
    + intros _ Hnz. unfold sufficient in Hok. unfold decreases.
      destruct (r_norm (res sol)) as [| | |a] eqn:Ea; try contradiction;
      destruct (r_norm (res (axpy sol (step_length (o_rho o) k) delta))) as [| | |b] eqn:Eb; try contradiction; auto.
      assert (Ha := proj1 (Hn sol)). rewrite Ea in Ha.
      assert (Hb := proj1 (Hn (axpy sol (step_length (o_rho o) k) delta))). rewrite Eb in Hb.
      assert (Pa : 0 < a).
      { apply Qle_lteq in Ha. destruct Ha as [|Ha]; [assumption|]. exfalso. apply (Hnz a eq_refl). symmetry. exact Ha. }
      assert (Pk := step_length_pos k Hr).
      assert (Pca : 0 < o_c1 o * step_length (o_rho o) k) by (apply Qmult_lt_0_compat; assumption).
      apply Qnot_le_lt. intros Hle.
      assert (Haa : 0 < a * a) by (apply Qmult_lt_0_compat; assumption).
      assert (0 < o_c1 o * step_length (o_rho o) k * (a * a)) by (apply Qmult_lt_0_compat; assumption).
      assert (a * a <= b * b) by nra. nra.
  - rewrite F2 in E; [discriminate|]. intros k Hk Hc'. apply AS in Hc'. rewrite H in Hc' by exact Hk. discriminate.
Qed.
Print Assumptions C17_success.

(** The host loops' search: first trial that decreases the norm at all. *)
Theorem C17_simple_search :
  forall (res : list Q -> resid) (n : nat) (rho : Q) (sol delta : list Q) (rn : num),
  let trial k := axpy sol (step_length rho k) delta in
  (forall s m, backtrack res n rho sol delta rn 1 = Some (s, m) <->
     exists k, (k < n)%nat /\ s = trial k /\ m = r_norm (res (trial k)) /\ nlt (r_norm (res (trial k))) rn = true /\
       forall j, (j < k)%nat -> nlt (r_norm (res (trial j))) rn = false) /\
  (backtrack res n rho sol delta rn 1 = None <->
     forall k, (k < n)%nat -> nlt (r_norm (res (trial k))) rn = false).
Proof.
  intros res n rho sol delta rn.
  assert (G : forall n i, 
    (forall s m, backtrack res n rho sol delta rn (step_length rho i) = Some (s, m) <->
     exists k, (k < n)%nat /\ s = axpy sol (step_length rho (i + k)) delta /\
       m = r_norm (res (axpy sol (step_length rho (i + k)) delta)) /\
       nlt (r_norm (res (axpy sol (step_length rho (i + k)) delta))) rn = true /\
       forall j, (j < k)%nat -> nlt (r_norm (res (axpy sol (step_length rho (i + j)) delta))) rn = false) /\
    (backtrack res n rho sol delta rn (step_length rho i) = None <->
     forall k, (k < n)%nat -> nlt (r_norm (res (axpy sol (step_length rho (i + k)) delta))) rn = false)).
  { clear n. induction n as [|n IH]; intros i.
    - cbn. split.
      + intros s m. split; [discriminate|]. intros (k & Hk & _). lia.
      + split; [intros; lia | reflexivity].
    - cbn [backtrack]. destruct (nlt (r_norm (res (axpy sol (step_length rho i) delta))) rn) eqn:E.
      + split.
        * intros s m. split.
          -- intros H. inversion H. exists 0%nat. rewrite Nat.add_0_r. repeat split; auto; [lia|intros; lia].
          -- intros (k & Hk & -> & -> & H & Hj). destruct k as [|k].
             ++ rewrite Nat.add_0_r. reflexivity.
             ++ specialize (Hj 0%nat ltac:(lia)). rewrite Nat.add_0_r in Hj. congruence.
        * split; [discriminate|]. intros H. specialize (H 0%nat ltac:(lia)). rewrite Nat.add_0_r in H. congruence.
      + destruct (IH (S i)) as [I1 I2]. cbn [step_length] in I1, I2. split.
        * intros s m. rewrite I1. split.
          -- intros (k & Hk & H1 & H2 & H3 & H4). exists (S k).
             replace (i + S k)%nat with (S (i + k)) by lia. cbn [step_length Nat.add] in *.
             repeat split; auto; [lia|]. intros [|j] Hj; [rewrite Nat.add_0_r; exact E|].
             replace (i + S j)%nat with (S (i + j)) by lia. apply H4. lia.
          -- intros (k & Hk & H1 & H2 & H3 & H4). destruct k as [|k].
             ++ rewrite Nat.add_0_r in H3. congruence.
             ++ replace (i + S k)%nat with (S (i + k)) in * by lia. exists k. cbn [Nat.add] in *.
                repeat split; auto; [lia|]. intros j Hj. specialize (H4 (S j) ltac:(lia)).
                replace (i + S j)%nat with (S (i + j)) in H4 by lia. exact H4.
        * rewrite I2. split.
          -- intros H [|k] Hk; [rewrite Nat.add_0_r; exact E|]. replace (i + S k)%nat with (S i + k)%nat by lia. apply H. lia.
          -- intros H k Hk. replace (S i + k)%nat with (i + S k)%nat by lia. apply H. lia. }
  apply (G n 0%nat).
Qed.
Print Assumptions C17_simple_search.

(** A failed search still moves, and the norm can grow: only the flag tells. *)
Theorem C17_fallback_refuted :
  exists (res : list Q -> resid) (o : newton_opts) (sol delta sol' : list Q) (a b : Q),
    0 < o_c1 o /\ 0 < o_rho o /\ o_rho o <= 1 /\ (forall s, norm_ok (res s)) /\
    armijo res o sol delta (res sol) = (sol', Fin b, Fin (1 # 100000000), false) /\
    r_norm (res sol) = Fin a /\ a < b.
Proof.
  set (R := fun s : list Q => {| r_nan := false; r_norm := Fin (Qabs (nth 0 s 0)) |}).
  exists R, {| o_tol := 1 # 1000000; o_rel_tol := 1 # 100000000; o_max_iter := 100;
     o_c1 := 1 # 10000; o_rho := 1 # 2; o_backtracks := 3; o_raise := true |}, [1], [1].
  exists (axpy [1] (1 # 100000000) [1]), 1, (100000001 # 100000000).
  split; [reflexivity|]. split; [reflexivity|]. split; [discriminate|].
  split; [intros s; split; [apply Qabs_nonneg | discriminate]|].
  vm_compute. auto.
Qed.
Print Assumptions C17_fallback_refuted.

(** Scalar equation u^2 = 4 from u = 1/10: the full Newton step overshoots, the
    search backtracks four times. *)
Definition ex_res (s : list Q) : resid :=
  {| r_nan := false; r_norm := Fin (Qabs (nth 0 s 0 * nth 0 s 0 - 4)) |}.
Definition ex_dir (s : list Q) : list Q :=
  [Qred ((4 - nth 0 s 0 * nth 0 s 0) / (2 * nth 0 s 0))].
Definition ex_opts : newton_opts :=
  {| o_tol := 1 # 1000000; o_rel_tol := 1 # 100000000; o_max_iter := 100;
     o_c1 := 1 # 10000; o_rho := 1 # 2; o_backtracks := 30; o_raise := true |}.
Example C17_example :
  (forall s, norm_ok (ex_res s)) /\
  (let '(_, _, a, f) := armijo ex_res ex_opts [1 # 10] (ex_dir [1 # 10]) (ex_res [1 # 10]) in (a, f))
  = (Fin (step_length (1 # 2) 3), true) /\
  backtrack ex_res 30 (1 # 2) [1 # 10] (ex_dir [1 # 10]) (r_norm (ex_res [1 # 10])) 1 <> None.
Proof.
  split; [intros s; split; [apply Qabs_nonneg | discriminate]|]. split; [vm_compute; reflexivity|].
  vm_compute. discriminate.
Qed.

(** ** C18 *)

Opaque tiny.
Section C18.
  Variable res : list Q -> resid.
  Variable direction : list Q -> list Q.
  Variable o : newton_opts.
  (** The j-th Newton iterate, its residual norm, and whether the step leading to it
      was accepted by the line search. *)
  Definition iterate (sol0 : list Q) (j : nat) : list Q :=
    times j (fun s => fst (fst (one_step res direction o s))) sol0.
  Definition norm_at (sol0 : list Q) (j : nat) : num := r_norm (res (iterate sol0 j)).
  Definition accepted (sol0 : list Q) (j : nat) : bool :=
    match j with O => true | S i => snd (one_step res direction o (iterate sol0 i)) end.
  (** [norm > tol] and [norm / max(norm_0, 1e-30) > rel_tol]. *)
  Definition above_tol (sol0 : list Q) (j : nat) : bool :=
    nlt (Fin (o_tol o)) (norm_at sol0 j) &&
    nlt (Fin (o_rel_tol o)) (ndiv_pos (norm_at sol0 j) (nmax (norm_at sol0 0) (Fin tiny))).

  Lemma one_step_norm s : snd (fst (one_step res direction o s)) = r_norm (res (fst (fst (one_step res direction o s)))).
  Proof.
    unfold one_step, armijo. set (f := scan_step _ _ _ _ _ _).
    assert (G : forall n c, k_norm c = r_norm (res (k_sol c)) ->
              k_norm (scan n f c) = r_norm (res (k_sol (scan n f c)))).
    { induction n; intros c H; cbn [scan]; [exact H|]. apply IHn. unfold f, scan_step. cbn.
      destruct (_ && _); [reflexivity|exact H]. }
    set (c := scan _ _ _). destruct (k_found c); cbn; [|reflexivity].
    apply G. reflexivity.
  Qed.

  Lemma nstate_times sol0 k :
    times k (nbody res direction o) (ninit res sol0) =
    {| n_sol := iterate sol0 k; n_rn := norm_at sol0 k; n_it := k; n_found := accepted sol0 k |}.
  Proof.
    induction k as [|k IH]; [reflexivity|]. cbn [times]. rewrite IH. unfold nbody. cbn [n_sol n_it].
    unfold norm_at, accepted, iterate at 2 3. cbn [times]. fold (iterate sol0 k).
    rewrite <- one_step_norm. destruct (one_step res direction o (iterate sol0 k)) as [[s n] f]. reflexivity.
  Qed.
End C18.

(** The loop stops after at most [max_iter] steps, at the first iterate at which a
    tolerance is met, the last search failed or the budget is spent; the norm it
    tests is the norm of the iterate it returns. *)
Theorem C18_loop :
  forall res direction o sol0, exists k s,
  newton_loop res direction o sol0 = Some s /\ (k <= o_max_iter o)%nat /\
  n_it s = k /\ n_sol s = iterate res direction o sol0 k /\ n_rn s = r_norm (res (n_sol s)) /\
  n_found s = accepted res direction o sol0 k /\
  (forall j, (j < k)%nat -> above_tol res direction o sol0 j = true /\ accepted res direction o sol0 j = true) /\
  (k = o_max_iter o \/ above_tol res direction o sol0 k = false \/ accepted res direction o sol0 k = false).
Proof.
  intros res direction o sol0. unfold newton_loop.
  destruct (@while_spec nstate (ncond o (r_norm (res sol0))) (nbody res direction o) n_it (o_max_iter o)
              (o_max_iter o) (ninit res sol0)) as (k & H1 & H2 & H3 & H4).
  - intros x Hx. unfold ncond in Hx. apply andb_true_iff in Hx. destruct Hx as [Hx _].
    apply andb_true_iff in Hx. destruct Hx as [Hx _]. apply Nat.ltb_lt. exact Hx.
  - intros x. unfold nbody. destruct (one_step _ _ _ _) as [[? ?] ?]. reflexivity.
  - cbn. lia.
  - exists k. eexists. split; [exact H1|].
    rewrite (nstate_times res direction o sol0 k) in *. cbn [n_it n_sol n_rn n_found].
    split; [exact H2|]. repeat (split; [reflexivity|]). split.
    + intros j Hj. specialize (H4 j Hj). rewrite nstate_times in H4.
      unfold ncond in H4. cbn [n_it n_sol n_rn n_found] in H4. apply andb_true_iff in H4.
      destruct H4 as [H4 H5]. apply andb_true_iff in H4. destruct H4 as [_ H4]. split; assumption.
    + unfold ncond in H3. cbn [n_it n_sol n_rn n_found] in H3.
      apply andb_false_iff in H3. destruct H3 as [H3|H3]; [|auto].
      apply andb_false_iff in H3. destruct H3 as [H3|H3]; [|auto].
      apply Nat.ltb_ge in H3. left. lia.
Qed.
Print Assumptions C18_loop.

(** Every accepted step strictly reduces the residual norm; only the last step of the
    run can fail to be accepted. *)
Theorem C18_monotone :
  forall res direction o sol0 s,
  0 < o_c1 o -> 0 < o_rho o -> o_rho o <= 1 -> 0 <= o_tol o -> (forall x, norm_ok (res x)) ->
  newton_loop res direction o sol0 = Some s ->
  forall j, (j < n_it s)%nat ->
    (accepted res direction o sol0 (S j) = true ->
       decreases (norm_at res direction o sol0 j) (norm_at res direction o sol0 (S j))) /\
    (accepted res direction o sol0 (S j) = false -> S j = n_it s).
Proof.
  intros res direction o sol0 s Hc Hr Hr1 Ht Hn E j Hj.
  destruct (C18_loop res direction o sol0) as (k & s' & E' & Hk & Hit & _ & _ & _ & Hall & _).
  rewrite E in E'. inversion E'. subst s'. clear E'. rewrite Hit in *. split.
  - intros Hacc. destruct (Hall j Hj) as [Hab _].
    unfold accepted, one_step in Hacc. unfold norm_at at 2. cbn [iterate times].
    change (times j (fun s0 => fst (fst (one_step res direction o s0))) sol0) with (iterate res direction o sol0 j).
    set (x := iterate res direction o sol0 j) in *. unfold one_step at 1.
    destruct (armijo res o x (direction x) (res x)) as [[[sol' n'] a'] f] eqn:Ea. cbn in Hacc. subst f. cbn [fst].
    destruct (C17_success res o x (direction x) sol' n' a' Hc Hr Hr1 Hn Ea) as (H1 & _ & H3).
    rewrite <- H1. unfold norm_at. fold x. unfold above_tol in Hab. apply andb_true_iff in Hab.
    destruct Hab as [Hab _]. unfold norm_at in Hab. fold x in Hab. apply H3.
    + intros Hz. rewrite Hz in Hab. apply nlt_Fin in Hab. apply (Qlt_not_le _ _ Hab Ht).
    + intros q Hq Hz. rewrite Hq in Hab. apply nlt_Fin in Hab. rewrite Hz in Hab. apply (Qlt_not_le _ _ Hab Ht).
  - intros Hacc. destruct (Nat.eq_dec (S j) k) as [|Hne]; [assumption|].
    destruct (Hall (S j)) as [_ H]; [lia|]. congruence.
Qed.
Print Assumptions C18_monotone.

(** What the caller sees: the exception is raised exactly when it was asked for, the
    call is eager and the last line search failed. *)
Theorem C18_outcome :
  forall res direction o eager sol0, exists k, (k <= o_max_iter o)%nat /\
  (if o_raise o && eager && negb (accepted res direction o sol0 k)
   then newton_forward res direction o eager sol0 = LineSearchError k
   else newton_forward res direction o eager sol0 = Returned (iterate res direction o sol0 k)) /\
  (k = o_max_iter o \/ above_tol res direction o sol0 k = false \/ accepted res direction o sol0 k = false) /\
  (forall j, (j < k)%nat -> above_tol res direction o sol0 j = true /\ accepted res direction o sol0 j = true).
Proof.
  intros res direction o eager sol0.
  destruct (C18_loop res direction o sol0) as (k & s & E & Hk & Hit & Hsol & _ & Hf & Hall & Hstop).
  exists k. split; [exact Hk|]. split; [|split; assumption].
  unfold newton_forward. rewrite E, Hf, Hsol, Hit. destruct (_ && _); reflexivity.
Qed.
Print Assumptions C18_outcome.

(** A NaN residual at the initial guess ends the loop at once: the guess is returned
    as if it had converged, even with the exception enabled. *)
Theorem C18_nan_start_refuted :
  forall res direction o eager sol0, r_norm (res sol0) = NaN ->
  newton_forward res direction o eager sol0 = Returned sol0.
Proof.
  intros res direction o eager sol0 H. unfold newton_forward, newton_loop.
  assert (E : while (o_max_iter o) (ncond o (r_norm (res sol0))) (nbody res direction o) (ninit res sol0) = Some (ninit res sol0)).
  { destruct (o_max_iter o) eqn:M; cbn [while]; unfold ncond, ninit; cbn [n_rn n_it n_found]; rewrite H, M; cbn; reflexivity. }
  rewrite E. cbn. rewrite andb_false_r. reflexivity.
Qed.
Print Assumptions C18_nan_start_refuted.

(** The host loops (extra residual / rebuilt AMG): at most [max_iter] accepted steps,
    each the first decreasing trial, the reported norm belongs to the returned
    solution and is smaller than the initial one after any step; every early stop
    has one of the documented reasons. *)
Theorem C18_host_loop :
  forall res direction zero_du o sol0,
  let h := host_run res direction zero_du o sol0 in
  let norm s := r_norm (res s) in
  exists path : list (list Q),
    nth 0 path [] = sol0 /\ length path = S (h_steps h) /\ last path [] = h_sol h /\
    (h_steps h <= o_max_iter o)%nat /\ h_rn h = norm (h_sol h) /\
    (forall j, (j < h_steps h)%nat -> exists k, (k < o_backtracks o)%nat /\
       let a := nth j path [] in let b := nth (S j) path [] in
       b = axpy a (step_length (o_rho o) k) (direction a) /\ nlt (norm b) (norm a) = true /\
       (forall i, (i < k)%nat -> nlt (norm (axpy a (step_length (o_rho o) i) (direction a))) (norm a) = false)) /\
    (h_steps h = o_max_iter o \/
     nlt (norm (h_sol h)) (Fin (o_tol o)) = true \/
     (h_steps h <> 0%nat /\
      nlt (ndiv_pos (norm (h_sol h)) (nadd (norm sol0) (Fin tiny))) (Fin (o_rel_tol o)) = true) \/
     zero_du (direction (h_sol h)) = true \/
     (forall k, (k < o_backtracks o)%nat ->
        nlt (norm (axpy (h_sol h) (step_length (o_rho o) k) (direction (h_sol h)))) (norm (h_sol h)) = false)).
Proof.
  intros res direction zero_du o sol0 h norm.
  assert (G : forall todo sol l,
    let h := host_loop res direction zero_du o (norm sol0) todo (o_max_iter o - todo) sol (norm sol) (o_max_iter o - todo) l in
    (todo <= o_max_iter o)%nat ->
    exists path, nth 0 path [] = sol /\ length path = S (h_steps h - (o_max_iter o - todo)) /\
      last path [] = h_sol h /\ (o_max_iter o - todo <= h_steps h)%nat /\
      (h_steps h <= o_max_iter o)%nat /\ h_rn h = norm (h_sol h) /\
      (forall j, (j < h_steps h - (o_max_iter o - todo))%nat -> exists k, (k < o_backtracks o)%nat /\
       let a := nth j path [] in let b := nth (S j) path [] in
       b = axpy a (step_length (o_rho o) k) (direction a) /\ nlt (norm b) (norm a) = true /\
       (forall i, (i < k)%nat -> nlt (norm (axpy a (step_length (o_rho o) i) (direction a))) (norm a) = false)) /\
      (h_steps h = o_max_iter o \/
       nlt (norm (h_sol h)) (Fin (o_tol o)) = true \/
       (h_steps h <> 0%nat /\
        nlt (ndiv_pos (norm (h_sol h)) (nadd (norm sol0) (Fin tiny))) (Fin (o_rel_tol o)) = true) \/
       zero_du (direction (h_sol h)) = true \/
       (forall k, (k < o_backtracks o)%nat ->
          nlt (norm (axpy (h_sol h) (step_length (o_rho o) k) (direction (h_sol h)))) (norm (h_sol h)) = false))).
  { induction todo as [|todo IH]; intros sol l h' Hle.
    - subst h'. cbn. exists [sol]. rewrite Nat.sub_0_r. cbn. repeat split; auto; try lia.
    - subst h'. cbn [host_loop]. 
      assert (Stop : forall (P : Prop), P ->
        exists path, nth 0 path [] = sol /\ length path = S (o_max_iter o - S todo - (o_max_iter o - S todo)) /\
        last path [] = sol /\ (o_max_iter o - S todo <= o_max_iter o - S todo)%nat /\
        (o_max_iter o - S todo <= o_max_iter o)%nat /\ norm sol = norm sol /\
        (forall j, (j < o_max_iter o - S todo - (o_max_iter o - S todo))%nat -> exists k, (k < o_backtracks o)%nat /\
         let a := nth j path [] in let b := nth (S j) path [] in
         b = axpy a (step_length (o_rho o) k) (direction a) /\ nlt (norm b) (norm a) = true /\
         (forall i, (i < k)%nat -> nlt (norm (axpy a (step_length (o_rho o) i) (direction a))) (norm a) = false)) /\ P).
      { intros P HP. exists [sol]. rewrite Nat.sub_diag. cbn. repeat split; auto; lia. }
      destruct (nlt (norm sol) (Fin (o_tol o))) eqn:E1; [apply Stop; auto|].
      destruct (negb (o_max_iter o - S todo =? 0) && nlt (ndiv_pos (norm sol) (nadd (norm sol0) (Fin tiny))) (Fin (o_rel_tol o))) eqn:E2.
      { apply Stop. apply andb_true_iff in E2. destruct E2 as [E2 E3]. cbn [h_steps h_sol].
        apply negb_true_iff, Nat.eqb_neq in E2. auto. }
      destruct (zero_du (direction sol)) eqn:E3; [apply Stop; auto 6|].
      destruct (C17_simple_search res (o_backtracks o) (o_rho o) sol (direction sol) (norm sol)) as [S1 S2].
      destruct (backtrack res (o_backtracks o) (o_rho o) sol (direction sol) (norm sol) 1) as [[s m]|] eqn:E4.
      + destruct (proj1 (S1 s m) eq_refl) as (k & Hk & -> & -> & Hd & Hno). clear S1 S2 E4.
        set (s := axpy sol (step_length (o_rho o) k) (direction sol)) in *.
        replace (S (o_max_iter o - S todo)) with (o_max_iter o - todo)%nat by lia.
        destruct (IH s (Some (o_max_iter o - S todo)%nat)) as (path & P1 & P2 & P3 & P4 & P5 & P6 & P7 & P8); [lia|].
        unfold norm at 2 in P2. unfold norm at 2 in P3. unfold norm at 2 in P4.
        set (h' := host_loop _ _ _ _ _ _ _ _ _ _ _) in *. fold (norm s) in h'.
        exists (sol :: path). split; [reflexivity|]. split; [cbn [length]; rewrite P2; lia|].
        split; [destruct path; [discriminate|exact P3]|]. split; [lia|]. split; [exact P5|]. split; [exact P6|].
        split; [|exact P8].
        intros [|j] Hj.
        * exists k. split; [exact Hk|]. cbn [nth]. rewrite P1. split; [reflexivity|]. split; assumption.
        * cbn [nth]. apply P7. lia.
      + apply Stop. right. right. right. right. apply S2. reflexivity. }
  destruct (G (o_max_iter o) sol0 None) as (path & P1 & P2 & P3 & P4 & P5 & P6 & P7 & P8); [lia|].
  rewrite Nat.sub_diag in *. 
  exists path. unfold h, host_run. fold (norm sol0). rewrite Nat.sub_0_r in *. repeat split; auto.
Qed.
Print Assumptions C18_host_loop.

(** The extra-residual solver with [max_iter = 0] raises UnboundLocalError instead of
    reporting non-convergence; with [max_iter > 0] it always returns. *)
Theorem C18_hybrid_returns :
  forall res direction zero_du o sol0,
  let met n := nlt n (Fin (o_tol o)) = true \/
    nlt (ndiv_pos n (nadd (r_norm (res sol0)) (Fin tiny))) (Fin (o_rel_tol o)) = true in
  (hybrid_solve res direction zero_du o sol0 = None <->
   o_max_iter o = 0%nat /\ ~ met (r_norm (res sol0))) /\
  (forall s n c, hybrid_solve res direction zero_du o sol0 = Some (s, n, c) ->
     n = r_norm (res s) /\ (c = true <-> met n)) /\
  (forall s n c, amg_solve res direction o sol0 = (s, n, c) ->
     n = r_norm (res s) /\ (c = true <-> met n)).
Proof.
  intros res direction zero_du o sol0 met.
  assert (Met : forall n, converged o (r_norm (res sol0)) n = true <-> met n).
  { intros n. unfold converged, met. apply orb_true_iff. }
  destruct (C18_host_loop res direction zero_du o sol0) as (path & _ & _ & _ & _ & Hrn & _ & _).
  assert (L : forall todo it s n st l, (l <> None \/ todo <> 0%nat) ->
     h_last (host_loop res direction zero_du o (r_norm (res sol0)) todo it s n st l) <> None).
  { induction todo as [|todo IH]; intros it s n st l Hl; cbn [host_loop].
    - destruct Hl as [Hl|Hl]; [exact Hl|congruence].
    - destruct (nlt _ _); [discriminate|]. destruct (_ && _); [discriminate|].
      destruct (zero_du _); [discriminate|]. destruct (backtrack _ _ _ _ _ _ _) as [[? ?]|]; [|discriminate].
      apply IH. left. discriminate. }
  unfold hybrid_solve. set (h := host_run res direction zero_du o sol0) in *. split; [|split].
  - rewrite <- Met, not_true_iff_false. split.
    + intros H. destruct (h_last h) eqn:E; [discriminate|].
      assert (M : o_max_iter o = 0%nat).
      { destruct (Nat.eq_dec (o_max_iter o) 0) as [|Hne]; [assumption|].
        exfalso. revert E. unfold h, host_run. apply L. auto. }
      split; [exact M|]. unfold h, host_run in H. rewrite M in H. cbn in H.
      destruct (converged o _ _); [discriminate|reflexivity].
    + intros [M C]. unfold h, host_run. rewrite M. cbn. rewrite C. reflexivity.
  - intros s n c H.
    assert (E : Some (h_sol h, h_rn h, converged o (r_norm (res sol0)) (h_rn h)) = Some (s, n, c)).
    { destruct (h_last h); [exact H|]. destruct (converged o _ _); [exact H|discriminate]. }
    inversion E. subst. split; [exact Hrn|apply Met].
  - intros s n c H. unfold amg_solve in H. inversion H. subst. split; [|apply Met].
    destruct (C18_host_loop res direction (fun _ => false) o sol0) as (path' & _ & _ & _ & _ & Hrn' & _ & _). exact Hrn'.
Qed.
Print Assumptions C18_hybrid_returns.

Transparent tiny.
Example C18_example :
  (match newton_loop ex_res (fun s => map Qred (ex_dir s)) ex_opts [4] with
   | Some s => (n_it s, n_found s, nlt (n_rn s) (Fin (1 # 1000000))) | None => (0%nat, false, false) end)
  = (4%nat, true, true) /\
  (h_steps (host_run ex_res ex_dir (fun _ => false) ex_opts [4]) = 4%nat) /\
  newton_forward ex_res (fun s => [- nth 0 (ex_dir s) 0]) ex_opts true [4] = LineSearchError 1.
Proof. vm_compute. auto. Qed.
