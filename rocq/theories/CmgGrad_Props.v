(** C92: the coarsest solve, the design solve, compliance and design gradient. *)
From Coq Require Import Reals List Arith Lia Lra Bool.
From Verif Require Import Tmc_Model Tmc_Props Adaptive_Model Adaptive_Props CmgSolve_Model CmgElem_Props CmgSolve_Props CmgPad_Props.
Import ListNotations.
Local Open Scope R_scope.

(** ** The coarsest level *)
(** The direct and the Krylov coarsest solve have the same solutions: both mean "free equations of the
    assembled stiffness, zero on fixed dofs". *)
Theorem C92_coarse : forall KE L (b x : vec), wf L -> symmetric KE ->
  let solves := (forall i, free L i = 0 -> (i < 3 * CN L)%nat -> x i = 0) /\
                (forall i, free L i = 1 -> rs (3 * CN L) (fun j => stiff KE L i j * x j) = b i) in
  ((forall i, (i < 3 * CN L)%nat -> rs (3 * CN L) (fun j => coarse_matrix KE L i j * x j) = b i * free L i) <-> solves) /\
  ((forall i, (i < 3 * CN L)%nat -> krylov_op KE L x i = b i * free L i) <-> solves).
Proof.
  intros KE L b x W Sy solves. unfold solves. clear solves.
  assert (IN : forall i, free L i = 1 -> (i < 3 * CN L)%nat).
  { intros i F. destruct (Nat.lt_ge_cases i (3 * CN L)) as [H|H]; [exact H|]. rewrite (wf_out L W i H) in F. lra. }
  assert (CM : forall i j, coarse_matrix KE L i j = free L i * free L j * stiff KE L i j + (1 - free L i) * ind (i =? j)%nat).
  { intros i j. unfold coarse_matrix, stiff.
    assert (S : rs (CE L) (fun e => rs 24 (fun a => rs 24 (fun b0 => if ((edof L e a =? i) && (edof L e b0 =? j))%nat then if Rlt_dec 0 (free L i) then if Rlt_dec 0 (free L j) then Ev L e * KE a b0 else 0 else 0 else 0)))
      = free L i * free L j * rs (CE L) (fun e => rs 24 (fun a => rs 24 (fun b0 => ind (edof L e a =? i)%nat * ind (edof L e b0 =? j)%nat * (Ev L e * KE a b0))))).
    { rewrite <- rs_scale. apply rs_ext; intros e _. rewrite <- rs_scale. apply rs_ext; intros a _. rewrite <- rs_scale. apply rs_ext; intros c _.
      destruct (wf_mask L W i) as [-> | ->], (wf_mask L W j) as [-> | ->]; destruct (edof L e a =? i)%nat, (edof L e c =? j)%nat; unfold ind; cbn [andb]; repeat destruct (Rlt_dec _ _); try lra; ring. }
    rewrite S. destruct (wf_mask L W i) as [E|E]; rewrite E; destruct (Req_EM_T _ 0); try lra; destruct (i =? j)%nat; unfold ind; ring. }
  split.
  - assert (SUM : forall i, (i < 3 * CN L)%nat -> rs (3 * CN L) (fun j => coarse_matrix KE L i j * x j) = free L i * rs (3 * CN L) (fun j => stiff KE L i j * (free L j * x j)) + (1 - free L i) * x i).
    { intros i Hi. rewrite (rs_ext _ _ (fun j => free L i * (stiff KE L i j * (free L j * x j)) + (1 - free L i) * (ind (i =? j)%nat * x j))) by (intros; rewrite CM; ring).
      rewrite rs_plus, !rs_scale, rs_ind by exact Hi. reflexivity. }
    split.
    + intros H. assert (Z : forall i, free L i = 0 -> (i < 3 * CN L)%nat -> x i = 0).
      { intros i F Hi. specialize (H i Hi). rewrite SUM, F in H by exact Hi. lra. }
      split; [exact Z|]. intros i F. specialize (H i (IN i F)). rewrite SUM, F in H by (apply IN, F). rewrite <- (Rmult_1_r (b i)), <- H.
      replace (1 * rs (3 * CN L) (fun j => stiff KE L i j * (free L j * x j)) + (1 - 1) * x i) with (rs (3 * CN L) (fun j => stiff KE L i j * (free L j * x j))) by ring.
      apply rs_ext. intros j Hj. destruct (wf_mask L W j) as [E|E]; rewrite E; [rewrite (Z j E Hj)|]; ring.
    + intros (Z & H) i Hi. rewrite SUM by exact Hi. destruct (wf_mask L W i) as [E|E]; rewrite E; [rewrite (Z i E Hi); ring|].
      rewrite (rs_ext _ _ (fun j => stiff KE L i j * x j)); [rewrite (H i E); ring|]. intros j Hj. destruct (wf_mask L W j) as [E'|E']; rewrite E'; [rewrite (Z j E' Hj)|]; ring.
  - split.
    + intros H. split.
      * intros i F Hi. specialize (H i Hi). unfold krylov_op in H. rewrite (mv_masked KE L x i F), F in H. lra.
      * intros i F. specialize (H i (IN i F)). unfold krylov_op in H. rewrite mv_stiff, F in H by assumption. lra.
    + intros (Z & H) i Hi. unfold krylov_op. destruct (wf_mask L W i) as [E|E].
      * rewrite (mv_masked KE L x i E), E, (Z i E Hi). ring.
      * rewrite mv_stiff, E, (H i E) by assumption. ring.
Qed.
Print Assumptions C92_coarse.

(** ** The design solve *)
Lemma mv_mv0 KE l Emin E0 p rho cn ce u i : wf_raw l -> (ncell l <= ce)%nat -> (i < 3 * nnode l)%nat ->
  mv KE (pad cn ce l (fun e => simp Emin E0 p (rho e))) u i = mv0 KE l Emin E0 p rho u i.
Proof.
  intros Wl H Hi. rewrite mv_pad by exact H. unfold mv, mv0, scat. cbn [pad CE edof Ev free]. destruct (Nat.ltb_spec i (3 * nnode l)); [|lia].
  f_equal. apply rs_ext. intros e He. destruct (Nat.ltb_spec e (ncell l)); [|lia]. reflexivity.
Qed.
(** [raw_solve] (the public solver, and its adjoint solve): zero on fixed dofs, and if it stopped before
    the cap, every free equation K(rho) u = rhs holds to [tol] relative to the largest load. *)
Theorem C92_design_solve : forall KE coarse pre post tol maxit bucket l Emin E0 p rho rest rhs u k rel B,
  wf_raw l -> symmetric KE -> 0 <= tol -> (0 < bucket)%nat -> 0 <= B ->
  (forall i, (i < 3 * nnode l)%nat -> r_free l i = 1 -> Rabs (rhs i) <= B) ->
  raw_solve KE coarse pre post tol maxit bucket (l, fun e => simp Emin E0 p (rho e)) rest rhs = (u, k, rel) ->
  (forall i, r_free l i = 0 \/ (3 * nnode l <= i)%nat -> u i = 0) /\ (k <= maxit)%nat /\
  ((k < maxit)%nat -> forall i, (i < 3 * nnode l)%nat -> r_free l i = 1 -> Rabs (rhs i - mv0 KE l Emin E0 p rho u i) <= tol * (B + tiny)).
Proof.
  intros KE coarse pre post tol maxit bucket l Emin E0 p rho rest rhs u k rel B Wl Sy T Hb HB Hr S.
  unfold raw_solve in S. cbv zeta in S. cbn [levels_of map hd fst snd] in S.
  destruct (cap_ge (nnode l) bucket Hb) as [A1 A2]. destruct (cap_ge (ncell l) bucket Hb) as [A3 _].
  set (L := pad (cap (nnode l) bucket) (cap (ncell l) bucket) l (fun e => simp Emin E0 p (rho e))) in S.
  assert (WL : wf L) by (apply pad_wf; assumption).
  destruct (C92_solve KE coarse pre post tol maxit L _ _ _ u k rel WL Sy T S) as (U & K & r0 & R0 & _ & Rle & Rres & Rtol).
  assert (FR : forall i, free L i = if (i <? 3 * nnode l)%nat then r_free l i else 0) by reflexivity.
  split; [|split; [exact K|]].
  - intros i [H|H]; apply U; rewrite FR; destruct (Nat.ltb_spec i (3 * nnode l)); try lia; auto.
  - intros Hk i Hi Hf. assert (F1 : free L i = 1) by (rewrite FR; destruct (Nat.ltb_spec i (3 * nnode l)); [exact Hf|lia]).
    assert (RB : r0 <= B + tiny).
    { apply Rle; [exact HB|]. intros j Fj. unfold left_over. rewrite (rs_zero (3 * CN L)) by (intros; ring).
      rewrite FR in Fj. destruct (Nat.ltb_spec j (3 * nnode l)) as [Hj|Hj]; [|lra]. rewrite Rminus_0_r. apply Hr; assumption. }
    specialize (Rres i F1). assert (Q : left_over KE L (fun i => if (i <? 3 * nnode l)%nat then rhs i else 0) u i = rhs i - mv0 KE l Emin E0 p rho u i).
    { unfold left_over. rewrite <- (mv_mv0 KE l Emin E0 p rho (cap (nnode l) bucket) (cap (ncell l) bucket) u i Wl A3 Hi). fold L.
      rewrite (mv_stiff KE L WL u i Sy), F1. destruct (Nat.ltb_spec i (3 * nnode l)); [ring|lia]. }
    rewrite Q in Rres. eapply Rle_trans; [exact Rres|]. specialize (Rtol Hk).
    eapply Rle_trans; [apply Rmult_le_compat_r; [lra|exact Rtol]|]. apply Rmult_le_compat_l; assumption.
Qed.
Print Assumptions C92_design_solve.

(** ** Compliance and the design gradient *)
Section Grad.
Variables (KE : nat -> nat -> R) (l : raw) (Emin E0 : R) (p : nat).
Hypothesis Wl : wf_raw l.
Hypothesis Sy : symmetric KE.
Definition zero_fixed (u : vec) : Prop := forall i, (i < 3 * nnode l)%nat -> r_free l i = 0 -> u i = 0.
Definition inner (x y : vec) : R := rs (3 * nnode l) (fun i => x i * y i).
(** [u] solves K(rho) u = b: the free equations hold and fixed dofs are zero. *)
Definition equilibrium (rho b u : vec) : Prop :=
  zero_fixed u /\ forall i, (i < 3 * nnode l)%nat -> r_free l i = 1 -> mv0 KE l Emin E0 p rho u i = b i.
Definition pair_e (x y : vec) (e : nat) : R := rs 24 (fun a => rs 24 (fun b => x (r_edof l e a) * r_free l (r_edof l e a) * (y (r_edof l e b) * KE b a))).
Lemma inner_mv0 rho x y : inner x (mv0 KE l Emin E0 p rho y) = rs (ncell l) (fun e => simp Emin E0 p (rho e) * pair_e x y e).
Proof using Wl.
  unfold inner, mv0, pair_e.
  rewrite (rs_ext _ _ (fun i => rs (ncell l) (fun e => rs 24 (fun a => ind (r_edof l e a =? i)%nat * (x i * r_free l i * (simp Emin E0 p (rho e) * rs 24 (fun b => y (r_edof l e b) * KE b a))))))).
  2:{ intros i _. rewrite (Rmult_comm (rs (ncell l) _)), <- Rmult_assoc, <- rs_scale. apply rs_ext. intros e _. rewrite <- rs_scale. apply rs_ext. intros a _. rewrite ind_mul. ring. }
  rewrite rs_swap. apply rs_ext. intros e He. rewrite rs_swap, <- rs_scale. apply rs_ext. intros a Ha.
  rewrite (rs_ind _ _ (fun i => x i * r_free l i * (simp Emin E0 p (rho e) * rs 24 (fun b => y (r_edof l e b) * KE b a)))) by (apply (wr_dof l Wl); assumption).
  rewrite <- rs_scale, <- rs_scale, <- rs_scale. apply rs_ext. intros b _. ring.
Qed.
Lemma zf_free u e a : zero_fixed u -> (e < ncell l)%nat -> (a < 24)%nat -> u (r_edof l e a) * r_free l (r_edof l e a) = u (r_edof l e a).
Proof using Wl. intros Z He Ha. destruct (wr_mask l Wl (r_edof l e a)) as [E|E]; rewrite E; [rewrite (Z _ (wr_dof l Wl e a He Ha) E)|]; ring. Qed.
Lemma pair_sym x y e : zero_fixed x -> zero_fixed y -> (e < ncell l)%nat -> pair_e x y e = pair_e y x e.
Proof using Wl Sy.
  intros X Y He. unfold pair_e. rewrite rs_swap. apply rs_ext. intros a Ha. apply rs_ext. intros b Hb.
  rewrite (zf_free x e b X He Hb), (zf_free y e a Y He Ha), (Sy a b Ha Hb). ring.
Qed.
Lemma pair_ce u e : zero_fixed u -> (e < ncell l)%nat -> pair_e u u e = ce KE l u e.
Proof using Wl.
  intros Z He. unfold pair_e, ce. rewrite rs_swap. apply rs_ext. intros a Ha. apply rs_ext. intros b Hb. rewrite (zf_free u e b Z He Hb). ring.
Qed.
Lemma eq_inner rho b u w : equilibrium rho b u -> zero_fixed w -> inner w (mv0 KE l Emin E0 p rho u) = inner w b.
Proof using Wl.
  intros (_ & H) Z. unfold inner. apply rs_ext. intros i Hi. destruct (wr_mask l Wl i) as [E|E]; [rewrite (Z i Hi E); ring|]. rewrite (H i Hi E). reflexivity.
Qed.
End Grad.

(** Compliance: the reported compliance is the work of the load, for a load of any shape. *)
Theorem C92_compliance : forall KE l Emin E0 p rho b u, wf_raw l ->
  equilibrium KE l Emin E0 p rho b u -> compliance KE l Emin E0 p rho u = inner l b u.
Proof.
  intros KE l Emin E0 p rho b u Wl H. transitivity (inner l u (mv0 KE l Emin E0 p rho u)).
  - rewrite inner_mv0 by exact Wl. unfold compliance. apply rs_ext. intros e He. rewrite pair_ce by (try exact Wl; try exact He; apply H). reflexivity.
  - rewrite (eq_inner KE l Emin E0 p Wl rho b u u H (proj1 H)). unfold inner. apply rs_ext. intros; ring.
Qed.
Print Assumptions C92_compliance.

Lemma dl_rs n (f : nat -> R -> R) (df : nat -> R) x : (forall k, (k < n)%nat -> derivable_pt_lim (f k) x (df k)) -> derivable_pt_lim (fun t => rs n (fun k => f k t)) x (rs n df).
Proof.
  induction n as [|n IH]; intros H; cbn [rs]; [apply derivable_pt_lim_const|].
  apply (derivable_pt_lim_plus (fun t => rs n (fun k => f k t)) (f n)); [apply IH; intros; apply H; lia|apply H; lia].
Qed.
Lemma dl_simp Emin E0 p r d : derivable_pt_lim (fun t => simp Emin E0 p (r + t * d)) 0 (INR p * r ^ (p - 1) * (E0 - Emin) * d).
Proof.
  unfold simp. replace (INR p * r ^ (p - 1) * (E0 - Emin) * d) with (0 + (INR p * (r + 0 * d) ^ pred p * (0 + (1 * d + 0 * 0)) * (E0 - Emin) + (r + 0 * d) ^ p * 0)).
  2:{ rewrite Rmult_0_l, !Rplus_0_r, Rplus_0_l. replace (pred p) with (p - 1)%nat by lia. ring. }
  apply (derivable_pt_lim_plus (fun _ => Emin) (fun t => (r + t * d) ^ p * (E0 - Emin))); [apply derivable_pt_lim_const|].
  apply (derivable_pt_lim_mult (fun t => (r + t * d) ^ p) (fun _ => E0 - Emin)); [|apply derivable_pt_lim_const].
  apply (derivable_pt_lim_comp (fun t => r + t * d) (fun y => y ^ p)); [|apply derivable_pt_lim_pow].
  apply (derivable_pt_lim_plus (fun _ => r) (fun t => t * d)); [apply derivable_pt_lim_const|].
  apply (derivable_pt_lim_mult (fun t => t) (fun _ => d)); [apply derivable_pt_lim_id|apply derivable_pt_lim_const].
Qed.

(** The gradient returned by the solver is the gradient: move the design along any direction [d],
    follow the solutions [u t] (near 0, differentiable at 0), and pair them with any cotangent [w].
    [lam] is the adjoint solve. *)
Theorem C92_gradient : forall KE l Emin E0 p rho d b w (u : R -> vec) (du lam : vec) (eps : posreal),
  wf_raw l -> symmetric KE ->
  (forall t, Rabs t < eps -> equilibrium KE l Emin E0 p (fun e => rho e + t * d e) b (u t)) ->
  (forall i, derivable_pt_lim (fun t => u t i) 0 (du i)) ->
  equilibrium KE l Emin E0 p rho w lam ->
  derivable_pt_lim (fun t => inner l w (u t)) 0 (rs (ncell l) (fun e => bwd KE l Emin E0 p rho (u 0) lam e * d e)).
Proof.
  intros KE l Emin E0 p rho d b w u du lam ep Wl Sy Eq Du Adj.
  assert (Z0 : Rabs 0 < ep) by (rewrite Rabs_R0; apply cond_pos).
  set (F := fun t => rs (ncell l) (fun e => simp Emin E0 p (rho e + t * d e) * pair_e KE l lam (u t) e)).
  assert (FC : forall t, Rabs t < ep -> F t = inner l lam b).
  { intros t Ht. unfold F. rewrite <- (inner_mv0 KE l Emin E0 p Wl (fun e => rho e + t * d e) lam (u t)). apply (eq_inner KE l Emin E0 p Wl _ b (u t) lam (Eq t Ht) (proj1 Adj)). }
  assert (D1 : derivable_pt_lim F 0 (rs (ncell l) (fun e => INR p * rho e ^ (p - 1) * (E0 - Emin) * d e * pair_e KE l lam (u 0) e + simp Emin E0 p (rho e + 0 * d e) * pair_e KE l lam du e))).
  { unfold F. apply (dl_rs (ncell l) (fun e t => simp Emin E0 p (rho e + t * d e) * pair_e KE l lam (u t) e)). intros e He.
    apply (derivable_pt_lim_mult (fun t => simp Emin E0 p (rho e + t * d e)) (fun t => pair_e KE l lam (u t) e)); [apply dl_simp|].
    unfold pair_e. apply (dl_rs 24 (fun a t => rs 24 (fun b0 => lam (r_edof l e a) * r_free l (r_edof l e a) * (u t (r_edof l e b0) * KE b0 a)))). intros a Ha.
    apply (dl_rs 24 (fun b0 t => lam (r_edof l e a) * r_free l (r_edof l e a) * (u t (r_edof l e b0) * KE b0 a))). intros b0 Hb.
    set (c := lam (r_edof l e a) * r_free l (r_edof l e a)).
    replace (c * (du (r_edof l e b0) * KE b0 a)) with (c * (du (r_edof l e b0) * KE b0 a + u 0 (r_edof l e b0) * 0)) by ring.
    apply (derivable_pt_lim_scal (fun t => u t (r_edof l e b0) * KE b0 a)).
    apply (derivable_pt_lim_mult (fun t => u t (r_edof l e b0)) (fun _ => KE b0 a)); [apply Du|apply derivable_pt_lim_const]. }
  assert (D0 : derivable_pt_lim F 0 0).
  { intros eps He. exists ep. intros h _ Hh. rewrite (FC 0 Z0), (FC (0 + h)) by (rewrite Rplus_0_l; exact Hh). replace ((inner l lam b - inner l lam b) / h - 0) with 0 by (unfold Rdiv; ring). rewrite Rabs_R0. exact He. }
  pose proof (uniqueness_limite F 0 _ _ D1 D0) as Z. rewrite rs_plus in Z.
  assert (ZU : zero_fixed l du).
  { intros i Hi Hf. pose proof (Du i) as D. assert (C0 : derivable_pt_lim (fun t => u t i) 0 0).
    { intros eps He. exists ep. intros h _ Hh. assert (Hh' : Rabs (0 + h) < ep) by (rewrite Rplus_0_l; exact Hh). rewrite (proj1 (Eq (0 + h) Hh') i Hi Hf), (proj1 (Eq 0 Z0) i Hi Hf). replace ((0 - 0) / h - 0) with 0 by (unfold Rdiv; ring). rewrite Rabs_R0. exact He. }
    exact (uniqueness_limite _ _ _ _ D C0). }
  assert (IW : rs (ncell l) (fun e => simp Emin E0 p (rho e + 0 * d e) * pair_e KE l lam du e) = inner l w du).
  { transitivity (inner l du (mv0 KE l Emin E0 p rho lam)).
    - rewrite (inner_mv0 KE l Emin E0 p Wl). apply rs_ext. intros e He. rewrite (pair_sym KE l Wl Sy lam du e (proj1 Adj) ZU He). f_equal. f_equal. ring.
    - rewrite (eq_inner KE l Emin E0 p Wl rho w lam du Adj ZU). unfold inner. apply rs_ext. intros; ring. }
  replace (rs (ncell l) (fun e => bwd KE l Emin E0 p rho (u 0) lam e * d e)) with (inner l w du).
  - unfold inner. apply (dl_rs (3 * nnode l) (fun i t => w i * u t i)). intros i Hi. apply (derivable_pt_lim_scal (fun t => u t i)), Du.
  - rewrite <- IW. rewrite (rs_ext (ncell l) (fun e => bwd KE l Emin E0 p rho (u 0) lam e * d e) (fun e => -1 * (INR p * rho e ^ (p - 1) * (E0 - Emin) * d e * pair_e KE l lam (u 0) e))).
    + rewrite rs_scale. lra.
    + intros e He. unfold bwd. replace (rs 24 (fun a => lam (r_edof l e a) * r_free l (r_edof l e a) * rs 24 (fun b0 => u 0 (r_edof l e b0) * KE b0 a))) with (pair_e KE l lam (u 0) e); [ring|].
      unfold pair_e. apply rs_ext. intros a _. rewrite <- rs_scale. reflexivity.
Qed.
Print Assumptions C92_gradient.
(** For the compliance the adjoint is the solution, and the solver's gradient is the analytic [dc]. *)
Theorem C92_compliance_gradient : forall KE l Emin E0 p rho u, wf_raw l -> zero_fixed l u ->
  forall e, (e < ncell l)%nat -> bwd KE l Emin E0 p rho u u e = dc KE l Emin E0 p rho u e.
Proof.
  intros KE l Emin E0 p rho u Wl Z e He. unfold bwd, dc. rewrite <- (pair_ce KE l Wl u e Z He).
  replace (rs 24 (fun a => u (r_edof l e a) * r_free l (r_edof l e a) * rs 24 (fun b => u (r_edof l e b) * KE b a))) with (pair_e KE l u u e); [ring|].
  unfold pair_e. apply rs_ext. intros a _. rewrite <- rs_scale. reflexivity.
Qed.
Print Assumptions C92_compliance_gradient.

(** ** Choosing the coarsest solver *)
Theorem C92_coarse_choice : forall has o,
  (parse_coarse has o = Some CuDSS <-> has = true /\ (o = NoOptions \/ o = Direct)) /\
  (parse_coarse has o = None <-> o = OtherOptions \/ (has = false /\ (o = NoOptions \/ o = Direct))) /\
  (forall n, o = Krylov n -> parse_coarse has o = Some (match n with None => KrylovCG | Some m => KrylovNamed m end)).
Proof.
  intros has o. split; [|split].
  - destruct o as [| |[n|]|], has; cbn; split; intros H; try discriminate; intuition (try discriminate); auto.
  - destruct o as [| |[n|]|], has; cbn; split; intros H; try discriminate; intuition (try discriminate); auto.
  - intros n ->. destruct n; reflexivity.
Qed.
Print Assumptions C92_coarse_choice.

(** One cell with one free corner: the exact solution path is known, so the gradient theorem's
    hypotheses hold with a real response (the displacement drops as the design stiffens). *)
Definition one_cell : raw := {| nnode := 8; ncell := 1; r_edof := fun _ a => a; r_free := fun i => if (i <? 3)%nat then 1 else 0; r_color := fun n => n; r_idx := fun _ _ => 0%nat; r_w := fun _ _ => 0 |}.
Lemma mv0_scale KE l Emin E0 p rho c u i : mv0 KE l Emin E0 p rho (fun j => c * u j) i = c * mv0 KE l Emin E0 p rho u i.
Proof.
  unfold mv0. rewrite <- Rmult_assoc. f_equal. rewrite <- rs_scale. apply rs_ext. intros e _. rewrite <- rs_scale. apply rs_ext. intros a _.
  destruct (r_edof l e a =? i)%nat; [|ring]. rewrite (rs_ext 24 _ (fun b => c * (u (r_edof l e b) * KE b a))) by (intros; ring). rewrite rs_scale. ring.
Qed.
Example C92_gradient_example : forall v : vec, (forall i, (3 <= i)%nat -> v i = 0) ->
  let K := KEmat 0.3 1 in let b := mv0 K one_cell 1 2 2 (fun _ => 1) v in
  let u t := fun i => 2 / (1 + (1 + t) ^ 2) * v i in
  wf_raw one_cell /\ symmetric K /\ chain [(one_cell, fun _ => 1)] /\
  (forall t, equilibrium K one_cell 1 2 2 (fun _ => 1 + t * 1) b (u t)) /\
  (forall i, derivable_pt_lim (fun t => u t i) 0 (- v i)).
Proof.
  intros v V K b u. assert (WF : wf_raw one_cell).
  { split; cbn [one_cell r_free r_edof ncell nnode]; [intros i; destruct (i <? 3)%nat; [right|left]; reflexivity|intros; lia]. }
  assert (P : forall t, 0 < 1 + (1 + t) ^ 2) by (intros t; pose proof (pow2_ge_0 (1 + t)); lra).
  split; [exact WF|]. split; [intros a c _ _; apply KE_sym|]. split; [split; exact I|]. split.
  - intros t. split.
    + intros i _ H. unfold u. rewrite V; [ring|]. cbn [one_cell r_free] in H. destruct (Nat.ltb_spec i 3); [lra|lia].
    + intros i Hi Hf. unfold u. rewrite mv0_scale. unfold b. unfold mv0. rewrite <- Rmult_assoc. f_equal. change (ncell one_cell) with 1%nat. rewrite <- rs_scale. apply rs_ext. intros e _. rewrite <- rs_scale. apply rs_ext. intros a _.
      change (r_edof one_cell e a) with a.
      destruct (a =? i)%nat; [|ring]. unfold simp. rewrite <- Rmult_assoc. f_equal. pose proof (P t). rewrite !Rmult_1_r. replace (2 - 1) with 1 by ring. rewrite pow1. field. lra.
  - intros i. unfold u. replace (- v i) with ((0 * (1 + (1 + 0) ^ 2) - (0 + (INR 2 * (1 + 0) ^ pred 2 * (0 + 1))) * 2) / Rsqr (1 + (1 + 0) ^ 2) * v i + 2 / (1 + (1 + 0) ^ 2) * 0).
    2:{ unfold Rsqr. cbn [pow pred INR]. field. }
    apply (derivable_pt_lim_mult (fun t => 2 / (1 + (1 + t) ^ 2)) (fun _ => v i)); [|apply derivable_pt_lim_const].
    apply (derivable_pt_lim_div (fun _ => 2) (fun t => 1 + (1 + t) ^ 2)); [apply derivable_pt_lim_const| |specialize (P 0); lra].
    apply (derivable_pt_lim_plus (fun _ => 1) (fun t => (1 + t) ^ 2)); [apply derivable_pt_lim_const|].
    apply (derivable_pt_lim_comp (fun t => 1 + t) (fun y => y ^ 2)); [|apply derivable_pt_lim_pow].
    apply (derivable_pt_lim_plus (fun _ => 1) (fun t => t)); [apply derivable_pt_lim_const|apply derivable_pt_lim_id].
Qed.
