(** C92: padding to bucket sizes, the coarsest solve, compliance and design gradient, levels. *)
From Coq Require Import Reals List Arith Lia Lra Bool FunctionalExtensionality.
From Verif Require Import Tmc_Model Tmc_Props Adaptive_Model Adaptive_Props CmgSolve_Model CmgElem_Props CmgSolve_Props.
Import ListNotations.
Local Open Scope R_scope.

(** Well-formed raw levels: 0/1 mask, element dofs in range, nonzero transfer weights point at nodes of
    the next level. *)
Record wf_raw (l : raw) : Prop := {
  wr_mask : forall i, r_free l i = 0 \/ r_free l i = 1;
  wr_dof : forall e a, (e < ncell l)%nat -> (a < 24)%nat -> (r_edof l e a < 3 * nnode l)%nat }.
Definition into (l c : raw) : Prop := forall n k, (n < nnode l)%nat -> (k < 8)%nat -> r_w l n k <> 0 -> (r_idx l n k < nnode c)%nat.
Fixpoint chain (ls : list (raw * vec)) : Prop :=
  match ls with [] => True | l :: rest => match rest with [] => True | c :: _ => into (fst l) (fst c) end /\ chain rest end.

Lemma cap_ge n b : (0 < b)%nat -> (n <= cap n b /\ 1 <= cap n b)%nat.
Proof.
  intros H. unfold cap. pose proof (Nat.div_mod (Nat.max 1 n + b - 1) b ltac:(lia)) as D. pose proof (Nat.mod_upper_bound (Nat.max 1 n + b - 1) b ltac:(lia)) as M.
  rewrite (Nat.mul_comm b) in D. lia.
Qed.
(** The padded level is well-formed. *)
Lemma pad_wf cn ce l E : wf_raw l -> (nnode l <= cn)%nat -> (1 <= cn)%nat -> wf (pad cn ce l E).
Proof.
  intros Wl H H1. split; cbn [pad free CN CE edof].
  - intros i. destruct (Nat.ltb i _); [apply (wr_mask l Wl)|left; reflexivity].
  - intros i Hi. destruct (Nat.ltb_spec i (3 * nnode l)); [lia|reflexivity].
  - intros e a _ Ha. destruct (Nat.ltb_spec e (ncell l)); [|lia]. pose proof (wr_dof l Wl e a H0 Ha). lia.
Qed.

Section Pad.
Variables (KE : nat -> nat -> R) (l : raw) (E : vec).
Let exact_level := pad (nnode l) (ncell l) l E.
Lemma scat_pad cn ce y i : (ncell l <= ce)%nat -> (forall e a, (ncell l <= e)%nat -> y e a = 0) -> scat (pad cn ce l E) y i = scat exact_level y i.
Proof using Type.
  intros H Z. unfold scat, exact_level. cbn [pad CE edof]. apply rs_trunc; [exact H|]. intros e He. apply rs_zero. intros a _. rewrite Z by exact He. destruct (Nat.eqb _ _); reflexivity.
Qed.
Lemma Ev_out e : (ncell l <= e)%nat -> (if (e <? ncell l)%nat then E e else 0) = 0.
Proof using Type. intros H. destruct (Nat.ltb_spec e (ncell l)); [lia|reflexivity]. Qed.
Lemma mv_pad cn ce u : (ncell l <= ce)%nat -> mv KE (pad cn ce l E) u = mv KE exact_level u.
Proof using Type.
  intros H. apply functional_extensionality. intros i. unfold mv. rewrite (scat_pad cn ce) by (try exact H; intros e a He; cbn [pad Ev]; rewrite (Ev_out e He); ring). reflexivity.
Qed.
Lemma blk_pad cn ce n i j : (ncell l <= ce)%nat -> blk KE (pad cn ce l E) n i j = blk KE exact_level n i j.
Proof using Type.
  intros H. unfold blk, exact_level. apply rs_ext. intros a _. cbn [pad CE edof Ev]. apply rs_trunc; [exact H|]. intros e He. rewrite (Ev_out e He). destruct (Nat.eqb _ _); ring.
Qed.
Lemma dinv_pad cn ce n i j : (ncell l <= ce)%nat -> dinv KE (pad cn ce l E) n i j = dinv KE exact_level n i j.
Proof using Type.
  intros H. unfold dinv. cbn [pad free]. unfold exact_level at 1. cbn [pad free].
  replace (fun i0 j0 => if Rlt_dec 0 (if (3 * n <? 3 * nnode l)%nat then r_free l (3 * n)%nat else 0) then blk KE (pad cn ce l E) n i0 j0 else if (i0 =? j0)%nat then 1 else 0)
     with (fun i0 j0 => if Rlt_dec 0 (if (3 * n <? 3 * nnode l)%nat then r_free l (3 * n)%nat else 0) then blk KE exact_level n i0 j0 else if (i0 =? j0)%nat then 1 else 0); [reflexivity|].
  apply functional_extensionality. intros i0. apply functional_extensionality. intros j0. rewrite (blk_pad cn ce) by exact H. reflexivity.
Qed.
Lemma resid_pad cn ce b u : (ncell l <= ce)%nat -> resid KE (pad cn ce l E) b u = resid KE exact_level b u.
Proof using Type. intros H. unfold resid. rewrite (mv_pad cn ce) by exact H. reflexivity. Qed.
Lemma colour_pad cn ce b c u : (ncell l <= ce)%nat -> colour_step KE (pad cn ce l E) b c u = colour_step KE exact_level b c u.
Proof using Type.
  intros H. apply functional_extensionality. intros i. unfold colour_step. rewrite (resid_pad cn ce) by exact H.
  rewrite (rs_ext 3 _ (fun j => dinv KE exact_level (i / 3) (i mod 3) j * resid KE exact_level b u (3 * (i / 3) + j)%nat)) by (intros; rewrite (dinv_pad cn ce) by exact H; reflexivity).
  reflexivity.
Qed.
Lemma smooth_pad cn ce b k : (ncell l <= ce)%nat -> forall u, smooth KE (pad cn ce l E) b k u = smooth KE exact_level b k u.
Proof using Type.
  intros H.
  assert (F : forall s u, fold_left (fun v c => colour_step KE (pad cn ce l E) b c v) s u = fold_left (fun v c => colour_step KE exact_level b c v) s u).
  { induction s as [|c s IHs]; intros u; [reflexivity|]. cbn [fold_left]. rewrite (colour_pad cn ce) by exact H. apply IHs. }
  assert (SW : forall u, sweep KE (pad cn ce l E) b u = sweep KE exact_level b u) by (intros u; apply F).
  induction k as [|k IH]; intros u; [reflexivity|]. cbn [smooth]. rewrite IH, SW. reflexivity.
Qed.
Lemma restrict_pad cn ce c cn' ce' E' r : (nnode l <= cn)%nat -> restrict (pad cn ce l E) (pad cn' ce' c E') r = restrict exact_level (pad (nnode c) (ncell c) c E') r.
Proof using Type.
  intros H. apply functional_extensionality. intros i. unfold restrict, exact_level. cbn [pad CN Pidx Pw free]. f_equal. apply rs_trunc; [exact H|].
  intros n Hn. apply rs_zero. intros k _. destruct (Nat.ltb_spec n (nnode l)); [lia|]. destruct (Nat.eqb _ _); ring.
Qed.
Lemma prolong_pad cn ce c cn' ce' E' ec : (nnode c <= cn')%nat -> into l c -> prolong (pad cn ce l E) (pad cn' ce' c E') ec = prolong exact_level (pad (nnode c) (ncell c) c E') ec.
Proof using Type.
  intros H I. apply functional_extensionality. intros i. unfold prolong, exact_level. cbn [pad CN Pidx Pw free]. f_equal. apply rs_ext. intros k Hk.
  destruct (Nat.ltb_spec (i / 3) (nnode l)) as [A|A]; [|ring]. destruct (Req_dec (r_w l (i / 3)%nat k) 0) as [Z|Z]; [rewrite Z; ring|].
  pose proof (I _ _ A Hk Z). f_equal. f_equal. lia.
Qed.
End Pad.

Definition exact_levels (ls : list (raw * vec)) : list lev := map (fun le => pad (nnode (fst le)) (ncell (fst le)) (fst le) (snd le)) ls.
Lemma vcycle_step KE coarse pre post L C rest b : vcycle KE coarse pre post (L :: C :: rest) b =
  smooth KE L b post (fun i => smooth KE L b pre (fun _ => 0) i + prolong L C (vcycle KE coarse pre post (C :: rest) (restrict L C (resid KE L b (smooth KE L b pre (fun _ => 0))))) i).
Proof. reflexivity. Qed.
Lemma vcycle_pad KE coarse pre post bucket : (0 < bucket)%nat -> forall ls, chain ls -> forall b,
  vcycle KE coarse pre post (levels_of bucket ls) b = vcycle KE coarse pre post (exact_levels ls) b.
Proof.
  intros Hb. induction ls as [|[l E] rest IH]; intros C b; [reflexivity|]. destruct rest as [|[c E'] rest].
  - reflexivity.
  - destruct C as [I C]. cbn [fst snd] in I. specialize (IH C).
    pose proof (proj1 (cap_ge (ncell l) bucket Hb)) as A. pose proof (proj1 (cap_ge (nnode l) bucket Hb)) as B. pose proof (proj1 (cap_ge (nnode c) bucket Hb)) as D.
    change (levels_of bucket ((l, E) :: (c, E') :: rest)) with (pad (cap (nnode l) bucket) (cap (ncell l) bucket) l E :: levels_of bucket ((c, E') :: rest)).
    change (exact_levels ((l, E) :: (c, E') :: rest)) with (pad (nnode l) (ncell l) l E :: exact_levels ((c, E') :: rest)).
    assert (H1 : exists t, levels_of bucket ((c, E') :: rest) = pad (cap (nnode c) bucket) (cap (ncell c) bucket) c E' :: t) by (eexists; reflexivity).
    assert (H2 : exists t, exact_levels ((c, E') :: rest) = pad (nnode c) (ncell c) c E' :: t) by (eexists; reflexivity).
    destruct H1 as [t1 H1]. destruct H2 as [t2 H2]. rewrite H1, H2 in IH |- *. rewrite !vcycle_step.
    rewrite !(smooth_pad KE l E (cap (nnode l) bucket) (cap (ncell l) bucket)) by exact A. rewrite (resid_pad KE l E (cap (nnode l) bucket) (cap (ncell l) bucket)) by exact A. rewrite (restrict_pad l E (cap (nnode l) bucket)) by exact B. rewrite IH, (prolong_pad l E (cap (nnode l) bucket) (cap (ncell l) bucket) c (cap (nnode c) bucket)) by assumption. reflexivity.
Qed.

Lemma maxabs_trunc n m r : (n <= m)%nat -> (forall k, (n <= k)%nat -> r k = 0) -> maxabs m r = maxabs n r.
Proof. intros H Z. induction H as [|m H IH]; [reflexivity|]. cbn [maxabs]. rewrite IH, Z, Rabs_R0 by lia. apply Rmax_left, maxabs_nonneg. Qed.
Lemma masked_out l E cn ce r : masked (pad cn ce l E) r -> forall k, (3 * nnode l <= k)%nat -> r k = 0.
Proof. intros M k H. apply M. cbn [pad free]. destruct (Nat.ltb_spec k (3 * nnode l)); [lia|reflexivity]. Qed.
Lemma pad_masked l E cn ce cn' ce' r : masked (pad cn ce l E) r -> masked (pad cn' ce' l E) r.
Proof. intros M. exact M. Qed.

Section SolvePad.
Variables (KE : nat -> nat -> R) (coarse : vec -> vec) (pre post : nat) (l : raw) (E : vec) (rest : list (raw * vec)) (bucket : nat).
Hypothesis Hb : (0 < bucket)%nat.
Hypothesis C : chain ((l, E) :: rest).
Let Lp := pad (cap (nnode l) bucket) (cap (ncell l) bucket) l E.
Let Lx := pad (nnode l) (ncell l) l E.
Let Pp := levels_of bucket ((l, E) :: rest).
Let Px := exact_levels ((l, E) :: rest).
Lemma vdot_pad x y : masked Lx x -> vdot (3 * CN Lp) x y = vdot (3 * CN Lx) x y.
Proof using Hb.
  intros M. unfold vdot. cbn [Lp Lx pad CN]. apply rs_trunc; [pose proof (cap_ge (nnode l) bucket Hb); lia|]. intros k H. rewrite (masked_out l E _ _ x M k H). ring.
Qed.
Lemma maxabs_pad x : masked Lx x -> maxabs (3 * CN Lp) x = maxabs (3 * CN Lx) x.
Proof using Hb.
  intros M. cbn [Lp Lx pad CN]. apply maxabs_trunc; [pose proof (cap_ge (nnode l) bucket Hb); lia|]. apply (masked_out l E _ _ x M).
Qed.
Lemma mvP u : mv KE Lp u = mv KE Lx u.
Proof using Hb. apply (mv_pad KE l E), (cap_ge (ncell l) bucket Hb). Qed.
Lemma vcP b : vcycle KE coarse pre post Pp b = vcycle KE coarse pre post Px b.
Proof using Hb C. apply (vcycle_pad KE coarse pre post bucket Hb _ C). Qed.
Definition okst (st : state) : Prop := let '(u, r, p, _, _) := st in masked Lx r /\ masked Lx p.
Lemma body_pad st : okst st -> body KE coarse pre post Pp Lp st = body KE coarse pre post Px Lx st /\ okst (body KE coarse pre post Px Lx st).
Proof using Hb C.
  destruct st as [[[[u r] p] rz] k]. intros (R & P). unfold body. cbv zeta.
  rewrite !mvP, !vcP.
  rewrite (vdot_pad p (mv KE Lx p) P). set (al := rz / _).
  assert (R' : masked Lx (fun i => r i - al * mv KE Lx p i)).
  { intros i H. rewrite (R i H), (mv_masked KE Lx p i H). ring. }
  rewrite (vdot_pad _ (vcycle KE coarse pre post Px (fun i => r i - al * mv KE Lx p i)) R'). split; [reflexivity|]. cbn [okst]. split; [exact R'|].
  intros i H. unfold Px, exact_levels. cbn [map fst snd]. rewrite (vcycle_masked KE coarse pre post Lx _ _ i H), (P i H). ring.
Qed.
Lemma loop_pad bound : forall fuel st, okst st -> loop KE coarse pre post Pp Lp bound fuel st = loop KE coarse pre post Px Lx bound fuel st /\ okst (loop KE coarse pre post Px Lx bound fuel st).
Proof using Hb C.
  induction fuel as [|f IH]; intros st O; [split; [reflexivity|exact O]|]. cbn [loop]. destruct st as [[[[u r] p] rz] k]. rewrite (maxabs_pad r (proj1 O)).
  destruct (Rlt_dec bound (maxabs (3 * CN Lx) r)); [|split; [reflexivity|exact O]]. destruct (body_pad _ O) as [-> O']. apply IH, O'.
Qed.
Lemma solve_pad tol maxit b u0 : solve_j KE coarse pre post tol maxit Pp Lp b u0 = solve_j KE coarse pre post tol maxit Px Lx b u0.
Proof using Hb C.
  unfold solve_j. cbv zeta. 
  change (free Lp) with (free Lx). rewrite !mvP, !vcP.
  set (r := fun i => b i * free Lx i - mv KE Lx (fun i0 => u0 i0 * free Lx i0) i).
  assert (R : masked Lx r). { intros i H. unfold r. rewrite H, (mv_masked KE Lx _ i H). ring. }
  rewrite !(maxabs_pad r R), !(vdot_pad r _ R).
  set (st := (_, r, _, _, 0%nat)). assert (O : okst st). { split; [exact R|]. unfold Px, exact_levels. cbn [map fst snd]. apply vcycle_masked. }
  destruct (loop_pad (tol * (maxabs (3 * CN Lx) r + tiny)) maxit st O) as [Q O']. rewrite Q.
  destruct (loop KE coarse pre post Px Lx (tol * (maxabs (3 * CN Lx) r + tiny)) maxit st) as [[[[u1 r1] p1] rz1] k1]. rewrite (maxabs_pad r1 (proj1 O')). reflexivity.
Qed.
End SolvePad.

(** The bucket size changes nothing: same displacement, same iteration count, same residual ratio. *)
Theorem C92_bucket : forall KE coarse pre post tol maxit l0 rest rhs b1 b2,
  (0 < b1)%nat -> (0 < b2)%nat -> chain (l0 :: rest) ->
  raw_solve KE coarse pre post tol maxit b1 l0 rest rhs = raw_solve KE coarse pre post tol maxit b2 l0 rest rhs.
Proof.
  intros KE coarse pre post tol maxit [l E] rest rhs b1 b2 H1 H2 C. unfold raw_solve. cbv zeta. cbn [levels_of map hd fst snd].
  pose proof (solve_pad KE coarse pre post l E rest b1 H1 C tol maxit) as A. pose proof (solve_pad KE coarse pre post l E rest b2 H2 C tol maxit) as B.
  unfold levels_of in A, B. cbn [map fst snd] in A, B. rewrite A, B. reflexivity.
Qed.
Print Assumptions C92_bucket.
