(** Property C88, continued: normalisation, sensitivities, padded modes and the sparse solver. *)
From Coq Require Import Reals List Arith Bool Lia Lra Permutation.
From Verif Require Import Tmc_Model Tmc_Props Eigen_Model Eigen_Props.
Import ListNotations.
Open Scope R_scope.

(** ** Normalisation and padding *)
Lemma dot_scaled n K x s : dotp n (fun a => x a * s) (mv n K (fun a => x a * s)) = s * s * dotp n x (mv n K x).
Proof.
  unfold dotp. rewrite <- rs_scale. apply rs_ext. intros i _. rewrite (mv_ext n K _ (fun k => s * x k)) by (intros; ring). rewrite mv_scale. ring.
Qed.
(** The result has [m] entries: the found modes in order, scaled to unit stiffness energy (never turned or mixed),
    then infinite factors with zero vectors. *)
Theorem C88_normalised K free m (found : list pair) d : (length found <= m)%nat -> let n := length free in let out := solve_host K free m found in
  length out = m /\
  (forall i, (i < length found)%nat -> let x := fun a => snd (nth i found d) (nth a free 0%nat) in let '(l, phi) := nth i out (NaN, fun _ => 0) in
     l = Fin (fst (nth i found d)) /\ (exists s, forall a, phi a = s * x a) /\
     (0 < dotp n x (mv n (restrict free K) x) -> dotp n phi (mv n (restrict free K) phi) = 1)) /\
  (forall i, (length found <= i < m)%nat -> let '(l, phi) := nth i out (NaN, fun _ => 0) in l = Inf /\ forall a, phi a = 0).
Proof.
  intros Hm n out. set (g := fun p : pair => let x := fun a => snd p (nth a free 0%nat) in (Fin (fst p), fun a => x a * norm_scale n (restrict free K) x)).
  assert (E : out = map g found ++ repeat (Inf, fun _ => 0) (m - length found)).
  { unfold out, solve_host. fold n. change (map _ found) with (map g found). apply firstn_all2. rewrite app_length, map_length, repeat_length. lia. }
  rewrite E. split; [rewrite app_length, map_length, repeat_length; lia|]. split.
  - intros i Hi x. rewrite app_nth1 by (rewrite map_length; exact Hi). rewrite (nth_indep _ _ (g d)) by (rewrite map_length; exact Hi). rewrite map_nth. unfold g. cbn zeta. split; [reflexivity|]. split.
    + exists (norm_scale n (restrict free K) x). intros a. unfold x. ring.
    + intros P. fold x. rewrite dot_scaled. unfold norm_scale. set (e := dotp n x (mv n (restrict free K) x)) in *. rewrite Rabs_pos_eq by lra.
      assert (Q : 0 < sqrt e) by (apply sqrt_lt_R0; exact P). assert (Q2 : sqrt e * sqrt e = e) by (apply sqrt_sqrt; lra). transitivity (1 / sqrt e * (1 / sqrt e) * (sqrt e * sqrt e)); [rewrite Q2; reflexivity|field; lra].
  - intros i Hi. rewrite app_nth2 by (rewrite map_length; lia). rewrite map_length.
    rewrite (nth_indep _ _ (Inf, fun _ : nat => 0)) by (rewrite repeat_length; lia). rewrite nth_repeat. split; reflexivity.
Qed.
Print Assumptions C88_normalised.

(** ** Sensitivities *)
Lemma mul0 (c e : R) : e = 0 -> c * e = 0.
Proof. intros ->. ring. Qed.
Lemma rs_deriv n (f : nat -> R -> R) (d : nat -> R) t : (forall k, (k < n)%nat -> derivable_pt_lim (f k) t (d k)) -> derivable_pt_lim (fun s => rs n (fun k => f k s)) t (rs n d).
Proof.
  induction n as [|n IH]; intros H; cbn [rs]; [apply derivable_pt_lim_const|].
  apply (derivable_pt_lim_plus (fun s => rs n (fun k => f k s)) (f n) t (rs n d) (d n)); [apply IH; intros; apply H; lia|apply H; lia].
Qed.
Lemma mv_deriv n (A : R -> mat) (dA : mat) (x : R -> vec) (dx : vec) t a :
  (forall b, (b < n)%nat -> derivable_pt_lim (fun s => A s a b) t (dA a b)) -> (forall b, (b < n)%nat -> derivable_pt_lim (fun s => x s b) t (dx b)) ->
  derivable_pt_lim (fun s => mv n (A s) (x s) a) t (mv n dA (x t) a + mv n (A t) dx a).
Proof.
  intros H1 H2. unfold mv. rewrite <- rs_plus. apply (rs_deriv n (fun k s => A s a k * x s k)). intros k Hk.
  apply (derivable_pt_lim_mult (fun s => A s a k) (fun s => x s k) t); [apply H1|apply H2]; exact Hk.
Qed.
(** A smooth path of matrices with an eigenpair on it: [A], [G] the free blocks of the stiffness and geometric matrices. *)
Definition eigen_path (n : nat) (A G : R -> mat) (dA dG : mat) (l : R -> R) (dl : R) (x : R -> vec) (dx : vec) : Prop :=
  (forall t a, (a < n)%nat -> mv n (A t) (x t) a + l t * mv n (G t) (x t) a = 0) /\
  (forall a b, (a < n)%nat -> (b < n)%nat -> derivable_pt_lim (fun s => A s a b) 0 (dA a b) /\ derivable_pt_lim (fun s => G s a b) 0 (dG a b)) /\
  derivable_pt_lim l 0 dl /\ (forall a, (a < n)%nat -> derivable_pt_lim (fun s => x s a) 0 (dx a)) /\
  (forall a b, (a < n)%nat -> (b < n)%nat -> A 0 a b = A 0 b a /\ G 0 a b = G 0 b a) /\ dotp n (x 0) (mv n (A 0) (x 0)) = 1.
Theorem C88_sensitivity n A G dA dG l dl x dx : eigen_path n A G dA dG l dl x dx ->
  dl = l 0 * dotp n (x 0) (mv n dA (x 0)) + l 0 * l 0 * dotp n (x 0) (mv n dG (x 0)).
Proof.
  intros (E & D & Dl & Dx & S & N).
  assert (Z : forall a, (a < n)%nat -> mv n dA (x 0) a + mv n (A 0) dx a + (dl * mv n (G 0) (x 0) a + l 0 * (mv n dG (x 0) a + mv n (G 0) dx a)) = 0).
  { intros a Ha. apply (uniqueness_limite (fun t => mv n (A t) (x t) a + l t * mv n (G t) (x t) a) 0).
    - apply (derivable_pt_lim_plus (fun t => mv n (A t) (x t) a) (fun t => l t * mv n (G t) (x t) a)).
      + apply mv_deriv; [intros b Hb; apply D; assumption|exact Dx].
      + apply (derivable_pt_lim_mult l (fun t => mv n (G t) (x t) a)); [exact Dl|]. apply mv_deriv; [intros b Hb; apply D; assumption|exact Dx].
    - intros eps He. exists (mkposreal 1 Rlt_0_1). intros h Hh _. rewrite !E by exact Ha. replace ((0 - 0) / h - 0) with 0 by (field; exact Hh). rewrite Rabs_R0. exact He. }
  assert (Z1 : dotp n (x 0) (mv n dA (x 0)) + dotp n (x 0) (mv n (A 0) dx) + dl * dotp n (x 0) (mv n (G 0) (x 0)) + l 0 * dotp n (x 0) (mv n dG (x 0)) + l 0 * dotp n (x 0) (mv n (G 0) dx) = 0).
  { unfold dotp. rewrite <- !rs_scale, <- !rs_plus. apply rs_zero. intros a Ha. specialize (Z a Ha). etransitivity; [|exact (mul0 (x 0 a) _ Z)]; ring. }
  assert (SA : dotp n (x 0) (mv n (A 0) dx) = dotp n dx (mv n (A 0) (x 0))) by (rewrite dot_mv; apply dot_ext; [reflexivity|intros k Hk; apply mv_mat; intros j Hj; unfold tr; apply S; assumption]).
  assert (SG : dotp n (x 0) (mv n (G 0) dx) = dotp n dx (mv n (G 0) (x 0))) by (rewrite dot_mv; apply dot_ext; [reflexivity|intros k Hk; apply mv_mat; intros j Hj; unfold tr; apply S; assumption]).
  assert (Z2 : dotp n dx (mv n (A 0) (x 0)) + l 0 * dotp n dx (mv n (G 0) (x 0)) = 0) by (unfold dotp; rewrite <- rs_scale, <- rs_plus; apply rs_zero; intros a Ha; specialize (E 0 a Ha); etransitivity; [|exact (mul0 (dx a) _ E)]; ring).
  assert (Z3 : dotp n (x 0) (mv n (A 0) (x 0)) + l 0 * dotp n (x 0) (mv n (G 0) (x 0)) = 0) by (unfold dotp; rewrite <- rs_scale, <- rs_plus; apply rs_zero; intros a Ha; specialize (E 0 a Ha); etransitivity; [|exact (mul0 (x 0 a) _ E)]; ring).
  rewrite SA, SG in Z1. rewrite N in Z3.
  assert (Y : dotp n (x 0) (mv n dA (x 0)) + dl * dotp n (x 0) (mv n (G 0) (x 0)) + l 0 * dotp n (x 0) (mv n dG (x 0)) = 0) by lra.
  set (q := dotp n (x 0) (mv n (G 0) (x 0))) in *. assert (Q : l 0 * q = -1) by lra. assert (Y' : l 0 * (dotp n (x 0) (mv n dA (x 0)) + dl * q + l 0 * dotp n (x 0) (mv n dG (x 0))) = 0) by (rewrite Y; ring).
  assert (Y'' : dl * (l 0 * q) = - (l 0 * dotp n (x 0) (mv n dA (x 0)) + l 0 * l 0 * dotp n (x 0) (mv n dG (x 0)))) by lra. rewrite Q in Y''. lra.
Qed.
Print Assumptions C88_sensitivity.

(** The matrix assembled from stored slots (row, column, value), duplicates added; values on the right of a cotangent. *)
Definition slots := list (nat * nat * R).
Definition assembled (s : slots) : mat := fun r c => fold_right (fun e a => (if andb (Nat.eqb (fst (fst e)) r) (Nat.eqb (snd (fst e)) c) then snd e else 0) + a) 0 s.
Definition xval (x : xr) : R := match x with Fin r => r | _ => 0 end.
Definition paired (cot : nat -> nat -> xr) (s : slots) : R := fold_right (fun e a => xval (cot (fst (fst e)) (snd (fst e))) * snd e + a) 0 s.
Definition rsumm {A} (f : A -> R) (l : list A) : R := fold_right (fun e a => f e + a) 0 l.
Definition pick (free : list nat) (phi : vec) (r : nat) : R := match position r free with Some a => phi a | None => 0 end.

Lemma xsum_fin {A} (f : A -> xr) (g : A -> R) l : (forall e, In e l -> f e = Fin (g e)) -> xsum (map f l) = Fin (rsumm g l).
Proof. induction l as [|e l IH]; intros H; [reflexivity|]. cbn [map xsum fold_right rsumm]. fold (xsum (map f l)). rewrite IH by (intros; apply H; right; assumption). rewrite (H e) by (left; reflexivity). reflexivity. Qed.
Lemma rsumm_plus {A} (f g : A -> R) l : rsumm (fun e => f e + g e) l = rsumm f l + rsumm g l.
Proof. induction l as [|e l IH]; cbn [rsumm fold_right]; [ring|]. fold (rsumm (fun e => f e + g e) l) (rsumm f l) (rsumm g l). rewrite IH. ring. Qed.
Lemma rsumm_scale {A} (f : A -> R) c l : rsumm (fun e => c * f e) l = c * rsumm f l.
Proof. induction l as [|e l IH]; cbn [rsumm fold_right]; [ring|]. fold (rsumm (fun e => c * f e) l) (rsumm f l). rewrite IH. ring. Qed.
Lemma rsumm_ext {A} (f g : A -> R) l : (forall e, In e l -> f e = g e) -> rsumm f l = rsumm g l.
Proof. induction l as [|e l IH]; intros H; [reflexivity|]. cbn [rsumm fold_right]. fold (rsumm f l) (rsumm g l). rewrite IH by (intros; apply H; right; assumption). rewrite (H e) by (left; reflexivity). reflexivity. Qed.
Lemma rsumm_swap {A B} (f : A -> B -> R) l m : rsumm (fun a => rsumm (fun b => f a b) m) l = rsumm (fun b => rsumm (fun a => f a b) l) m.
Proof.
  induction l as [|a l IH]; cbn [rsumm fold_right].
  - induction m as [|b m IHm]; cbn [rsumm fold_right]; [reflexivity|]. fold (rsumm (fun _ : B => 0) m). fold (rsumm (fun b => rsumm (fun a => f a b) []) m). rewrite <- IHm. ring.
  - fold (rsumm (fun a => rsumm (fun b => f a b) m) l). rewrite IH. rewrite <- rsumm_plus. apply rsumm_ext. reflexivity.
Qed.
(** Quadratic form of an assembled matrix on the free block: a sum over the slots. *)
Lemma quad_slots free phi s : NoDup free -> let n := length free in dotp n phi (mv n (restrict free (assembled s)) phi) = rsumm (fun e => pick free phi (fst (fst e)) * pick free phi (snd (fst e)) * snd e) s.
Proof.
  intros N n. induction s as [|[[r c] v] s IH].
  - cbn [rsumm fold_right]. unfold dotp. apply rs_zero. intros i _. unfold mv. rewrite rs_zero; [ring|]. intros; unfold restrict, assembled; cbn; ring.
  - cbn [rsumm fold_right]. fold (rsumm (fun e : nat * nat * R => pick free phi (fst (fst e)) * pick free phi (snd (fst e)) * snd e) s). rewrite <- IH. cbn [fst snd].
    transitivity (rs n (fun a => phi a * rs n (fun b => (if andb (Nat.eqb r (nth a free 0%nat)) (Nat.eqb c (nth b free 0%nat)) then v else 0) * phi b)) + dotp n phi (mv n (restrict free (assembled s)) phi)).
    { unfold dotp. rewrite <- rs_plus. apply rs_ext. intros a _. rewrite <- Rmult_plus_distr_l. f_equal. unfold mv. rewrite <- rs_plus. apply rs_ext. intros b _. unfold restrict, assembled. cbn [fold_right fst snd]. ring. }
    f_equal. unfold pick. destruct (position r free) as [a|] eqn:Er.
    + apply position_some in Er. destruct Er as [Ha <-]. rewrite (rs_single n _ a Ha).
      2: { intros k Hk Hne. assert (X : Nat.eqb (nth a free 0%nat) (nth k free 0%nat) = false) by (apply Nat.eqb_neq; intros X; apply Hne; symmetry; apply (proj1 (NoDup_nth free 0%nat) N); assumption). rewrite X. cbn [andb]. rewrite rs_zero; [ring|intros; ring]. }
      rewrite Nat.eqb_refl. cbn [andb]. rewrite Rmult_assoc. f_equal. destruct (position c free) as [b|] eqn:Ec.
      * apply position_some in Ec. destruct Ec as [Hb <-]. rewrite (rs_single n _ b Hb); [rewrite Nat.eqb_refl; ring|].
        intros k Hk Hne. assert (X : Nat.eqb (nth b free 0%nat) (nth k free 0%nat) = false) by (apply Nat.eqb_neq; intros X; apply Hne; symmetry; apply (proj1 (NoDup_nth free 0%nat) N); assumption). rewrite X. ring.
      * rewrite rs_zero; [ring|]. intros k Hk. destruct (Nat.eqb c (nth k free 0%nat)) eqn:X; [|ring]. apply Nat.eqb_eq in X. rewrite X, position_nth in Ec by assumption. discriminate.
    + rewrite rs_zero; [ring|]. intros k Hk. destruct (Nat.eqb r (nth k free 0%nat)) eqn:X; [apply Nat.eqb_eq in X; rewrite X, position_nth in Er by assumption; discriminate|]. cbn [andb]. rewrite rs_zero; [ring|intros; ring].
Qed.

(** A mode with a finite factor; the vector-Jacobian product of the host backends (or the guarded one). *)
Definition fin_out (modes : list (R * vec)) : list (xr * vec) := map (fun p => (Fin (fst p), snd p)) modes.
Lemma combine_fin {B} bar (modes : list (R * vec)) (h : R -> xr -> B) : map (fun bl => h (fst bl) (snd bl)) (combine bar (map fst (fin_out modes))) = map (fun bm : R * (R * vec) => h (fst bm) (Fin (fst (snd bm)))) (combine bar modes).
Proof. revert modes. induction bar as [|b bar IH]; intros [|p modes]; try reflexivity. cbn [fin_out map combine fst snd]. f_equal. apply IH. Qed.
Lemma combine_same {B} (bar : list R) (modes : list (R * vec)) (h : R * (R * vec) -> B) : length bar = length modes ->
  combine (map snd (fin_out modes)) (map h (combine bar modes)) = map (fun bm => (snd (snd bm), h bm)) (combine bar modes).
Proof. revert modes. induction bar as [|b bar IH]; intros [|p modes] H; try reflexivity; try discriminate. cbn [fin_out map combine fst snd]. f_equal. apply IH. inversion H; reflexivity. Qed.
Lemma bwd_fin guarded free bar modes : length bar = length modes ->
  (forall r c, fst (bwd guarded free bar (fin_out modes)) r c = Fin (rsumm (fun bm => fst bm * fst (snd bm) * pick free (snd (snd bm)) r * pick free (snd (snd bm)) c) (combine bar modes))) /\
  (forall r c, snd (bwd guarded free bar (fin_out modes)) r c = Fin (rsumm (fun bm => fst bm * fst (snd bm) * fst (snd bm) * pick free (snd (snd bm)) r * pick free (snd (snd bm)) c) (combine bar modes))).
Proof.
  intros H. unfold bwd, weights. cbn [fst snd].
  assert (Z : forall {A} (g : A -> R) l, (forall e, In e l -> g e = 0) -> rsumm g l = 0).
  { intros A g l Hg. induction l as [|e l IH]; [reflexivity|]. cbn [rsumm fold_right]. fold (rsumm g l). rewrite IH by (intros; apply Hg; right; assumption). rewrite Hg by (left; reflexivity). ring. }
  split; intros r c; unfold outer_cot.
  - set (h := fun (b : R) (l : xr) => if guarded then match l with Fin _ => xmul (Fin b) l | _ => Fin 0 end else xmul (Fin b) l).
    change (map _ (combine bar _)) with (map (fun bl => h (fst bl) (snd bl)) (combine bar (map fst (fin_out modes)))).
    rewrite combine_fin, combine_same by exact H. unfold pick.
    destruct (position r free) as [a|]; [destruct (position c free) as [b|]|].
    + rewrite map_map. apply xsum_fin. intros bm _. cbn [fst snd]. unfold h. destruct guarded; reflexivity.
    + rewrite Z; [reflexivity|intros; ring].
    + rewrite Z; [reflexivity|intros; ring].
  - set (h := fun (b : R) (l : xr) => if guarded then match l with Fin _ => xmul (xmul (Fin b) l) l | _ => Fin 0 end else xmul (xmul (Fin b) l) l).
    change (map _ (combine bar _)) with (map (fun bl => h (fst bl) (snd bl)) (combine bar (map fst (fin_out modes)))).
    rewrite combine_fin, combine_same by exact H. unfold pick.
    destruct (position r free) as [a|]; [destruct (position c free) as [b|]|].
    + rewrite map_map. apply xsum_fin. intros bm _. cbn [fst snd]. unfold h. destruct guarded; reflexivity.
    + rewrite Z; [reflexivity|intros; ring].
    + rewrite Z; [reflexivity|intros; ring].
Qed.
(** When all requested modes were found, the vector-Jacobian product is the exact derivative: along any smooth change of the stored
    values, the cotangents paired with the rates equal the cotangent-weighted rates of the factors. *)
Theorem C88_gradient guarded free (bar : list R) (modes : list (R * vec)) (rates : list R) (sK sG : slots) (A G : R -> mat) :
  NoDup free -> length bar = length modes ->
  (forall i, (i < length modes)%nat -> exists l x dx, eigen_path (length free) A G (restrict free (assembled sK)) (restrict free (assembled sG)) l (nth i rates 0) x dx /\
     l 0 = fst (nth i modes (0, fun _ => 0)) /\ forall a, (a < length free)%nat -> x 0 a = snd (nth i modes (0, fun _ => 0)) a) ->
  let cot := bwd guarded free bar (fin_out modes) in
  (forall r c, fst cot r c <> NaN /\ snd cot r c <> NaN) /\
  paired (fst cot) sK + paired (snd cot) sG = rs (length modes) (fun i => nth i bar 0 * nth i rates 0).
Proof.
  intros N H P cot. destruct (bwd_fin guarded free bar modes H) as [B1 B2]. fold cot in B1, B2. split; [intros r c; rewrite B1, B2; split; discriminate|].
  assert (E1 : paired (fst cot) sK = rsumm (fun bm => fst bm * fst (snd bm) * dotp (length free) (snd (snd bm)) (mv (length free) (restrict free (assembled sK)) (snd (snd bm)))) (combine bar modes)).
  { unfold paired. transitivity (rsumm (fun e => rsumm (fun bm : R * (R * vec) => fst bm * fst (snd bm) * (pick free (snd (snd bm)) (fst (fst e)) * pick free (snd (snd bm)) (snd (fst e)) * snd e)) (combine bar modes)) sK).
    - apply (rsumm_ext (fun e : nat * nat * R => xval (fst cot (fst (fst e)) (snd (fst e))) * snd e)). intros e _. rewrite B1. cbn [xval]. rewrite Rmult_comm, <- rsumm_scale. apply rsumm_ext. intros; ring.
    - rewrite rsumm_swap. apply rsumm_ext. intros bm _. rewrite rsumm_scale, quad_slots by exact N. reflexivity. }
  assert (E2 : paired (snd cot) sG = rsumm (fun bm => fst bm * fst (snd bm) * fst (snd bm) * dotp (length free) (snd (snd bm)) (mv (length free) (restrict free (assembled sG)) (snd (snd bm)))) (combine bar modes)).
  { unfold paired. transitivity (rsumm (fun e => rsumm (fun bm : R * (R * vec) => fst bm * fst (snd bm) * fst (snd bm) * (pick free (snd (snd bm)) (fst (fst e)) * pick free (snd (snd bm)) (snd (fst e)) * snd e)) (combine bar modes)) sG).
    - apply (rsumm_ext (fun e : nat * nat * R => xval (snd cot (fst (fst e)) (snd (fst e))) * snd e)). intros e _. rewrite B2. cbn [xval]. rewrite Rmult_comm, <- rsumm_scale. apply rsumm_ext. intros; ring.
    - rewrite rsumm_swap. apply rsumm_ext. intros bm _. rewrite rsumm_scale, quad_slots by exact N. reflexivity. }
  rewrite E1, E2, <- rsumm_plus.
  set (n := length free) in *. set (f := fun bm : R * (R * vec) => fst bm * fst (snd bm) * dotp n (snd (snd bm)) (mv n (restrict free (assembled sK)) (snd (snd bm))) + fst bm * fst (snd bm) * fst (snd bm) * dotp n (snd (snd bm)) (mv n (restrict free (assembled sG)) (snd (snd bm)))).
  change (rsumm f (combine bar modes) = rs (length modes) (fun i => nth i bar 0 * nth i rates 0)).
  assert (L : forall (l : list (R * (R * vec))) d, rsumm f l = rs (length l) (fun i => f (nth i l d))).
  { clear. intros l d. induction l as [|x l IH] using rev_ind; [reflexivity|]. unfold rsumm in *. rewrite fold_right_app. cbn [fold_right]. rewrite app_length, Nat.add_1_r. cbn [rs].
    assert (E : forall l a, fold_right (fun e a => f e + a) a l = fold_right (fun e a => f e + a) 0 l + a) by (clear; induction l as [|y l IH]; intros a; cbn [fold_right]; [ring|rewrite IH; ring]).
    rewrite E, IH. f_equal; [apply rs_ext; intros k Hk; rewrite app_nth1 by exact Hk; reflexivity|rewrite app_nth2, Nat.sub_diag by lia; cbn [nth]; ring]. }
  rewrite (L _ (0, (0, fun _ => 0))). rewrite combine_length, H, Nat.min_id. apply rs_ext. intros i Hi. rewrite combine_nth by exact H. unfold f. cbn [fst snd].
  destruct (P i Hi) as (l & x & dx & Pe & El & Ex). pose proof (C88_sensitivity _ _ _ _ _ _ _ _ _ Pe) as D. rewrite D, El.
  assert (Q : forall M, dotp n (x 0) (mv n M (x 0)) = dotp n (snd (nth i modes (0, fun _ => 0))) (mv n M (snd (nth i modes (0, fun _ => 0))))) by (intros M; apply dot_ext; [exact Ex|intros k Hk; apply mv_ext; exact Ex]).
  rewrite !Q. unfold vec. ring.
Qed.
Print Assumptions C88_gradient.
(** ** Padded modes *)
Lemma combine_out {B} (bar : list R) (out : list (xr * vec)) (h : R * xr -> B) : length bar = length out ->
  combine (map snd out) (map h (combine bar (map fst out))) = map (fun bo => (snd (snd bo), h (fst bo, fst (snd bo)))) (combine bar out).
Proof. revert out. induction bar as [|b bar IH]; intros [|p out] H; try reflexivity; try discriminate. cbn [map combine fst snd]. f_equal. apply IH. inversion H; reflexivity. Qed.
Lemma xsum_nan l : In NaN l -> xsum l = NaN.
Proof. induction l as [|x l IH]; [intros []|]. intros [->|H]; cbn [xsum fold_right]; [reflexivity|]. fold (xsum l). rewrite IH by exact H. destruct x; reflexivity. Qed.
Lemma xsum_app l m : xsum (l ++ m) = xadd (xsum l) (xsum m).
Proof.
  induction l as [|x l IH]; cbn [app xsum fold_right].
  - fold (xsum m). destruct (xsum m); [cbn; f_equal; ring|reflexivity|reflexivity].
  - fold (xsum l) (xsum m) (xsum (l ++ m)). rewrite IH. destruct x, (xsum l), (xsum m); try reflexivity. cbn. f_equal. ring.
Qed.
Definition padded (modes : list (R * vec)) (p : nat) : list (xr * vec) := fin_out modes ++ repeat (Inf, fun _ => 0) p.
(** With fewer modes than requested the unguarded product is not-a-number on every free slot, whatever the cotangents, even when the
    loss ignores the padded factors; the guarded one is exactly that of the modes found. *)
Theorem C88_padding free (bar : list R) (modes : list (R * vec)) p : length bar = (length modes + p)%nat ->
  ((0 < p)%nat -> forall r c, In r free -> In c free -> fst (bwd false free bar (padded modes p)) r c = NaN /\ snd (bwd false free bar (padded modes p)) r c = NaN) /\
  (forall r c, fst (bwd true free bar (padded modes p)) r c = fst (bwd true free (firstn (length modes) bar) (fin_out modes)) r c /\
     snd (bwd true free bar (padded modes p)) r c = snd (bwd true free (firstn (length modes) bar) (fin_out modes)) r c).
Proof.
  intros H. assert (Hl : length bar = length (padded modes p)) by (unfold padded, fin_out; rewrite app_length, map_length, repeat_length; exact H). split.
  - intros Hp r c Hr Hc. destruct (position_in _ _ Hr) as [a Ea]. destruct (position_in _ _ Hc) as [b Eb]. unfold bwd, weights. cbn [fst snd]. unfold outer_cot. rewrite Ea, Eb.
    assert (I : In (nth (length modes) bar 0, (Inf, fun _ : nat => 0)) (combine bar (padded modes p))).
    { replace (nth (length modes) bar 0, (Inf, fun _ : nat => 0)) with (nth (length modes) (combine bar (padded modes p)) (0, (Inf, fun _ : nat => 0))).
      - apply nth_In. rewrite combine_length, <- Hl. lia.
      - rewrite combine_nth by exact Hl. f_equal. unfold padded. rewrite app_nth2 by (unfold fin_out; rewrite map_length; lia). apply nth_repeat. }
    split; rewrite combine_out, map_map by exact Hl; apply xsum_nan; apply in_map_iff; eexists; (split; [|exact I]); cbn [fst snd xmul].
    + destruct (Rlt_dec 0 _); cbn [xmul]; [destruct (Rlt_dec 0 0); [lra|]|]; reflexivity.
    + destruct (Rlt_dec 0 _); cbn [xmul]; [destruct (Rlt_dec 0 0); [lra|]|]; reflexivity.
  - assert (C : combine bar (padded modes p) = combine (firstn (length modes) bar) (fin_out modes) ++ combine (skipn (length modes) bar) (repeat (Inf, fun _ => 0) p)).
    { unfold padded. clear Hl. revert bar H. induction modes as [|q modes IH]; intros [|b0 bar] H; try reflexivity. cbn [length firstn skipn fin_out map app combine]. f_equal. apply IH. cbn [length] in H. lia. }
    assert (Z : forall (g : R * (xr * vec) -> xr) l q, (forall e, g (e, (Inf, fun _ => 0)) = Fin 0) -> xsum (map g (combine l (repeat (Inf, fun _ => 0) q))) = Fin 0).
    { intros g l q Hg. revert q. induction l as [|e l IH]; intros [|q]; try reflexivity. cbn [repeat combine map xsum fold_right]. fold (xsum (map g (combine l (repeat (Inf, fun _ => 0) q)))). rewrite IH, Hg. cbn. f_equal. ring. }
    assert (Hf : length (firstn (length modes) bar) = length (fin_out modes)) by (unfold fin_out; rewrite firstn_length, map_length; lia).
    assert (X : forall x, xadd x (Fin 0) = x) by (intros [x| |]; cbn; [f_equal; ring|reflexivity|reflexivity]).
    intros r c. unfold bwd, weights. cbn [fst snd]. unfold outer_cot. destruct (position r free) as [a|], (position c free) as [b|]; try (split; reflexivity).
    split; rewrite !combine_out, !map_map, C by assumption; rewrite map_app, xsum_app, Z; try apply X; intros e; cbn [fst snd xmul]; f_equal; ring.
Qed.
Print Assumptions C88_padding.

(** ** The sparse solver *)
(** ARPACK's contract: [k] eigenpairs of [-Kg x = mu K x], and no other eigenvalue is larger in magnitude. *)
Definition pencil (n : nat) (Kf Gf : mat) (mu : R) (x : vec) : Prop := (exists a, (a < n)%nat /\ x a <> 0) /\ forall a, (a < n)%nat -> - mv n Gf x a = mu * mv n Kf x a.
Definition arpack (n : nat) (Kf Gf : mat) (k : nat) (eigs : list pair) : Prop := length eigs = k /\ (forall p, In p eigs -> pencil n Kf Gf (fst p) (snd p)) /\
  forall mu x, pencil n Kf Gf mu x -> In mu (map fst eigs) \/ forall p, In p eigs -> Rabs mu <= Rabs (fst p).
(** What is returned are genuine factors, ascending, with no smaller factor left out; the convergence check passed. *)
Theorem C88_sparse K Kg free m tiny conv_tol resid eigs out k : sparse_buckling free m tiny conv_tol resid eigs = Some out -> arpack_k m (length free) = Some k ->
  arpack (length free) (restrict free K) (restrict free Kg) k eigs -> NoDup free -> 0 <= tiny ->
  (forall p, In p out -> tiny < fst p /\ buckles K Kg free (fst p) (snd p)) /\ ascending (map fst out) /\ (length out <= m)%nat /\
  (forall lam phi, tiny < lam -> buckles K Kg free lam phi -> In lam (map fst out) \/ forall p, In p out -> fst p <= lam) /\
  (forall tol, conv_tol = Some tol -> exists p rest, out = (fst p, scatter free (snd p)) :: rest /\ resid p <= tol).
Proof.
  intros R Hk (A1 & A2 & A3) N T. unfold sparse_buckling in R. rewrite Hk in R. set (n := length free) in *. set (cand := keep (sparse_factor tiny) eigs) in *.
  assert (E : out = map (fun p => (fst p, scatter free (snd p))) (select m cand)).
  { destruct conv_tol; [|inversion R; reflexivity]. destruct (select m cand); [discriminate|]. destruct (Rlt_dec _ _); [discriminate|]. inversion R; reflexivity. }
  destruct (select_spec m cand) as (S1 & S2 & S3 & S4). split; [|split; [|split; [|split]]].
  - rewrite E. intros p Hp. apply in_map_iff in Hp. destruct Hp as (q & <- & Hq). apply S3 in Hq. apply keep_in in Hq. destruct Hq as (e & He & Hf). unfold sparse_factor in Hf.
    destruct (Req_EM_T (fst e) 0) as [|Nz]; [discriminate|]. destruct (Rlt_dec tiny (/ fst e)) as [Hl|]; [|discriminate]. inversion Hf; subst q. cbn [fst snd]. split; [exact Hl|].
    destruct (A2 e He) as ((a & Ha & Hx) & Hp). assert (Ex : forall a, (a < n)%nat -> scatter free (snd e) (nth a free 0%nat) = snd e a) by (intros; apply scatter_nth; assumption).
    apply buckles_local; [exact N|intros j Hj; apply scatter_out; exact Hj|]. fold n. split; [exists a; split; [exact Ha|rewrite Ex by exact Ha; exact Hx]|].
    intros b Hb. rewrite !(mv_ext n _ (fun a => scatter free (snd e) (nth a free 0%nat)) (snd e)) by exact Ex. specialize (Hp b Hb).
    assert (Eq : mv n (restrict free Kg) (snd e) b = - (fst e * mv n (restrict free K) (snd e) b)) by lra. rewrite Eq. field. exact Nz.
  - rewrite E, map_map. exact S1.
  - rewrite E. eapply Nat.le_trans; [apply Nat.eq_le_incl; rewrite map_length; exact S2|lia].
  - intros lam phi Hl Hb. assert (Lp : 0 < lam) by lra. assert (Il : 0 < / lam) by (apply Rinv_0_lt_compat; exact Lp). pose proof Hb as Hb0. apply (buckles_local K Kg free lam phi N (proj1 Hb0)) in Hb. fold n in Hb. destruct Hb as [Nz Hb]. set (x := fun a => phi (nth a free 0%nat)) in *.
    assert (Pn : pencil n (restrict free K) (restrict free Kg) (/ lam) x).
    { split; [exact Nz|]. intros a Ha. specialize (Hb a Ha). assert (Eq : mv n (restrict free K) x a = - (lam * mv n (restrict free Kg) x a)) by lra. rewrite Eq. field. lra. }
    destruct (A3 _ _ Pn) as [I|G].
    + apply in_map_iff in I. destruct I as (e & Ee & He). assert (Hc : In (lam, snd e) cand).
      { apply keep_in. exists e. split; [exact He|]. unfold sparse_factor. rewrite Ee, Rinv_inv. destruct (Req_EM_T (/ lam) 0); [lra|]. destruct (Rlt_dec tiny lam); [reflexivity|contradiction]. }
      destruct (S4 _ Hc) as [H|[_ H]]; [left|right].
      * rewrite E, map_map. apply in_map_iff. exists (lam, snd e). split; [reflexivity|exact H].
      * rewrite E. intros p Hp. apply in_map_iff in Hp. destruct Hp as (q & <- & Hq). apply (H q Hq).
    + right. rewrite E. intros p Hp. apply in_map_iff in Hp. destruct Hp as (q & <- & Hq). apply S3, keep_in in Hq. destruct Hq as (e & He & Hf). unfold sparse_factor in Hf.
      destruct (Req_EM_T (fst e) 0) as [|Nz']; [discriminate|]. destruct (Rlt_dec tiny (/ fst e)) as [Hl'|]; [|discriminate]. inversion Hf; subst q. cbn [fst snd]. specialize (G e He).
      assert (Pe : 0 < fst e) by (destruct (Rlt_or_le 0 (fst e)) as [|Hn]; [assumption|]; assert (Hn' : fst e < 0) by lra; apply Rinv_lt_0_compat in Hn'; lra).
      rewrite !Rabs_pos_eq in G by lra. rewrite <- (Rinv_inv lam). apply Rinv_le_contravar; assumption.
  - intros tol ->. destruct (select m cand) as [|p l]; [discriminate|]. destruct (Rlt_dec tol (resid p)); [discriminate|]. exists p. eexists. split; [rewrite E; reflexivity|lra].
Qed.
Print Assumptions C88_sparse.

(** Too few free degrees of freedom are refused; and a positive factor can be missed when [k] negative ones are smaller in magnitude:
    the solver then reports failure although a buckling factor exists. *)
Theorem C88_refused free m tiny conv_tol resid eigs : (length free < 3)%nat -> sparse_buckling free m tiny conv_tol resid eigs = None.
Proof. intros H. unfold sparse_buckling, arpack_k. apply Nat.ltb_lt in H. rewrite H. reflexivity. Qed.
Print Assumptions C88_refused.
(** What [scipy.sparse.linalg.eigs] accepts for an operator of size [n]: it raises otherwise. *)
Definition eigs_accepts (n k ncv : nat) : Prop := (1 <= k /\ k + 1 < n /\ k + 1 < ncv /\ ncv <= n)%nat.
(** Otherwise the request made of ARPACK covers the modes asked for with four to spare, and is one it accepts, exactly when there
    are at least seven more free degrees of freedom than modes. *)
Theorem C88_request m nf nmv : (3 <= nf)%nat -> exists k, arpack_k m nf = Some k /\
  (eigs_accepts nf k (arpack_ncv nmv k nf) <-> (m + 7 <= nf)%nat) /\ ((m + 7 <= nf)%nat -> k = (m + 4)%nat).
Proof.
  intros H. unfold arpack_k. destruct (Nat.ltb_spec nf 3) as [L|_]; [lia|]. exists (Nat.min (m + 4) (nf - 2)).
  split; [reflexivity|]. unfold eigs_accepts, arpack_ncv. lia.
Qed.
Print Assumptions C88_request.
(** On a small problem the request is one ARPACK rejects although the modes exist: one mode of a problem with six free degrees of freedom. *)
Theorem C88_small_refuted : exists m nf nmv k, (3 <= nf)%nat /\ (m < nf)%nat /\ arpack_k m nf = Some k /\ ~ eigs_accepts nf k (arpack_ncv nmv k nf).
Proof. exists 1%nat, 6%nat, 60%nat, 4%nat. unfold eigs_accepts, arpack_ncv. repeat split; try reflexivity; try lia. Qed.
Print Assumptions C88_small_refuted.
Definition unit_at (k : nat) : vec := fun a => if Nat.eqb a k then 1 else 0.
Definition demo_mu : vec := fun a => match a with 0%nat => -2 | 1%nat => -3 | 2%nat => -4 | 3%nat => -5 | 4%nat => -6 | 5%nat => 1 | _ => / 2 end.
Theorem C88_missed_refuted : exists K Kg free eigs, arpack_k 1 (length free) = Some (length eigs) /\ NoDup free /\
  arpack (length free) (restrict free K) (restrict free Kg) (length eigs) eigs /\ (exists phi, buckles K Kg free 1 phi) /\
  forall tiny tol resid, 0 <= tiny < 1 -> sparse_buckling free 1 tiny (Some tol) resid eigs = None.
Proof.
  exists eye, (fun i j => if Nat.eqb i j then - demo_mu i else 0), (seq 0 7), (map (fun k => (demo_mu k, unit_at k)) (seq 0 5)).
  assert (Nt : forall a, (a < 7)%nat -> nth a (seq 0 7) 0%nat = a) by (intros a Ha; rewrite seq_nth by exact Ha; reflexivity).
  assert (MK : forall x a, (a < 7)%nat -> mv 7 (restrict (seq 0 7) eye) x a = x a).
  { intros x a Ha. unfold mv. rewrite (rs_single 7 _ a Ha); [unfold restrict, eye; rewrite Nat.eqb_refl; ring|]. intros k Hk Hne. unfold restrict, eye. rewrite !Nt by assumption. assert (Hne' : a <> k) by auto. apply Nat.eqb_neq in Hne'. rewrite Hne'. ring. }
  assert (MG : forall x a, (a < 7)%nat -> mv 7 (restrict (seq 0 7) (fun i j => if Nat.eqb i j then - demo_mu i else 0)) x a = - demo_mu a * x a).
  { intros x a Ha. unfold mv. rewrite (rs_single 7 _ a Ha); [unfold restrict; rewrite Nat.eqb_refl, Nt by exact Ha; ring|]. intros k Hk Hne. unfold restrict. rewrite !Nt by assumption. assert (Hne' : a <> k) by auto. apply Nat.eqb_neq in Hne'. rewrite Hne'. ring. }
  split; [reflexivity|]. split; [apply seq_NoDup|]. rewrite !seq_length. split; [|split].
  - split; [reflexivity|]. split.
    + intros p Hp. apply in_map_iff in Hp. destruct Hp as (k & <- & Hk). apply in_seq in Hk. cbn [fst snd]. split.
      * exists k. split; [lia|]. unfold unit_at. rewrite Nat.eqb_refl. lra.
      * intros a Ha. rewrite MK, MG by exact Ha. unfold unit_at. destruct (Nat.eqb a k) eqn:Q; [apply Nat.eqb_eq in Q; subst; ring|ring].
    + intros mu x ((a & Ha & Hx) & H). specialize (H a Ha). rewrite MK, MG in H by exact Ha. assert (Em : mu = demo_mu a). { assert (Z : (mu - demo_mu a) * x a = 0) by lra. apply Rmult_integral in Z. destruct Z; [lra|contradiction]. }
      rewrite map_map. cbn [fst]. destruct (le_lt_dec 5 a) as [G|G].
      * right. intros p Hp. apply in_map_iff in Hp. destruct Hp as (k & <- & Hk). apply in_seq in Hk. cbn [fst]. subst mu.
        assert (B1 : Rabs (demo_mu a) <= 1) by (destruct a as [|[|[|[|[|[|a]]]]]]; try lia; unfold demo_mu; rewrite Rabs_pos_eq; lra).
        assert (B2 : 2 <= Rabs (demo_mu k)) by (destruct k as [|[|[|[|[|k]]]]]; try lia; unfold demo_mu; rewrite Rabs_left; lra). lra.
      * left. apply in_map_iff. exists a. split; [symmetry; exact Em|apply in_seq; lia].
  - exists (unit_at 5). split; [|split].
    + intros j Hj. unfold unit_at. destruct (Nat.eqb j 5) eqn:Q; [|reflexivity]. apply Nat.eqb_eq in Q. subst j. exfalso. apply Hj. apply in_seq. lia.
    + exists 5%nat. split; [apply in_seq; lia|]. unfold unit_at. cbn. lra.
    + intros r Hr. apply in_seq in Hr. rewrite over_nth, seq_length. rewrite (rs_single 7 _ 5%nat) by (try lia; intros k Hk Hne; rewrite Nt by exact Hk; unfold unit_at; apply Nat.eqb_neq in Hne; rewrite Hne; ring).
      rewrite Nt by lia. unfold unit_at, eye. cbn [Nat.eqb]. destruct (Nat.eqb r 5) eqn:Q; [apply Nat.eqb_eq in Q; subst r; unfold demo_mu; ring|ring].
  - intros tiny tol resid Ht. unfold sparse_buckling. rewrite seq_length. cbn [arpack_k Nat.ltb Nat.leb].
    assert (E : keep (sparse_factor tiny) (map (fun k => (demo_mu k, unit_at k)) (seq 0 5)) = []).
    { assert (F : forall k, (k < 5)%nat -> sparse_factor tiny (demo_mu k, unit_at k) = None).
      { intros k Hk. unfold sparse_factor. cbn [fst snd]. assert (B : demo_mu k < 0) by (destruct k as [|[|[|[|[|k]]]]]; try lia; unfold demo_mu; lra).
        destruct (Req_EM_T (demo_mu k) 0); [reflexivity|]. apply Rinv_lt_0_compat in B. destruct (Rlt_dec tiny (/ demo_mu k)); [lra|reflexivity]. }
      cbn [seq map]. unfold keep. cbn [flat_map]. rewrite !F by lia. reflexivity. }
    rewrite E. reflexivity.
Qed.
Print Assumptions C88_missed_refuted.

(** A run of the dense solver: two free degrees of freedom with factors 2 and 4. *)
Definition demo_K : mat := fun i j => if Nat.eqb i j then (if Nat.eqb i 0 then 1 else 4) else 0.
Definition demo_G : mat := fun i j => if Nat.eqb i j then (if Nat.eqb i 0 then - / 2 else -1) else 0.
Example C88_example : exists out, dense_buckling demo_K demo_G [0%nat; 2%nat] 2 0 out /\ NoDup [0%nat; 2%nat] /\ (forall r c, demo_G r c = demo_G c r) /\ map fst out = [2; 4].
Proof.
  set (dg := fun (u v : R) (i j : nat) => if Nat.eqb i j then (if Nat.eqb i 0 then u else v) else 0).
  set (w := fun i : nat => if Nat.eqb i 0 then - / 2 else - / 4).
  assert (F : forall zero_tol V, zero_tol = 0 -> keep (dense_factor zero_tol w V) (seq 0 2) = [(2, fun i => V i 0%nat); (4, fun i => V i 1%nat)]).
  { intros zt V ->. unfold keep, dense_factor, w. cbn [seq flat_map Nat.eqb app].
    destruct (Req_EM_T (- / 2) 0); [lra|]. replace (-1 / - / 2) with 2 by field. destruct (Rlt_dec 0 2); [|lra]. destruct (Req_EM_T (- / 4) 0); [lra|]. replace (-1 / - / 4) with 4 by field. destruct (Rlt_dec 0 4); [|lra]. reflexivity. }
  eexists. split; [|split; [|split]].
  - exists w, (dg 1 (/ 2)). split; [|reflexivity]. exists (dg 1 2), (dg (- / 2) (- / 2)), (dg (- / 2) (- / 4)), (dg 1 1).
    repeat split; try (intros i j Hi Hj; cbn [length] in Hi, Hj; destruct i as [|[|i]], j as [|[|j]]; try lia; unfold mmul, dg, tr, half, restrict, demo_K, demo_G, eye, diag, w; cbn; field).
    + intros i j Hij. unfold dg. assert (X : i <> j) by lia. apply Nat.eqb_neq in X. rewrite X. reflexivity.
    + intros i Hi. unfold dg. rewrite Nat.eqb_refl. destruct (Nat.eqb i 0); lra.
    + intros i j Hij. cbn [length] in Hij. destruct i as [|[|i]], j as [|[|j]]; try lia; unfold w; cbn; lra.
  - repeat constructor; cbn; intuition discriminate.
  - intros r c. unfold demo_G. rewrite (Nat.eqb_sym c r). destruct (Nat.eqb r c) eqn:E; [apply Nat.eqb_eq in E; subst; reflexivity|reflexivity].
  - rewrite map_map. cbn [fst length]. rewrite F by reflexivity. unfold select. cbn [fold_right insert fst]. destruct (Rlt_dec 2 4); [reflexivity|lra].
Qed.
(** A path with an eigenpair: one free degree of freedom whose stiffness grows at unit rate. *)
Example C88_path : eigen_path 1 (fun t _ _ => 1 + t) (fun _ _ _ => - / 2) (restrict [0%nat] (assembled [(0%nat, 0%nat, 1)])) (restrict [0%nat] (assembled [])) (fun t => 2 * (1 + t)) 2 (fun _ _ => 1) (fun _ => 0).
Proof.
  assert (D : derivable_pt_lim (fun t => 1 + t) 0 (0 + 1)) by (apply (derivable_pt_lim_plus (fun _ => 1) (fun t => t)); [apply derivable_pt_lim_const|apply derivable_pt_lim_id]).
  split; [|split; [|split; [|split; [|split]]]].
  - intros t a Ha. unfold mv. cbn [rs]. field.
  - intros a b Ha Hb. destruct a as [|a]; [|lia]. destruct b as [|b]; [|lia]. cbn. split; [replace (1 + 0) with (0 + 1) by ring; exact D|apply derivable_pt_lim_const].
  - replace 2 with (2 * (0 + 1)) at 1 by ring. apply derivable_pt_lim_scal. exact D.
  - intros a Ha. apply derivable_pt_lim_const.
  - intros a b _ _. split; reflexivity.
  - unfold dotp, mv. cbn [rs]. ring.
Qed.

(** ** The matfree solver *)
(** Every result is one of the Ritz pairs, inverted and put on the full numbering; ascending, none smaller left out, the convergence
    check passed. Exact Ritz pairs give genuine factors. *)
Theorem C88_matfree K Kg free m nmv tiny conv_tol resid eigs out : matfree_buckling free m tiny conv_tol resid eigs = Some out ->
  (length eigs <= matfree_size nmv (length free))%nat -> NoDup free -> 0 <= tiny ->
  (forall p, In p out -> tiny < fst p /\ exists mu x, In (mu, x) eigs /\ fst p * mu = 1 /\ snd p = scatter free x /\
     (pencil (length free) (restrict free K) (restrict free Kg) mu x -> buckles K Kg free (fst p) (snd p))) /\
  ascending (map fst out) /\ (length out <= m)%nat /\ (length out <= nmv)%nat /\ (length out <= length free - 1)%nat /\
  (forall mu x, In (mu, x) eigs -> 0 < mu -> tiny < / mu -> In (/ mu) (map fst out) \/ (length out = m /\ forall p, In p out -> fst p <= / mu)) /\
  (forall tol, conv_tol = Some tol -> exists p rest, out = (fst p, scatter free (snd p)) :: rest /\ resid p <= tol).
Proof.
  intros R L N T. unfold matfree_buckling in R. set (n := length free) in *. set (cand := keep (sparse_factor tiny) eigs) in *.
  assert (E : out = map (fun p => (fst p, scatter free (snd p))) (select m cand)).
  { destruct conv_tol; [|inversion R; reflexivity]. destruct (select m cand); [discriminate|]. destruct (Rlt_dec _ _); [discriminate|]. inversion R; reflexivity. }
  destruct (select_spec m cand) as (S1 & S2 & S3 & S4).
  assert (LC : (length cand <= length eigs)%nat).
  { unfold cand, keep. clear. induction eigs as [|e l IH]; [apply le_n|]. cbn [flat_map length]. rewrite app_length. destruct (sparse_factor tiny e); cbn [length]; lia. }
  assert (LO : length out = length (select m cand)) by (rewrite E; apply map_length).
  unfold matfree_size in L. fold n in L.
  split; [|split; [|split; [|split; [|split; [|split]]]]].
  - rewrite E. intros p Hp. apply in_map_iff in Hp. destruct Hp as (q & <- & Hq). apply S3 in Hq. apply keep_in in Hq. destruct Hq as (e & He & Hf). unfold sparse_factor in Hf.
    destruct (Req_EM_T (fst e) 0) as [|Nz]; [discriminate|]. destruct (Rlt_dec tiny (/ fst e)) as [Hl|]; [|discriminate]. inversion Hf; subst q. cbn [fst snd]. split; [exact Hl|].
    exists (fst e), (snd e). split; [destruct e; exact He|]. split; [field; exact Nz|]. split; [reflexivity|].
    intros ((a & Ha & Hx) & Hp). assert (Ex : forall a, (a < n)%nat -> scatter free (snd e) (nth a free 0%nat) = snd e a) by (intros; apply scatter_nth; assumption).
    apply buckles_local; [exact N|intros j Hj; apply scatter_out; exact Hj|]. fold n. split; [exists a; split; [exact Ha|rewrite Ex by exact Ha; exact Hx]|].
    intros b Hb. rewrite !(mv_ext n _ (fun a => scatter free (snd e) (nth a free 0%nat)) (snd e)) by exact Ex. specialize (Hp b Hb). fold n in Hp.
    assert (Eq : mv n (restrict free Kg) (snd e) b = - (fst e * mv n (restrict free K) (snd e) b)) by lra. rewrite Eq. field. exact Nz.
  - rewrite E, map_map. exact S1.
  - rewrite LO. rewrite S2. lia.
  - rewrite LO, S2. lia.
  - rewrite LO, S2. lia.
  - intros mu x He Pm Ht. assert (Hc : In (/ mu, x) cand).
    { apply keep_in. exists (mu, x). split; [exact He|]. unfold sparse_factor. cbn [fst snd]. destruct (Req_EM_T mu 0); [lra|]. destruct (Rlt_dec tiny (/ mu)); [reflexivity|contradiction]. }
    destruct (S4 _ Hc) as [H|[H0 H]]; [left|right].
    + rewrite E, map_map. apply in_map_iff. exists (/ mu, x). split; [reflexivity|exact H].
    + rewrite LO. split; [exact H0|]. rewrite E. intros p Hp. apply in_map_iff in Hp. destruct Hp as (q & <- & Hq). apply (H q Hq).
  - intros tol ->. destruct (select m cand) as [|p l]; [discriminate|]. destruct (Rlt_dec tol (resid p)); [discriminate|]. exists p. eexists. split; [rewrite E; reflexivity|lra].
Qed.
Print Assumptions C88_matfree.
(** So a problem with as many positive factors as free degrees of freedom never gets all of them from this solver, however many
    products are allowed: the dense solver finds both factors of the example below, this one at most one. *)
Theorem C88_matfree_short_refuted : exists K Kg free dense, dense_buckling K Kg free 2 0 dense /\ length dense = 2%nat /\
  forall nmv tiny conv_tol resid eigs out, (length eigs <= matfree_size nmv (length free))%nat ->
  matfree_buckling free 2 tiny conv_tol resid eigs = Some out -> (length out < 2)%nat.
Proof.
  destruct C88_example as (out & D & N & _ & F). exists demo_K, demo_G, [0%nat; 2%nat], out. split; [exact D|]. split; [apply (f_equal (@length R)) in F; rewrite map_length in F; exact F|].
  intros nmv tiny ct resid eigs o L R. unfold matfree_size in L. cbn [length] in L. unfold matfree_buckling in R.
  assert (LO : (length o <= length eigs)%nat).
  { assert (E : o = map (fun p => (fst p, scatter [0%nat; 2%nat] (snd p))) (select 2 (keep (sparse_factor tiny) eigs))).
    { destruct ct; [|inversion R; reflexivity]. destruct (select _ _); [discriminate|]. destruct (Rlt_dec _ _); [discriminate|]. inversion R; reflexivity. }
    rewrite E, map_length. rewrite (proj1 (proj2 (select_spec 2 _))).
    assert (LC : (length (keep (sparse_factor tiny) eigs) <= length eigs)%nat).
    { unfold keep. clear. induction eigs as [|e l IH]; [apply le_n|]. cbn [flat_map length]. rewrite app_length. destruct (sparse_factor tiny e); cbn [length]; lia. }
    lia. }
  lia.
Qed.
Print Assumptions C88_matfree_short_refuted.
