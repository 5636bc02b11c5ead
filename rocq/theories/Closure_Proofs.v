(** Lemmas for C69 and C70. *)
From Coq Require Import Reals List Lia Lra Psatz Arith.
From Verif Require Import Closure_Model Closure_Spec.
Import ListNotations.
Open Scope R_scope.

Lemma sq0 (x : R) : 0 <= x * x. Proof. nra. Qed.
Lemma sq_zero (x : R) : x * x = 0 -> x = 0. Proof. intros H. destruct (Rmult_integral _ _ H); assumption. Qed.

Lemma avg_ext F g h : (forall wp, In wp F -> g (snd wp) = h (snd wp)) -> avg F g = avg F h.
Proof.
  induction F as [|[w p] F IH]; intros H; [reflexivity|]. unfold avg in *. cbn [fold_right fst snd].
  rewrite IH by (intros; apply H; right; assumption). pose proof (H (w, p) (or_introl eq_refl)) as E. cbn [snd] in E. rewrite E. reflexivity.
Qed.
Lemma avg_add F g h : avg F (fun p => g p + h p) = avg F g + avg F h.
Proof. induction F as [|[w p] F IH]; unfold avg in *; cbn [fold_right fst snd]; [ring|]. rewrite IH. ring. Qed.
Lemma avg_sub F g h : avg F (fun p => g p - h p) = avg F g - avg F h.
Proof. induction F as [|[w p] F IH]; unfold avg in *; cbn [fold_right fst snd]; [ring|]. rewrite IH. ring. Qed.
Lemma avg_scale F c g : avg F (fun p => c * g p) = c * avg F g.
Proof. induction F as [|[w p] F IH]; unfold avg in *; cbn [fold_right fst snd]; [ring|]. rewrite IH. ring. Qed.
Lemma avg_scale_r F c g : avg F (fun p => g p * c) = avg F g * c.
Proof. induction F as [|[w p] F IH]; unfold avg in *; cbn [fold_right fst snd]; [ring|]. rewrite IH. ring. Qed.
Lemma avg_const F c : avg F (fun _ => c) = c * avg F (fun _ => 1).
Proof. rewrite <- avg_scale. apply avg_ext. intros. ring. Qed.
Lemma avg_rsum F n (g : nat -> (nat -> R) -> R) : avg F (fun p => rsum n (fun k => g k p)) = rsum n (fun k => avg F (g k)).
Proof. induction n as [|n IH]; cbn [rsum]; [rewrite avg_const; ring|]. rewrite avg_add, IH. reflexivity. Qed.
Lemma avg_nonneg F g : (forall wp, In wp F -> 0 <= fst wp) -> (forall wp, In wp F -> 0 <= g (snd wp)) -> 0 <= avg F g.
Proof.
  induction F as [|[w p] F IH]; intros H1 H2; unfold avg in *; cbn [fold_right fst snd]; [lra|].
  assert (0 <= w * g p) by (apply Rmult_le_pos; [apply (H1 (w, p))|apply (H2 (w, p))]; left; reflexivity).
  assert (0 <= fold_right (fun wp s => fst wp * g (snd wp) + s) 0 F) by (apply IH; intros; [apply H1|apply H2]; right; assumption). lra.
Qed.
Lemma avg_zero F g : (forall wp, In wp F -> 0 <= fst wp) -> (forall wp, In wp F -> 0 <= g (snd wp)) -> avg F g = 0 ->
  forall wp, In wp F -> 0 < fst wp -> g (snd wp) = 0.
Proof.
  induction F as [|[w p] F IH]; intros H1 H2 E wp Hin Hw; [destruct Hin|].
  unfold avg in E. cbn [fold_right fst snd] in E.
  assert (A : 0 <= w * g p) by (apply Rmult_le_pos; [apply (H1 (w, p))|apply (H2 (w, p))]; left; reflexivity).
  assert (B : 0 <= avg F g) by (apply avg_nonneg; intros; [apply H1|apply H2]; right; assumption).
  unfold avg in B. destruct Hin as [<-|Hin].
  - cbn [fst snd] in *. assert (Z : w * g p = 0) by lra. destruct (Rmult_integral _ _ Z); [lra|assumption].
  - apply IH; try assumption; [intros; apply H1; right; assumption|intros; apply H2; right; assumption|unfold avg; lra].
Qed.
Lemma avg_app F G g : avg (F ++ G) g = avg F g + avg G g.
Proof. induction F as [|[w p] F IH]; unfold avg in *; cbn [app fold_right fst snd]; [ring|]. rewrite IH. ring. Qed.
Definition wscale (c : R) (F : odf) : odf := map (fun wp => (c * fst wp, snd wp)) F.
Lemma avg_wscale c F g : avg (wscale c F) g = c * avg F g.
Proof. induction F as [|[w p] F IH]; unfold avg, wscale in *; cbn [map fold_right fst snd]; [ring|]. rewrite IH. ring. Qed.

Lemma rsum_ext n f g : (forall i, (i < n)%nat -> f i = g i) -> rsum n f = rsum n g.
Proof. induction n as [|n IH]; intros H; cbn; [reflexivity|]. rewrite IH by (intros; apply H; lia). rewrite H by lia. reflexivity. Qed.
Lemma rsum_scale n c f : rsum n (fun i => c * f i) = c * rsum n f.
Proof. induction n as [|n IH]; cbn; [ring|]. rewrite IH. ring. Qed.
Lemma rsum_scale_r n c f : rsum n (fun i => f i * c) = rsum n f * c.
Proof. induction n as [|n IH]; cbn; [ring|]. rewrite IH. ring. Qed.
Lemma rsum_add n f g : rsum n (fun i => f i + g i) = rsum n f + rsum n g.
Proof. induction n as [|n IH]; cbn; [ring|]. rewrite IH. ring. Qed.
Lemma rsum_nonneg n f : (forall i, (i < n)%nat -> 0 <= f i) -> 0 <= rsum n f.
Proof. induction n as [|n IH]; intros H; cbn; [lra|]. pose proof (H n ltac:(lia)). pose proof (IH ltac:(intros; apply H; lia)). lra. Qed.
Lemma rsum_swap n m (f : nat -> nat -> R) : rsum n (fun i => rsum m (f i)) = rsum m (fun j => rsum n (fun i => f i j)).
Proof.
  induction n as [|n IH]; cbn [rsum].
  - induction m as [|m IHm]; cbn [rsum]; [reflexivity|]. rewrite <- IHm. ring.
  - rewrite IH. rewrite <- rsum_add. reflexivity.
Qed.
Lemma rsum_zero n f : (forall i, (i < n)%nat -> f i = 0) -> rsum n f = 0.
Proof. induction n as [|n IH]; intros H; cbn; [reflexivity|]. rewrite IH by (intros; apply H; lia). rewrite H by lia. ring. Qed.
Lemma rsum_delta n a f : (a < n)%nat -> rsum n (fun i => delta i a * f i) = f a.
Proof.
  induction n as [|n IH]; intros H; [lia|]. cbn [rsum]. unfold delta at 2. destruct (Nat.eq_dec n a) as [->|N].
  - rewrite Nat.eqb_refl. rewrite rsum_zero; [ring|]. intros i Hi. unfold delta. destruct (Nat.eqb_spec i a); [lia|ring].
  - destruct (Nat.eqb_spec n a); [contradiction|]. rewrite IH by lia. ring.
Qed.

(** Half angles: every point of the unit circle is [(p1^2 - p2^2, 2 p1 p2)] of a unit vector. *)
Lemma half_angle u1 u2 : u1 * u1 + u2 * u2 = 1 -> exists p1 p2, p1 * p1 + p2 * p2 = 1 /\ p1 * p1 - p2 * p2 = u1 /\ 2 * (p1 * p2) = u2.
Proof.
  intros H. assert (L : -1 <= u1) by nra. assert (U : u1 <= 1) by nra.
  assert (A : 0 <= (1 + u1) / 2) by lra. assert (B : 0 <= (1 - u1) / 2) by lra.
  pose proof (sqrt_sqrt _ A) as SA. pose proof (sqrt_sqrt _ B) as SB. pose proof (sqrt_pos ((1 + u1) / 2)) as PA. pose proof (sqrt_pos ((1 - u1) / 2)) as PB.
  set (p := sqrt ((1 + u1) / 2)) in *. set (q := sqrt ((1 - u1) / 2)) in *. clearbody p q.
  assert (E : (2 * (p * q)) * (2 * (p * q)) = u2 * u2).
  { replace (2 * (p * q) * (2 * (p * q))) with (4 * ((p * p) * (q * q))) by ring. rewrite SA, SB. lra. }
  assert (P : 0 <= p * q) by (apply Rmult_le_pos; assumption).
  destruct (Rle_dec 0 u2) as [S|S].
  - exists p, q. repeat split; [lra|lra|].
    assert (Z : (2 * (p * q) - u2) * (2 * (p * q) + u2) = 0) by lra.
    destruct (Rmult_integral _ _ Z) as [Z'|Z']; lra.
  - exists p, (- q). repeat split; [lra|lra|].
    assert (Z : (2 * (p * q) - u2) * (2 * (p * q) + u2) = 0) by lra.
    destruct (Rmult_integral _ _ Z) as [Z'|Z']; lra.
Qed.

(** Trigonometric moments of a two-dimensional distribution. *)
Definition C2 (p : nat -> R) : R := p 0%nat * p 0%nat - p 1%nat * p 1%nat.
Definition S2 (p : nat -> R) : R := 2 * (p 0%nat * p 1%nat).
Definition C4 (p : nat -> R) : R := C2 p * C2 p - S2 p * S2 p.
Definition S4 (p : nat -> R) : R := 2 * (C2 p * S2 p).
Definition unit2 (p : nat -> R) : Prop := rsum 2 (fun i => p i * p i) = 1.
Lemma unit2_trig p : unit2 p -> C2 p * C2 p + S2 p * S2 p = 1.
Proof. unfold unit2, C2, S2. cbn [rsum]. intros H. assert (E : p 0%nat * p 0%nat = 1 - p 1%nat * p 1%nat) by lra. 
  replace ((p 0%nat * p 0%nat - p 1%nat * p 1%nat) * (p 0%nat * p 0%nat - p 1%nat * p 1%nat) + 2 * (p 0%nat * p 1%nat) * (2 * (p 0%nat * p 1%nat)))
    with ((p 0%nat * p 0%nat + p 1%nat * p 1%nat) * (p 0%nat * p 0%nat + p 1%nat * p 1%nat)) by ring. rewrite E. ring. Qed.

Definition vec2 (x y : R) : nat -> R := fun i => match i with O => x | _ => y end.

(** For a point [nu] of the closed disk and a unit vector [e]: two points of the unit circle, on the line
    through [nu] in direction [e], with mean [nu] and second (complex) moment [nu^2 + (1 - |nu|^2) e^2]. *)
Lemma chord n1 n2 e1 e2 : n1 * n1 + n2 * n2 <= 1 -> e1 * e1 + e2 * e2 = 1 ->
  exists l u1 u2 v1 v2, 0 <= l <= 1 /\ u1 * u1 + u2 * u2 = 1 /\ v1 * v1 + v2 * v2 = 1 /\
    l * u1 + (1 - l) * v1 = n1 /\ l * u2 + (1 - l) * v2 = n2 /\
    l * (u1 * u1 - u2 * u2) + (1 - l) * (v1 * v1 - v2 * v2) = n1 * n1 - n2 * n2 + (1 - (n1 * n1 + n2 * n2)) * (e1 * e1 - e2 * e2) /\
    l * (2 * (u1 * u2)) + (1 - l) * (2 * (v1 * v2)) = 2 * (n1 * n2) + (1 - (n1 * n1 + n2 * n2)) * (2 * (e1 * e2)).
Proof.
  intros Hn He. destruct (Req_dec (n1 * n1 + n2 * n2) 1) as [E1|N1].
  { exists 1, n1, n2, n1, n2. rewrite E1. repeat split; try lra; try assumption; ring. }
  set (b := n1 * e1 + n2 * e2). set (g := 1 - (n1 * n1 + n2 * n2)). assert (G : 0 < g) by (unfold g; lra).
  assert (D : 0 < b * b + g) by (pose proof (sq0 b); lra).
  pose proof (sqrt_lt_R0 _ D) as RP. pose proof (sqrt_sqrt _ (Rlt_le _ _ D)) as RR.
  set (r := sqrt (b * b + g)) in *. clearbody r.
  assert (T1 : 0 < r - b) by nra. assert (T2 : 0 < r + b) by nra.
  exists ((r + b) / (2 * r)), (n1 + (r - b) * e1), (n2 + (r - b) * e2), (n1 - (r + b) * e1), (n2 - (r + b) * e2).
  assert (Hb : b = n1 * e1 + n2 * e2) by reflexivity. assert (Hg : g = 1 - (n1 * n1 + n2 * n2)) by reflexivity. clearbody b g.
  assert (Hu : (n1 + (r - b) * e1) * (n1 + (r - b) * e1) + (n2 + (r - b) * e2) * (n2 + (r - b) * e2) = 1).
  { replace ((n1 + (r - b) * e1) * (n1 + (r - b) * e1) + (n2 + (r - b) * e2) * (n2 + (r - b) * e2))
      with ((n1 * n1 + n2 * n2) + 2 * (r - b) * (n1 * e1 + n2 * e2) + (r - b) * (r - b) * (e1 * e1 + e2 * e2)) by ring.
    rewrite He, <- Hb. replace ((r - b) * (r - b) * 1) with (r * r - 2 * r * b + b * b) by ring. rewrite RR, Hg. ring. }
  assert (Hv : (n1 - (r + b) * e1) * (n1 - (r + b) * e1) + (n2 - (r + b) * e2) * (n2 - (r + b) * e2) = 1).
  { replace ((n1 - (r + b) * e1) * (n1 - (r + b) * e1) + (n2 - (r + b) * e2) * (n2 - (r + b) * e2))
      with ((n1 * n1 + n2 * n2) - 2 * (r + b) * (n1 * e1 + n2 * e2) + (r + b) * (r + b) * (e1 * e1 + e2 * e2)) by ring.
    rewrite He, <- Hb. replace ((r + b) * (r + b) * 1) with (r * r + 2 * r * b + b * b) by ring. rewrite RR, Hg. ring. }
  assert (L1 : (r + b) / (2 * r) * (2 * r) = r + b) by (field; lra).
  assert (W : 1 - (r + b) / (2 * r) = (r - b) / (2 * r)) by (field; lra).
  split; [|split; [exact Hu|split; [exact Hv|]]].
  - split.
    + apply Rmult_le_reg_r with (2 * r); [lra|]. rewrite L1. lra.
    + apply Rmult_le_reg_r with (2 * r); [lra|]. rewrite L1. lra.
  - rewrite W. assert (GG : g = (r - b) * (r + b)) by lra.
    rewrite GG. repeat split; field; lra.
Qed.
