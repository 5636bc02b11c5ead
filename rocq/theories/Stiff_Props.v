(** C70: the orientation-averaged stiffness. *)
From Coq Require Import Reals List Lia Lra Psatz Arith.
From Verif Require Import Closure_Model Closure_Spec Closure_Proofs Closure_Props.
Import ListNotations.
Open Scope R_scope.

(** Both builders as one family: [d = 2] takes no transverse Poisson ratio. *)
Definition stiffness (d : nat) (a2 : T2) (a4 : T4) (E1 E2 G12 nu12 nu23 : R) : T4 :=
  if Nat.eqb d 2 then orientation_averaged_stiffness a2 a4 E1 E2 G12 nu12
  else orientation_averaged_stiffness_3d a2 a4 E1 E2 G12 nu12 nu23.
Definition e1e1 : T2 := fun i j => delta i 0%nat * delta j 0%nat.
Definition e1_4 : T4 := fun i j k l => delta i 0%nat * delta j 0%nat * delta k 0%nat * delta l 0%nat.
(** [sigma = C : e]. *)
Definition stress (d : nat) (C : T4) (e : T2) : T2 := fun i j => rsum d (fun k => rsum d (fun l => C i j k l * e k l)).
(** A second- and a fourth-order tensor in axes rotated by [Q]. *)
Definition rot2 (d : nat) (Q : T2) (a : T2) : T2 := fun i j => rsum d (fun p => rsum d (fun q => Q i p * Q j q * a p q)).

(** Perfect alignment with axis 1 gives the lamina: the stress of every symmetric strain inverts the
    engineering compliance (plane stress in two dimensions, transverse isotropy in three). *)
Theorem C70_aligned_2d E1 E2 G12 nu12 : E1 <> 0 -> E2 <> 0 -> G12 <> 0 -> E1 - nu12 * nu12 * E2 <> 0 ->
  forall e, symm2 2 e ->
  let s := stress 2 (orientation_averaged_stiffness e1e1 e1_4 E1 E2 G12 nu12) e in
  e 0%nat 0%nat = s 0%nat 0%nat / E1 - nu12 / E1 * s 1%nat 1%nat /\
  e 1%nat 1%nat = - (nu12 / E1) * s 0%nat 0%nat + s 1%nat 1%nat / E2 /\
  2 * e 0%nat 1%nat = s 0%nat 1%nat / G12 /\ s 1%nat 0%nat = s 0%nat 1%nat.
Proof.
  intros H1 H2 H3 H4 e S. pose proof (S 1%nat 0%nat ltac:(lia) ltac:(lia)) as S10. cbv zeta.
  unfold stress, orientation_averaged_stiffness, stiffness_coeffs_2d, e1e1, e1_4, t4add, t4scale, es_ij_kl, es_kl_ij, es_ik_jl, es_il_jk, es_jk_il, es_jl_ik, delta.
  cbn [rsum Nat.eqb]. rewrite S10. repeat split; field; repeat split; try assumption; intros X; apply H4; lra.
Qed.
Print Assumptions C70_aligned_2d.

Theorem C70_aligned_3d E1 E2 G12 nu12 nu23 : E1 <> 0 -> E2 <> 0 -> G12 <> 0 -> 1 + nu23 <> 0 ->
  E1 * (1 - nu23) - 2 * nu12 * nu12 * E2 <> 0 ->
  forall e, symm2 3 e ->
  let s := stress 3 (orientation_averaged_stiffness_3d e1e1 e1_4 E1 E2 G12 nu12 nu23) e in
  e 0%nat 0%nat = s 0%nat 0%nat / E1 - nu12 / E1 * s 1%nat 1%nat - nu12 / E1 * s 2%nat 2%nat /\
  e 1%nat 1%nat = - (nu12 / E1) * s 0%nat 0%nat + s 1%nat 1%nat / E2 - nu23 / E2 * s 2%nat 2%nat /\
  e 2%nat 2%nat = - (nu12 / E1) * s 0%nat 0%nat - nu23 / E2 * s 1%nat 1%nat + s 2%nat 2%nat / E2 /\
  2 * e 0%nat 1%nat = s 0%nat 1%nat / G12 /\ 2 * e 0%nat 2%nat = s 0%nat 2%nat / G12 /\
  2 * e 1%nat 2%nat = 2 * (1 + nu23) / E2 * s 1%nat 2%nat /\
  s 1%nat 0%nat = s 0%nat 1%nat /\ s 2%nat 0%nat = s 0%nat 2%nat /\ s 2%nat 1%nat = s 1%nat 2%nat.
Proof.
  intros H1 H2 H3 H4 H5 e S. pose proof (S 1%nat 0%nat ltac:(lia) ltac:(lia)) as S10.
  pose proof (S 2%nat 0%nat ltac:(lia) ltac:(lia)) as S20. pose proof (S 2%nat 1%nat ltac:(lia) ltac:(lia)) as S21. cbv zeta.
  unfold stress, orientation_averaged_stiffness_3d, stiffness_coeffs_3d, e1e1, e1_4, t4add, t4scale, es_ij_kl, es_kl_ij, es_ik_jl, es_il_jk, es_jk_il, es_jl_ik, delta.
  cbn [rsum Nat.eqb]. rewrite S10, S20, S21.
  assert (H6 : E1 * (1 + nu23 * -1) + nu12 * nu12 * E2 * -2 <> 0) by (intros X; apply H5; lra).
  repeat split; field; repeat split; try assumption; intros X; apply H5; lra.
Qed.
Print Assumptions C70_aligned_3d.

(** The common five-term form. *)
Definition form (B1 B2 B3 B4 B5 : R) (a2 : T2) (a4 : T4) : T4 := fun i j k l =>
  B1 * a4 i j k l + B2 * (a2 i j * delta k l + a2 k l * delta i j)
  + B3 * (a2 i k * delta j l + a2 i l * delta j k + a2 j k * delta i l + a2 j l * delta i k)
  + B4 * (delta i j * delta k l) + B5 * (delta i k * delta j l + delta i l * delta j k).
Definition coeffs (d : nat) (E1 E2 G12 nu12 nu23 : R) : R * R * R * R * R :=
  if Nat.eqb d 2 then match stiffness_coeffs_2d E1 E2 G12 nu12 with (B1, B2, B3, B5) => (B1, B2, B3, 0, B5) end
  else stiffness_coeffs_3d E1 E2 G12 nu12 nu23.
Lemma stiffness_form d E1 E2 G12 nu12 nu23 : exists B1 B2 B3 B4 B5, coeffs d E1 E2 G12 nu12 nu23 = (B1, B2, B3, B4, B5) /\
  forall a2 a4 i j k l, stiffness d a2 a4 E1 E2 G12 nu12 nu23 i j k l = form B1 B2 B3 B4 B5 a2 a4 i j k l.
Proof.
  unfold stiffness, coeffs. destruct (Nat.eqb d 2).
  - unfold orientation_averaged_stiffness. destruct (stiffness_coeffs_2d E1 E2 G12 nu12) as [[[B1 B2] B3] B5].
    exists B1, B2, B3, 0, B5. split; [reflexivity|]. intros.
    unfold form, t4add, t4scale, es_ij_kl, es_kl_ij, es_ik_jl, es_il_jk, es_jk_il, es_jl_ik. ring.
  - unfold orientation_averaged_stiffness_3d. destruct (stiffness_coeffs_3d E1 E2 G12 nu12 nu23) as [[[[B1 B2] B3] B4] B5].
    exists B1, B2, B3, B4, B5. split; [reflexivity|]. intros.
    unfold form, t4add, t4scale, es_ij_kl, es_kl_ij, es_ik_jl, es_il_jk, es_jk_il, es_jl_ik. ring.
Qed.

Lemma delta_sym i j : delta i j = delta j i.
Proof. unfold delta. rewrite Nat.eqb_sym. reflexivity. Qed.

(** Minor and major symmetries. *)
Theorem C70_symmetries d a2 a4 E1 E2 G12 nu12 nu23 : symm2 d a2 -> fully_symmetric d a4 ->
  let C := stiffness d a2 a4 E1 E2 G12 nu12 nu23 in
  forall i j k l, (i < d)%nat -> (j < d)%nat -> (k < d)%nat -> (l < d)%nat ->
    C i j k l = C j i k l /\ C i j k l = C i j l k /\ C i j k l = C k l i j.
Proof.
  intros S F. cbv zeta. intros i j k l Hi Hj Hk Hl.
  destruct (stiffness_form d E1 E2 G12 nu12 nu23) as (B1 & B2 & B3 & B4 & B5 & _ & E). rewrite !E. unfold form.
  destruct (F i j k l Hi Hj Hk Hl) as (F1 & F2 & F3).
  assert (F4 : a4 k l i j = a4 i j k l).
  { destruct (F k l i j Hk Hl Hi Hj) as (_ & X1 & _). rewrite X1. destruct (F k i l j Hk Hi Hl Hj) as (X2 & _ & X3). rewrite X2.
    destruct (F i k l j Hi Hk Hl Hj) as (_ & _ & X4). rewrite X4. destruct (F i k j l Hi Hk Hj Hl) as (_ & X5 & _). rewrite X5. reflexivity. }
  rewrite <- F1, <- F3, F4. rewrite (S j i Hj Hi), (S l k Hl Hk), (S k i Hk Hi), (S k j Hk Hj), (S l i Hl Hi), (S l j Hl Hj).
  rewrite (delta_sym j i), (delta_sym l k), (delta_sym k i), (delta_sym k j), (delta_sym l i), (delta_sym l j).
  repeat split; ring.
Qed.
Print Assumptions C70_symmetries.

(** Linear in the orientation tensors up to the isotropic part: an average over a distribution. *)
Lemma form_avg F B1 B2 B3 B4 B5 i j k l : avg F (fun _ => 1) = 1 ->
  form B1 B2 B3 B4 B5 (moment2 F) (moment4 F) i j k l =
  avg F (fun p => form B1 B2 B3 B4 B5 (fun a b => p a * p b) (fun a b c e => p a * p b * p c * p e) i j k l).
Proof.
  intros H. unfold form, moment2, moment4.
  assert (HC : forall c, avg F (fun _ => c) = c) by (intros c; rewrite avg_const, H; ring).
  rewrite !avg_add, !avg_scale, !avg_add, !avg_scale_r, !HC. reflexivity.
Qed.

Lemma rotate_form d Q B1 B2 B3 B4 B5 a2 a4 : d = 2%nat \/ d = 3%nat -> orthogonal d Q ->
  eq4 d (form B1 B2 B3 B4 B5 (rot2 d Q a2) (rotate d Q a4)) (rotate d Q (form B1 B2 B3 B4 B5 a2 a4)).
Proof.
  intros Hd O.
  assert (R : forall A B i j k l,
    rotate d Q (fun a b c e => A a b * B c e) i j k l = rot2 d Q A i j * rot2 d Q B k l /\
    rotate d Q (fun a b c e => A c e * B a b) i j k l = rot2 d Q A k l * rot2 d Q B i j /\
    rotate d Q (fun a b c e => A a c * B b e) i j k l = rot2 d Q A i k * rot2 d Q B j l /\
    rotate d Q (fun a b c e => A a e * B b c) i j k l = rot2 d Q A i l * rot2 d Q B j k /\
    rotate d Q (fun a b c e => A b c * B a e) i j k l = rot2 d Q A j k * rot2 d Q B i l /\
    rotate d Q (fun a b c e => A b e * B a c) i j k l = rot2 d Q A j l * rot2 d Q B i k).
  { intros A B i j k l. destruct Hd as [-> | ->]; unfold rotate, rot2; cbn [rsum]; repeat split; ring. }
  assert (Dl : eq2 d (rot2 d Q delta) delta).
  { intros i j Hi Hj. rewrite <- O by assumption. unfold rot2. apply rsum_ext. intros p Hp.
    transitivity (rsum d (fun q => delta q p * (Q i p * Q j q))); [apply rsum_ext; intros; rewrite delta_sym; ring|].
    rewrite rsum_delta by exact Hp. reflexivity. }
  assert (Ad : forall s t i j k l, rotate d Q (fun a b c e => s a b c e + t a b c e) i j k l = rotate d Q s i j k l + rotate d Q t i j k l).
  { intros. unfold rotate. rewrite <- rsum_add. apply rsum_ext. intros. rewrite <- rsum_add. apply rsum_ext. intros.
    rewrite <- rsum_add. apply rsum_ext. intros. rewrite <- rsum_add. apply rsum_ext. intros. ring. }
  assert (Sc : forall c t i j k l, rotate d Q (fun a b c' e => c * t a b c' e) i j k l = c * rotate d Q t i j k l).
  { intros. unfold rotate. rewrite <- rsum_scale. apply rsum_ext. intros. rewrite <- rsum_scale. apply rsum_ext. intros.
    rewrite <- rsum_scale. apply rsum_ext. intros. rewrite <- rsum_scale. apply rsum_ext. intros. ring. }
  intros i j k l Hi Hj Hk Hl. unfold form.
  rewrite !Ad, !Sc, !Ad.
  destruct (R a2 delta i j k l) as (P1 & P2 & P3 & P4 & P5 & P6). destruct (R delta delta i j k l) as (D1 & _ & D3 & D4 & _ & _).
  rewrite P1, P2, P3, P4, P5, P6, D1, D3, D4. rewrite !Dl by assumption. reflexivity.
Qed.

(** Objectivity: rotating the orientation tensors rotates the stiffness. *)
Theorem C70_objective d Q a2 a4 E1 E2 G12 nu12 nu23 : d = 2%nat \/ d = 3%nat -> orthogonal d Q ->
  eq4 d (stiffness d (rot2 d Q a2) (rotate d Q a4) E1 E2 G12 nu12 nu23)
        (rotate d Q (stiffness d a2 a4 E1 E2 G12 nu12 nu23)).
Proof.
  intros Hd O i j k l Hi Hj Hk Hl.
  destruct (stiffness_form d E1 E2 G12 nu12 nu23) as (B1 & B2 & B3 & B4 & B5 & _ & E). rewrite E, rotate_form by assumption.
  unfold rotate. apply rsum_ext. intros. apply rsum_ext. intros. apply rsum_ext. intros. apply rsum_ext. intros. rewrite E. reflexivity.
Qed.
Print Assumptions C70_objective.

(** The stiffness of a fibre distribution is the weighted average of the lamina turned into each fibre
    direction; which orthonormal frame completes a direction does not matter. *)
Theorem C70_average d F (frame : (nat -> R) -> T2) E1 E2 G12 nu12 nu23 : d = 2%nat \/ d = 3%nat -> is_odf d F ->
  (forall wp, In wp F -> orthogonal d (frame (snd wp)) /\ forall i, (i < d)%nat -> frame (snd wp) i 0%nat = snd wp i) ->
  eq4 d (stiffness d (moment2 F) (moment4 F) E1 E2 G12 nu12 nu23)
        (fun i j k l => avg F (fun p => rotate d (frame p) (stiffness d e1e1 e1_4 E1 E2 G12 nu12 nu23) i j k l)).
Proof.
  intros Hd [_ H1] Hf i j k l Hi Hj Hk Hl.
  destruct (stiffness_form d E1 E2 G12 nu12 nu23) as (B1 & B2 & B3 & B4 & B5 & _ & E). rewrite E, form_avg by exact H1.
  apply avg_ext. intros wp Hin. destruct (Hf wp Hin) as [O Fr].
  transitivity (rotate d (frame (snd wp)) (form B1 B2 B3 B4 B5 e1e1 e1_4) i j k l).
  2:{ unfold rotate. apply rsum_ext. intros. apply rsum_ext. intros. apply rsum_ext. intros. apply rsum_ext. intros. rewrite E. reflexivity. }
  rewrite <- rotate_form by assumption. unfold form.
  assert (Z : (0 < d)%nat) by (destruct Hd; lia).
  assert (D1 : forall g, rsum d (fun a => g a * delta a 0%nat) = g 0%nat).
  { intros g. rewrite <- (rsum_delta d 0%nat g Z). apply rsum_ext. intros. ring. }
  assert (R2 : forall a b, (a < d)%nat -> (b < d)%nat -> rot2 d (frame (snd wp)) e1e1 a b = snd wp a * snd wp b).
  { intros a b Ha Hb. unfold rot2, e1e1. rewrite <- (Fr a Ha), <- (Fr b Hb).
    transitivity (rsum d (fun p => frame (snd wp) a p * frame (snd wp) b 0%nat * delta p 0%nat)).
    - apply rsum_ext. intros p _.
      transitivity (rsum d (fun q => frame (snd wp) a p * frame (snd wp) b q * delta p 0%nat * delta q 0%nat)); [apply rsum_ext; intros; ring|].
      apply (D1 (fun q => frame (snd wp) a p * frame (snd wp) b q * delta p 0%nat)).
    - rewrite (D1 (fun p => frame (snd wp) a p * frame (snd wp) b 0%nat)). reflexivity. }
  assert (R4 : rotate d (frame (snd wp)) e1_4 i j k l = snd wp i * snd wp j * snd wp k * snd wp l).
  { rewrite <- (Fr i Hi), <- (Fr j Hj), <- (Fr k Hk), <- (Fr l Hl). set (q := frame (snd wp)). unfold rotate, e1_4.
    transitivity (rsum d (fun a => q i a * delta a 0%nat) * rsum d (fun a => q j a * delta a 0%nat) * rsum d (fun a => q k a * delta a 0%nat) * rsum d (fun a => q l a * delta a 0%nat)).
    - destruct Hd as [-> | ->]; cbn [rsum]; unfold delta; cbn [Nat.eqb]; ring.
    - rewrite (D1 (q i)), (D1 (q j)), (D1 (q k)), (D1 (q l)). reflexivity. }
  rewrite R4, !R2 by assumption. reflexivity.
Qed.
Print Assumptions C70_average.

(** ** Positive definiteness *)
Lemma avg_pos F g : (forall wp, In wp F -> 0 <= fst wp) -> avg F (fun _ => 1) = 1 -> (forall wp, In wp F -> 0 < g (snd wp)) -> 0 < avg F g.
Proof.
  intros W H1 Hg. assert (G : forall wp, In wp F -> 0 <= g (snd wp)) by (intros wp Hin; specialize (Hg wp Hin); lra).
  pose proof (avg_nonneg F g W G) as N. destruct N as [N|N]; [exact N|]. exfalso. symmetry in N.
  pose proof (avg_zero F g W G N) as Z.
  assert (X : forall wp, In wp F -> fst wp = 0).
  { intros wp Hin. specialize (W wp Hin). specialize (Hg wp Hin). destruct W as [W|W]; [|symmetry; exact W]. specialize (Z wp Hin W). lra. }
  clear - H1 X. assert (Y : avg F (fun _ => 1) = 0); [|lra]. clear H1.
  induction F as [|[w p] F IH]; [reflexivity|]. unfold avg in *. cbn [fold_right fst snd].
  rewrite IH by (intros; apply X; right; assumption). pose proof (X (w, p) (or_introl eq_refl)) as E. cbn [fst] in E. rewrite E. ring.
Qed.

Lemma energy_avg F d B1 B2 B3 B4 B5 e : avg F (fun _ => 1) = 1 ->
  energy d (form B1 B2 B3 B4 B5 (moment2 F) (moment4 F)) e =
  avg F (fun p => energy d (form B1 B2 B3 B4 B5 (fun a b => p a * p b) (fun a b c e => p a * p b * p c * p e)) e).
Proof.
  intros H. unfold energy. rewrite avg_rsum. apply rsum_ext. intros i _. rewrite avg_rsum. apply rsum_ext. intros j _.
  rewrite avg_rsum. apply rsum_ext. intros k _. rewrite avg_rsum. apply rsum_ext. intros l _.
  rewrite form_avg by exact H. rewrite avg_scale_r, avg_scale. reflexivity.
Qed.

Definition pep d (e : T2) (p : nat -> R) : R := rsum d (fun i => rsum d (fun j => p i * e i j * p j)).
Definition epn d (e : T2) (p : nat -> R) : R := rsum d (fun i => rsum d (fun j => e i j * p j) * rsum d (fun j => e i j * p j)).
Definition een d (e : T2) : R := rsum d (fun i => rsum d (fun j => e i j * e i j)).

Lemma energy_form d B1 B2 B3 B4 B5 p e : d = 2%nat \/ d = 3%nat -> symm2 d e ->
  energy d (form B1 B2 B3 B4 B5 (fun a b => p a * p b) (fun a b c e => p a * p b * p c * p e)) e =
  B1 * (pep d e p * pep d e p) + 2 * B2 * (pep d e p * trace d e) + 4 * B3 * epn d e p + B4 * (trace d e * trace d e) + 2 * B5 * een d e.
Proof.
  intros Hd S. destruct Hd as [-> | ->].
  - pose proof (S 1%nat 0%nat ltac:(lia) ltac:(lia)) as S10.
    unfold energy, form, pep, epn, een, trace, delta. cbn [rsum Nat.eqb]. rewrite S10. ring.
  - pose proof (S 1%nat 0%nat ltac:(lia) ltac:(lia)) as S10.
    pose proof (S 2%nat 0%nat ltac:(lia) ltac:(lia)) as S20. pose proof (S 2%nat 1%nat ltac:(lia) ltac:(lia)) as S21.
    unfold energy, form, pep, epn, een, trace, delta. cbn [rsum Nat.eqb]. rewrite S10, S20, S21. ring.
Qed.

Lemma een_pos d e : (exists i j, (i < d)%nat /\ (j < d)%nat /\ e i j <> 0) -> 0 < een d e.
Proof.
  intros (i & j & Hi & Hj & N). unfold een.
  assert (G : forall n f a, (forall i, 0 <= f i) -> (a < n)%nat -> 0 < f a -> 0 < rsum n f).
  { intros n f a Hf. induction n as [|n IH]; intros Ha Hp; [lia|]. cbn [rsum].
    pose proof (Hf n). pose proof (rsum_nonneg n f ltac:(intros; apply Hf)).
    destruct (Nat.eq_dec a n) as [->|Na]; [lra|]. specialize (IH ltac:(lia) Hp). lra. }
  apply G with i; [intros; apply rsum_nonneg; intros; apply sq0|exact Hi|].
  apply G with j; [intros; apply sq0|exact Hj|]. pose proof (sq0 (e i j)). destruct (Rle_lt_or_eq_dec _ _ H) as [L|L]; [exact L|].
  exfalso. apply N. apply sq_zero. symmetry. exact L.
Qed.

Lemma quad_form_pos A B C x s : 0 < A -> 0 < A * C - B * B -> 0 <= A * (x * x) + 2 * B * (x * s) + C * (s * s) /\
  (x * x + s * s > 0 -> 0 < A * (x * x) + 2 * B * (x * s) + C * (s * s)).
Proof.
  intros HA HD.
  assert (E : A * (A * (x * x) + 2 * B * (x * s) + C * (s * s)) = (A * x + B * s) * (A * x + B * s) + (A * C - B * B) * (s * s)) by ring.
  pose proof (sq0 (A * x + B * s)) as P1. pose proof (sq0 s) as P2.
  set (q := A * (x * x) + 2 * B * (x * s) + C * (s * s)) in *.
  assert (P3 : 0 <= (A * C - B * B) * (s * s)) by (apply Rmult_le_pos; lra).
  split.
  - destruct (Rle_dec 0 q); [assumption|]. exfalso. assert (A * q < 0) by nra. lra.
  - intros X. destruct (Rlt_dec 0 q); [assumption|]. exfalso.
    assert (A * q <= 0) by nra. assert (Z : (A * C - B * B) * (s * s) = 0) by lra.
    destruct (Rmult_integral _ _ Z) as [Z'|Z']; [lra|]. apply sq_zero in Z'. subst s.
    assert (Z2 : (A * x + B * 0) * (A * x + B * 0) = 0) by lra. apply sq_zero in Z2.
    assert (Z3 : A * x = 0) by lra. destruct (Rmult_integral _ _ Z3) as [Z4|Z4]; [lra|]. subst x. lra.
Qed.

(** For every fibre distribution and all thermodynamically admissible moduli the stiffness is positive
    definite. *)
Theorem C70_positive_definite_2d F e E1 E2 G12 nu12 : is_odf 2 F -> symm2 2 e ->
  0 < E1 -> 0 < E2 -> 0 < G12 -> nu12 * nu12 * E2 < E1 ->
  (exists i j, (i < 2)%nat /\ (j < 2)%nat /\ e i j <> 0) ->
  0 < energy 2 (orientation_averaged_stiffness (moment2 F) (moment4 F) E1 E2 G12 nu12) e.
Proof.
  intros [H1 H2] S P1 P2 PG Pn Ne. apply een_pos in Ne.
  destruct (stiffness_form 2 E1 E2 G12 nu12 0) as (B1 & B2 & B3 & B4 & B5 & Ec & E).
  change (orientation_averaged_stiffness (moment2 F) (moment4 F) E1 E2 G12 nu12) with (stiffness 2 (moment2 F) (moment4 F) E1 E2 G12 nu12 0).
  replace (energy 2 (stiffness 2 (moment2 F) (moment4 F) E1 E2 G12 nu12 0) e) with (energy 2 (form B1 B2 B3 B4 B5 (moment2 F) (moment4 F)) e).
  2:{ unfold energy. apply rsum_ext; intros; apply rsum_ext; intros; apply rsum_ext; intros; apply rsum_ext; intros. rewrite E. reflexivity. }
  rewrite energy_avg by exact H2. apply avg_pos; [intros wp Hin; apply (H1 wp Hin)|exact H2|].
  intros wp Hin. destruct (H1 wp Hin) as [_ U]. rewrite energy_form by (auto; assumption).
  unfold coeffs, stiffness_coeffs_2d in Ec. cbn [Nat.eqb] in Ec.
  set (m := 1 / (1 - nu12 * (nu12 * E2 / E1))) in *.
  assert (Pm : 0 < 1 - nu12 * (nu12 * E2 / E1)).
  { replace (1 - nu12 * (nu12 * E2 / E1)) with ((E1 - nu12 * nu12 * E2) * / E1) by (field; lra). apply Rmult_lt_0_compat; [lra|apply Rinv_0_lt_compat; lra]. }
  assert (Mm : m * (1 - nu12 * (nu12 * E2 / E1)) = 1) by (unfold m; field; split; lra).
  assert (Pm' : 0 < m) by (unfold m, Rdiv; rewrite Rmult_1_l; apply Rinv_0_lt_compat; exact Pm).
  assert (Q12 : m * (nu12 * E2 / E1) * E1 = m * nu12 * E2) by (field; lra). rewrite Q12 in Ec.
  injection Ec as <- <- <- <- <-.
  (* x = p.e.p, y = tr e - x, z^2 = |e p|^2 - x^2 *)
  set (p := snd wp) in *. cbn [rsum] in U.
  assert (pp : p 0%nat * p 0%nat + p 1%nat * p 1%nat = 1) by lra.
  pose proof (S 1%nat 0%nat ltac:(lia) ltac:(lia)) as S10.
  set (x := pep 2 e p). set (t := trace 2 e). set (n := epn 2 e p). set (q := een 2 e) in *.
  set (D := e 0%nat 0%nat * e 1%nat 1%nat - e 0%nat 1%nat * e 0%nat 1%nat).
  assert (I1 : n = t * x - D).
  { transitivity (t * x - D * (p 0%nat * p 0%nat + p 1%nat * p 1%nat)); [|rewrite pp; ring].
    unfold n, t, x, D, epn, trace, pep. cbn [rsum]. rewrite S10. ring. }
  assert (I2 : q = t * t - 2 * D) by (unfold q, t, D, een, trace; cbn [rsum]; rewrite S10; ring).
  assert (I3 : 0 <= n - x * x).
  { assert (X : n - x * x = rsum 2 (fun i => (rsum 2 (fun j => e i j * p j) - x * p i) * (rsum 2 (fun j => e i j * p j) - x * p i))).
    { transitivity (n - 2 * x * x + x * x * (p 0%nat * p 0%nat + p 1%nat * p 1%nat)); [rewrite pp; ring|].
      unfold n. unfold epn. replace (2 * x * x) with (2 * x * pep 2 e p) by reflexivity. unfold pep. cbn [rsum]. ring. }
    rewrite X. apply rsum_nonneg. intros. apply sq0. }
  clearbody x t n q D. clear S10 pp U p.
  set (y := t - x) in *. assert (Ty : t = x + y) by (unfold y; ring). clearbody y. subst t.
  destruct (quad_form_pos (m * E1) (m * nu12 * E2) (m * E2) x y) as [K1 K2].
  { apply Rmult_lt_0_compat; assumption. }
  { replace (m * E1 * (m * E2) - m * nu12 * E2 * (m * nu12 * E2)) with (m * m * E2 * (E1 - nu12 * nu12 * E2)) by ring.
    apply Rmult_lt_0_compat; [apply Rmult_lt_0_compat; [apply Rmult_lt_0_compat|]|]; lra. }
  match goal with |- 0 < ?g => replace g with (m * E1 * (x * x) + 2 * (m * nu12 * E2) * (x * y) + m * E2 * (y * y) + 4 * G12 * (n - x * x)) end.
  2:{ assert (HD : D = (x + y) * x - n) by lra. rewrite I2, HD. field. }
  destruct (Req_dec (n - x * x) 0) as [Z|Z].
  - rewrite Z. assert (x * x + y * y > 0); [|specialize (K2 H); lra].
    assert (HD : D = (x + y) * x - n) by lra. rewrite HD in I2. assert (q = x * x + y * y + 2 * (n - x * x)) by lra. lra.
  - assert (0 < n - x * x) by lra. assert (0 < 4 * G12 * (n - x * x)) by (apply Rmult_lt_0_compat; lra). lra.
Qed.
Print Assumptions C70_positive_definite_2d.

Theorem C70_positive_definite_3d F e E1 E2 G12 nu12 nu23 : is_odf 3 F -> symm2 3 e ->
  0 < E1 -> 0 < E2 -> 0 < G12 -> -1 < nu23 -> 2 * nu12 * nu12 * E2 < E1 * (1 - nu23) ->
  (exists i j, (i < 3)%nat /\ (j < 3)%nat /\ e i j <> 0) ->
  0 < energy 3 (orientation_averaged_stiffness_3d (moment2 F) (moment4 F) E1 E2 G12 nu12 nu23) e.
Proof.
  intros [H1 H2] S P1 P2 PG P23 Pn Ne. apply een_pos in Ne.
  destruct (stiffness_form 3 E1 E2 G12 nu12 nu23) as (B1 & B2 & B3 & B4 & B5 & Ec & E).
  change (orientation_averaged_stiffness_3d (moment2 F) (moment4 F) E1 E2 G12 nu12 nu23) with (stiffness 3 (moment2 F) (moment4 F) E1 E2 G12 nu12 nu23).
  replace (energy 3 (stiffness 3 (moment2 F) (moment4 F) E1 E2 G12 nu12 nu23) e) with (energy 3 (form B1 B2 B3 B4 B5 (moment2 F) (moment4 F)) e).
  2:{ unfold energy. apply rsum_ext; intros; apply rsum_ext; intros; apply rsum_ext; intros; apply rsum_ext; intros. rewrite E. reflexivity. }
  rewrite energy_avg by exact H2. apply avg_pos; [intros wp Hin; apply (H1 wp Hin)|exact H2|].
  intros wp Hin. destruct (H1 wp Hin) as [_ U]. rewrite energy_form by (auto; assumption).
  unfold coeffs, stiffness_coeffs_3d in Ec. cbn [Nat.eqb] in Ec.
  set (r := 1 - nu23 - 2 * nu12 * (nu12 * E2 / E1)) in *.
  assert (Pr : 0 < r).
  { unfold r. replace (1 - nu23 - 2 * nu12 * (nu12 * E2 / E1)) with ((E1 * (1 - nu23) - 2 * nu12 * nu12 * E2) * / E1) by (field; lra).
    apply Rmult_lt_0_compat; [lra|apply Rinv_0_lt_compat; lra]. }
  assert (Hr : nu12 * (nu12 * E2 / E1) = (1 - nu23 - r) / 2) by (unfold r; field; lra).
  assert (Hk : E1 * (nu12 * E2 / E1) = nu12 * E2) by (field; lra).
  rewrite Hr, Hk in Ec. set (m := 1 / ((1 + nu23) * r)) in *.
  assert (Pm : 0 < m) by (unfold m, Rdiv; rewrite Rmult_1_l; apply Rinv_0_lt_compat, Rmult_lt_0_compat; lra).
  assert (Mm : m * ((1 + nu23) * r) = 1) by (unfold m; field; split; lra).
  assert (N2 : nu12 * nu12 * E2 = E1 * ((1 - nu23 - r) / 2)) by (rewrite <- Hr; field; lra).
  clearbody r m. injection Ec as <- <- <- <- <-.
  set (p := snd wp) in *. cbn [rsum] in U.
  assert (pp : p 0%nat * p 0%nat + p 1%nat * p 1%nat + p 2%nat * p 2%nat = 1) by lra.
  pose proof (S 1%nat 0%nat ltac:(lia) ltac:(lia)) as S10.
  pose proof (S 2%nat 0%nat ltac:(lia) ltac:(lia)) as S20. pose proof (S 2%nat 1%nat ltac:(lia) ltac:(lia)) as S21.
  set (x := pep 3 e p). set (t := trace 3 e). set (n := epn 3 e p). set (q := een 3 e) in *.
  assert (I3 : 0 <= n - x * x).
  { assert (X : n - x * x = rsum 3 (fun i => (rsum 3 (fun j => e i j * p j) - x * p i) * (rsum 3 (fun j => e i j * p j) - x * p i))).
    { transitivity (n - 2 * x * x + x * x * (p 0%nat * p 0%nat + p 1%nat * p 1%nat + p 2%nat * p 2%nat)); [rewrite pp; ring|].
      unfold n. unfold epn. replace (2 * x * x) with (2 * x * pep 3 e p) by reflexivity. unfold pep. cbn [rsum]. ring. }
    rewrite X. apply rsum_nonneg. intros. apply sq0. }
  (* transverse part *)
  assert (I4 : 0 <= q - 2 * n + x * x - (t - x) * (t - x) / 2).
  { assert (X : forall a b, rsum 3 (fun i => rsum 3 (fun j => 
        let N := e i j - p i * rsum 3 (fun k => e j k * p k) - rsum 3 (fun k => e i k * p k) * p j + a * (p i * p j) - b * delta i j in N * N))
      = let P := p 0%nat * p 0%nat + p 1%nat * p 1%nat + p 2%nat * p 2%nat in
        q + 2 * P * n + 2 * (x * x) + a * a * (P * P) + 3 * (b * b) - 4 * n + 2 * a * x - 2 * b * t - 4 * a * (x * P) + 4 * b * x - 2 * a * b * P).
    { intros a b. cbv zeta. unfold q, n, x, t, een, epn, pep, trace, delta. cbn [rsum Nat.eqb]. rewrite S10, S20, S21. ring. }
    specialize (X (x + (t - x) / 2) ((t - x) / 2)). cbv zeta in X. rewrite pp in X.
    match type of X with ?l = ?r => assert (N : 0 <= l) by (apply rsum_nonneg; intros; apply rsum_nonneg; intros; apply sq0);
      replace (q - 2 * n + x * x - (t - x) * (t - x) / 2) with r by field; rewrite <- X; exact N end. }
  clearbody x t n q. clear S10 S20 S21 pp U p.
  set (s := t - x) in *. assert (Ts : t = x + s) by (unfold s; ring). clearbody s. subst t.
  set (w := q - 2 * n + x * x - s * s / 2) in *.
  assert (Hq : q = x * x + 2 * (n - x * x) + s * s / 2 + w) by (unfold w; ring). clearbody w.
  set (A := E1 * (1 - nu23 * nu23) * m). set (B := nu12 * E2 * (1 + nu23) * m).
  set (C := (E2 * (1 - (1 - nu23 - r) / 2) * m + E2 * (nu23 + (1 - nu23 - r) / 2) * m) / 2).
  set (G := E2 * (1 - (1 - nu23 - r) / 2) * m - E2 * (nu23 + (1 - nu23 - r) / 2) * m).
  assert (PGt : 0 < G).
  { replace G with (E2 * m * r) by (unfold G; field). apply Rmult_lt_0_compat; [apply Rmult_lt_0_compat|]; assumption. }
  assert (Nu : nu23 < 1).
  { assert (0 <= nu12 * nu12 * E2) by (apply Rmult_le_pos; [apply sq0|lra]). assert (0 < E1 * (1 - nu23)) by lra. nra. }
  destruct (quad_form_pos A B C x s) as [K1 K2].
  { unfold A. apply Rmult_lt_0_compat; [apply Rmult_lt_0_compat|]; nra. }
  { assert (X : A * C - B * B = E2 * (m * (1 + nu23)) * (m * (1 + nu23)) * (E1 * (1 - nu23) / 2 - nu12 * nu12 * E2)).
    { unfold A, B, C. field. }
    rewrite X, N2. assert (0 < m * (1 + nu23)) by (apply Rmult_lt_0_compat; lra).
    assert (0 < E1 * (1 - nu23) / 2 - E1 * ((1 - nu23 - r) / 2)) by nra.
    apply Rmult_lt_0_compat; [|assumption]. apply Rmult_lt_0_compat; [|assumption]. apply Rmult_lt_0_compat; assumption. }
  match goal with |- 0 < ?g => replace g with (A * (x * x) + 2 * B * (x * s) + C * (s * s) + G * w + 4 * G12 * (n - x * x)) end.
  2:{ rewrite Hq. unfold A, B, C, G. field. }
  assert (W1 : 0 <= G * w) by (apply Rmult_le_pos; lra). assert (W2 : 0 <= 4 * G12 * (n - x * x)) by (apply Rmult_le_pos; lra).
  destruct (Req_dec w 0) as [Zw|Zw]; [|assert (0 < G * w) by (apply Rmult_lt_0_compat; lra); lra].
  destruct (Req_dec (n - x * x) 0) as [Z|Z]; [|assert (0 < 4 * G12 * (n - x * x)) by (apply Rmult_lt_0_compat; lra); lra].
  assert (x * x + s * s > 0) by (pose proof (sq0 s); lra). specialize (K2 H). lra.
Qed.
Print Assumptions C70_positive_definite_3d.

(** Fibre content [tau < 1]: what is missing is replaced by the isotropic part of the formula.
    FINDING: an empty element ([a2 = 0], [a4 = 0]) keeps the stiffness [Q22 (e : e)]. *)
Theorem C70_content d F tau E1 E2 G12 nu12 nu23 i j k l :
  let C0 := stiffness d (fun _ _ => 0) (fun _ _ _ _ => 0) E1 E2 G12 nu12 nu23 in
  stiffness d (fun a b => tau * moment2 F a b) (fun a b c e => tau * moment4 F a b c e) E1 E2 G12 nu12 nu23 i j k l
  = tau * stiffness d (moment2 F) (moment4 F) E1 E2 G12 nu12 nu23 i j k l + (1 - tau) * C0 i j k l.
Proof.
  cbv zeta. destruct (stiffness_form d E1 E2 G12 nu12 nu23) as (B1 & B2 & B3 & B4 & B5 & _ & E). rewrite !E. unfold form. ring.
Qed.
Print Assumptions C70_content.

Theorem C70_empty_is_stiff e E1 E2 G12 nu12 : symm2 2 e -> 0 < E1 -> 0 < E2 -> nu12 * nu12 * E2 < E1 ->
  (exists i j, (i < 2)%nat /\ (j < 2)%nat /\ e i j <> 0) ->
  0 < energy 2 (orientation_averaged_stiffness (fun _ _ => 0) (fun _ _ _ _ => 0) E1 E2 G12 nu12) e.
Proof.
  intros S P1 P2 Pn Ne. apply een_pos in Ne. pose proof (S 1%nat 0%nat ltac:(lia) ltac:(lia)) as S10.
  unfold een in Ne. cbn [rsum] in Ne. rewrite S10 in Ne.
  assert (Pm : 0 < 1 - nu12 * (nu12 * E2 / E1)).
  { replace (1 - nu12 * (nu12 * E2 / E1)) with ((E1 - nu12 * nu12 * E2) * / E1) by (field; lra). apply Rmult_lt_0_compat; [lra|apply Rinv_0_lt_compat; lra]. }
  unfold energy, orientation_averaged_stiffness, stiffness_coeffs_2d, t4add, t4scale, es_ij_kl, es_kl_ij, es_ik_jl, es_il_jk, es_jk_il, es_jl_ik, delta.
  cbn [rsum Nat.eqb]. rewrite S10. set (r := 1 - nu12 * (nu12 * E2 / E1)) in *.
  match goal with |- 0 < ?g => replace g with (E2 * / r * (0 + (0 + e 0%nat 0%nat * e 0%nat 0%nat + e 0%nat 1%nat * e 0%nat 1%nat) +
    (0 + e 0%nat 1%nat * e 0%nat 1%nat + e 1%nat 1%nat * e 1%nat 1%nat))) end.
  - apply Rmult_lt_0_compat; [|exact Ne]. apply Rmult_lt_0_compat; [exact P2|apply Rinv_0_lt_compat; exact Pm].
  - clearbody r. field. split; lra.
Qed.
Print Assumptions C70_empty_is_stiff.

(** With the closure-free fourth-order tensor the stiffness is positive definite for every design: every
    positive semidefinite [a2] of trace in (0, 1] and every Schur coefficient in the unit disk. *)
Theorem C70_design_positive_definite a y1 y2 e E1 E2 G12 nu12 : psd2 2 a -> 0 < trace 2 a <= 1 -> y1 * y1 + y2 * y2 <= 1 ->
  symm2 2 e -> 0 < E1 -> 0 < E2 -> 0 < G12 -> nu12 * nu12 * E2 < E1 ->
  (exists i j, (i < 2)%nat /\ (j < 2)%nat /\ e i j <> 0) ->
  0 < energy 2 (orientation_averaged_stiffness a (build_a4_2d a y1 y2 0) E1 E2 G12 nu12) e.
Proof.
  intros Ha Ht Hy S P1 P2 PG Pn Ne.
  destruct (C69_build_admissible a y1 y2 0 Ha (proj1 Ht) ltac:(lra) Hy) as (F & HF & E4 & _ & E2'). specialize (E2' eq_refl).
  set (tau := trace 2 a) in *.
  assert (X : energy 2 (orientation_averaged_stiffness a (build_a4_2d a y1 y2 0) E1 E2 G12 nu12) e
    = tau * energy 2 (orientation_averaged_stiffness (moment2 F) (moment4 F) E1 E2 G12 nu12) e
      + (1 - tau) * energy 2 (orientation_averaged_stiffness (fun _ _ => 0) (fun _ _ _ _ => 0) E1 E2 G12 nu12) e).
  { unfold energy. rewrite <- !rsum_scale, <- rsum_add. apply rsum_ext. intros i Hi. rewrite <- !rsum_scale, <- rsum_add. apply rsum_ext. intros j Hj.
    rewrite <- !rsum_scale, <- rsum_add. apply rsum_ext. intros k Hk. rewrite <- !rsum_scale, <- rsum_add. apply rsum_ext. intros l Hl.
    pose proof (C70_content 2 F tau E1 E2 G12 nu12 0 i j k l) as Cn. cbv zeta in Cn. unfold stiffness in Cn. cbn [Nat.eqb] in Cn.
    replace (orientation_averaged_stiffness a (build_a4_2d a y1 y2 0) E1 E2 G12 nu12 i j k l)
      with (orientation_averaged_stiffness (fun a b => tau * moment2 F a b) (fun a b c e => tau * moment4 F a b c e) E1 E2 G12 nu12 i j k l).
    - rewrite Cn. ring.
    - unfold orientation_averaged_stiffness. destruct (stiffness_coeffs_2d E1 E2 G12 nu12) as [[[B1 B2] B3] B5].
      unfold t4add, t4scale, es_ij_kl, es_kl_ij, es_ik_jl, es_il_jk, es_jk_il, es_jl_ik. rewrite E4 by assumption.
      rewrite (E2' i j), (E2' k l), (E2' i k), (E2' i l), (E2' j k), (E2' j l) by assumption. reflexivity. }
  rewrite X. pose proof (C70_positive_definite_2d F e E1 E2 G12 nu12 HF S P1 P2 PG Pn Ne) as Y1.
  pose proof (C70_empty_is_stiff e E1 E2 G12 nu12 S P1 P2 Pn Ne) as Y2. 
  assert (0 < tau * energy 2 (orientation_averaged_stiffness (moment2 F) (moment4 F) E1 E2 G12 nu12) e) by (apply Rmult_lt_0_compat; lra).
  assert (0 <= (1 - tau) * energy 2 (orientation_averaged_stiffness (fun _ _ => 0) (fun _ _ _ _ => 0) E1 E2 G12 nu12) e) by (apply Rmult_le_pos; lra). lra.
Qed.
Print Assumptions C70_design_positive_definite.

(** A carbon lamina, a strain, a rotation frame. *)
Example C70_example :
  0 < 140 /\ 3 / 10 * (3 / 10) * 10 < 140 /\ 2 * (3 / 10) * (3 / 10) * 10 < 140 * (1 - 4 / 10) /\
  symm2 2 (fun i j => INR i + INR j) /\ (exists i j, (i < 2)%nat /\ (j < 2)%nat /\ INR i + INR j <> 0) /\
  orthogonal 2 (fun i j => vec2 (vec2 (3 / 5) (4 / 5) i) (vec2 (- (4 / 5)) (3 / 5) i) j) /\
  orientation_averaged_stiffness e1e1 e1_4 100 10 5 0 0%nat 0%nat 0%nat 0%nat = 100 /\
  orientation_averaged_stiffness e1e1 e1_4 100 10 5 0 1%nat 1%nat 1%nat 1%nat = 10.
Proof.
  split; [lra|]. split; [lra|]. split; [lra|]. split; [intros i j _ _; ring|].
  split; [exists 1%nat, 1%nat; cbn; repeat split; try lia; lra|].
  split; [intros i j Hi Hj; cbn [rsum]; idx i Hi; idx j Hj; unfold delta, vec2; cbn [Nat.eqb]; lra|].
  split; unfold orientation_averaged_stiffness, stiffness_coeffs_2d, e1e1, e1_4, t4add, t4scale, es_ij_kl, es_kl_ij, es_ik_jl, es_il_jk, es_jk_il, es_jl_ik, delta;
    cbn [Nat.eqb]; field.
Qed.
