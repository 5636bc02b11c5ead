(** C69: closures of the fourth-order orientation tensor. *)
From Coq Require Import Reals List Lia Lra Psatz Arith.
From Verif Require Import Closure_Model Closure_Spec Closure_Proofs.
Import ListNotations.
Open Scope R_scope.

(** The moments of every fibre distribution: trace one, positive semidefinite, fully symmetric, and
    the second moment is the contraction of the fourth. *)
Theorem C69_moments d F : is_odf d F ->
  trace d (moment2 F) = 1 /\ psd2 d (moment2 F) /\ fully_symmetric d (moment4 F) /\
  eq2 d (contract d (moment4 F)) (moment2 F).
Proof.
  intros [H1 H2].
  assert (W : forall wp, In wp F -> 0 <= fst wp) by (intros wp Hin; apply (H1 wp Hin)).
  split; [|split; [split|split]].
  - unfold trace, moment2. rewrite <- avg_rsum. rewrite <- H2. apply avg_ext. intros wp Hin. apply (H1 wp Hin).
  - intros i j _ _. unfold moment2. apply avg_ext. intros. ring.
  - intros x. unfold moment2.
    replace (rsum d (fun i => rsum d (fun j => x i * avg F (fun p => p i * p j) * x j)))
      with (avg F (fun p => rsum d (fun i => x i * p i) * rsum d (fun i => x i * p i))).
    { apply avg_nonneg; [exact W|]. intros. apply sq0. }
    transitivity (avg F (fun p => rsum d (fun i => rsum d (fun j => x i * (p i * p j) * x j)))).
    + apply avg_ext. intros wp _. rewrite <- rsum_scale_r. apply rsum_ext. intros i _.
      rewrite <- rsum_scale. apply rsum_ext. intros j _. ring.
    + rewrite avg_rsum. apply rsum_ext. intros i _. rewrite avg_rsum. apply rsum_ext. intros j _.
      rewrite avg_scale_r, avg_scale. reflexivity.
  - intros i j k l _ _ _ _. unfold moment4. repeat split; apply avg_ext; intros; ring.
  - intros i j _ _. unfold contract, moment4, moment2. rewrite <- avg_rsum. apply avg_ext. intros wp Hin.
    destruct (H1 wp Hin) as [_ U]. transitivity (snd wp i * snd wp j * rsum d (fun k => snd wp k * snd wp k)); [|rewrite U; ring].
    rewrite <- rsum_scale. apply rsum_ext. intros k _. ring.
Qed.
Print Assumptions C69_moments.

(** Quadratic closure: exact for a unidirectional state; contraction [tr(a) a]; *)
Theorem C69_quadratic d (a : T2) :
  (forall p, rsum d (fun i => p i * p i) = 1 -> is_odf d [(1, p)] /\
     eq4 d (quadratic_closure (moment2 [(1, p)])) (moment4 [(1, p)])) /\
  (forall i j, contract d (quadratic_closure a) i j = trace d a * a i j) /\
  (symm2 d a -> forall i j k l, (i < d)%nat -> (j < d)%nat -> (k < d)%nat -> (l < d)%nat ->
     quadratic_closure a i j k l = quadratic_closure a j i k l /\ quadratic_closure a i j k l = quadratic_closure a i j l k /\
     quadratic_closure a i j k l = quadratic_closure a k l i j).
Proof.
  split; [|split].
  - intros p Hp. split.
    + split; [|unfold avg; cbn [fold_right fst]; ring]. intros wp [<-|[]]. split; [cbn; lra|exact Hp].
    + intros i j k l _ _ _ _. unfold quadratic_closure, es_ij_kl, moment2, moment4, avg. cbn [fold_right fst snd]. ring.
  - intros i j. unfold contract, quadratic_closure, es_ij_kl, trace. rewrite rsum_scale. ring.
  - intros S i j k l Hi Hj Hk Hl. unfold quadratic_closure, es_ij_kl. rewrite (S i j Hi Hj) at 1. rewrite (S k l Hk Hl) at 3.
    repeat split; ring.
Qed.
Print Assumptions C69_quadratic.

(** It is exact for no other state: if the quadratic closure of a distribution's second moment is its
    fourth moment, all its fibres are parallel. *)
Theorem C69_quadratic_exact_only_aligned d F : is_odf d F ->
  eq4 d (quadratic_closure (moment2 F)) (moment4 F) ->
  forall wp wq, In wp F -> In wq F -> 0 < fst wp -> 0 < fst wq ->
    rsum d (fun i => snd wp i * snd wq i) * rsum d (fun i => snd wp i * snd wq i) = 1.
Proof.
  intros HF E. destruct (C69_moments d F HF) as (_ & _ & _ & Hc). destruct HF as [H1 H2].
  assert (W : forall wp, In wp F -> 0 <= fst wp) by (intros wp Hin; apply (H1 wp Hin)).
  set (dot := fun p q : nat -> R => rsum d (fun i => p i * q i)).
  (* the average over pairs of (p.q)^2 is one *)
  assert (A : avg F (fun p => avg F (fun q => dot p q * dot p q)) = 1).
  { transitivity (rsum d (fun i => rsum d (fun j => moment2 F i j * moment2 F i j))).
    - transitivity (avg F (fun p => rsum d (fun i => rsum d (fun j => p i * p j * moment2 F i j)))).
      + apply avg_ext. intros wp _. transitivity (avg F (fun q => rsum d (fun i => rsum d (fun j => snd wp i * snd wp j * (q i * q j))))).
        * apply avg_ext. intros wq _. unfold dot. rewrite <- rsum_scale_r. apply rsum_ext. intros i _. rewrite <- rsum_scale.
          apply rsum_ext. intros j _. ring.
        * rewrite avg_rsum. apply rsum_ext. intros i _. rewrite avg_rsum. apply rsum_ext. intros j _. rewrite avg_scale. reflexivity.
      + rewrite avg_rsum. apply rsum_ext. intros i _. rewrite avg_rsum. apply rsum_ext. intros j _. rewrite avg_scale_r. reflexivity.
    - transitivity (rsum d (fun i => rsum d (fun j => moment4 F i j i j))).
      + apply rsum_ext. intros i Hi. apply rsum_ext. intros j Hj. rewrite <- E by assumption. reflexivity.
      + transitivity (trace d (contract d (moment4 F))).
        * unfold trace, contract. apply rsum_ext. intros i _. apply rsum_ext. intros j _. unfold moment4. apply avg_ext. intros. ring.
        * transitivity (trace d (moment2 F)); [unfold trace; apply rsum_ext; intros i Hi; apply Hc; assumption|].
          unfold trace, moment2. rewrite <- avg_rsum, <- H2. apply avg_ext. intros wp Hin. apply (H1 wp Hin). }
  assert (CS : forall wp wq, In wp F -> In wq F -> 0 <= 1 - dot (snd wp) (snd wq) * dot (snd wp) (snd wq)).
  { intros wp wq Hp Hq. destruct (H1 wp Hp) as [_ Up]. destruct (H1 wq Hq) as [_ Uq].
    assert (N : forall c, 0 <= 1 - 2 * c * dot (snd wp) (snd wq) + c * c).
    { intros c. replace (1 - 2 * c * dot (snd wp) (snd wq) + c * c)
        with (rsum d (fun i => (snd wp i - c * snd wq i) * (snd wp i - c * snd wq i))).
      { apply rsum_nonneg. intros. apply sq0. }
      transitivity (rsum d (fun i => snd wp i * snd wp i) + (-2 * c) * rsum d (fun i => snd wp i * snd wq i) + c * c * rsum d (fun i => snd wq i * snd wq i)).
      - rewrite <- !rsum_scale, <- !rsum_add. apply rsum_ext. intros. ring.
      - rewrite Up, Uq. unfold dot. ring. }
    specialize (N (dot (snd wp) (snd wq))). lra. }
  assert (Z : avg F (fun p => avg F (fun q => 1 - dot p q * dot p q)) = 0).
  { transitivity (avg F (fun p => 1 - avg F (fun q => dot p q * dot p q))).
    - apply avg_ext. intros. rewrite avg_sub, H2. reflexivity.
    - rewrite avg_sub, A, H2. ring. }
  intros wp wq Hp Hq Pp Pq.
  pose proof (avg_zero F (fun p => avg F (fun q => 1 - dot p q * dot p q)) W) as Z1. cbv beta in Z1.
  specialize (Z1 (fun wp0 Hin => avg_nonneg F _ W (fun wq0 Hin' => CS wp0 wq0 Hin Hin')) Z wp Hp Pp).
  pose proof (avg_zero F (fun q => 1 - dot (snd wp) q * dot (snd wp) q) W (fun wq0 Hin' => CS wp wq0 Hp Hin') Z1 wq Hq Pq) as Z2.
  cbv beta in Z2. unfold dot in Z2. lra.
Qed.
Print Assumptions C69_quadratic_exact_only_aligned.

Ltac idx i H := destruct i as [|[|[|i]]]; try (exfalso; lia).

(** Linear closure: defined for two and three dimensions; fully symmetric; its contraction is [a2] up to
    a multiple of the identity which vanishes for unit trace. *)
Theorem C69_linear d (a : T2) :
  (linear_closure d a = None <-> d <> 2%nat /\ d <> 3%nat) /\
  forall t, linear_closure d a = Some t -> symm2 d a ->
    fully_symmetric d t /\
    (exists c, forall i j, (i < d)%nat -> (j < d)%nat -> contract d t i j = a i j + c * (trace d a - 1) * delta i j) /\
    (trace d a = 1 -> eq2 d (contract d t) a).
Proof.
  split.
  - unfold linear_closure, linear_coeffs. destruct d as [|[|[|[|d]]]]; split; intros H; try discriminate H; try reflexivity; try (split; lia).
    + destruct H as [H _]. exfalso. apply H. reflexivity.
    + destruct H as [_ H]. exfalso. apply H. reflexivity.
  - intros t E S.
    assert (Sy : fully_symmetric d t).
    { unfold linear_closure in E. destruct (linear_coeffs d) as [[c1 c2]|]; [|discriminate E]. injection E as <-.
      assert (SD : forall i j, delta i j = delta j i) by (intros; unfold delta; rewrite Nat.eqb_sym; reflexivity).
      intros i j k l Hi Hj Hk Hl.
      unfold t4add, t4scale, es_ij_kl, es_kl_ij, es_ik_jl, es_il_jk, es_jk_il, es_jl_ik.
      rewrite (S j i Hj Hi), (S k j Hk Hj), (S l k Hl Hk), (SD j i), (SD k j), (SD l k). repeat split; ring. }
    assert (Cn : exists c, forall i j, (i < d)%nat -> (j < d)%nat -> contract d t i j = a i j + c * (trace d a - 1) * delta i j).
    { clear Sy. unfold linear_closure, linear_coeffs in E.
      destruct d as [|[|[|[|d]]]]; try discriminate E; injection E as <-.
      - exists (1 / 6). intros i j Hi Hj. pose proof (S 1%nat 0%nat ltac:(lia) ltac:(lia)) as S10.
        unfold contract, trace, t4add, t4scale, es_ij_kl, es_kl_ij, es_ik_jl, es_il_jk, es_jk_il, es_jl_ik. cbn [rsum].
        idx i Hi; idx j Hj; unfold delta; cbn [Nat.eqb]; rewrite ?S10; field.
      - exists (1 / 7). intros i j Hi Hj. pose proof (S 1%nat 0%nat ltac:(lia) ltac:(lia)) as S10.
        pose proof (S 2%nat 0%nat ltac:(lia) ltac:(lia)) as S20. pose proof (S 2%nat 1%nat ltac:(lia) ltac:(lia)) as S21.
        unfold contract, trace, t4add, t4scale, es_ij_kl, es_kl_ij, es_ik_jl, es_il_jk, es_jk_il, es_jl_ik. cbn [rsum].
        idx i Hi; idx j Hj; unfold delta; cbn [Nat.eqb]; rewrite ?S10, ?S20, ?S21; field. }
    split; [exact Sy|split; [exact Cn|]].
    intros T i j Hi Hj. destruct Cn as [c Hc]. rewrite Hc, T by assumption. ring.
Qed.
Print Assumptions C69_linear.

(** The isotropic state is a genuine distribution (four axes at 45 degrees in the plane; the axes and
    body diagonals of a cube in space) and the linear and hybrid closures return its fourth moment. *)
Definition iso2 : odf :=
  [(1 / 4, vec2 1 0); (1 / 4, vec2 0 1); (1 / 4, vec2 (/ sqrt 2) (/ sqrt 2)); (1 / 4, vec2 (/ sqrt 2) (- / sqrt 2))].
Definition vec3 (x y z : R) : nat -> R := fun i => match i with O => x | S O => y | _ => z end.
Definition iso3 : odf :=
  let s := / sqrt 3 in
  [(2 / 15, vec3 1 0 0); (2 / 15, vec3 0 1 0); (2 / 15, vec3 0 0 1);
   (3 / 20, vec3 s s s); (3 / 20, vec3 s s (- s)); (3 / 20, vec3 s (- s) s); (3 / 20, vec3 (- s) s s)].
Definition iso (d : nat) : odf := if Nat.eqb d 2 then iso2 else iso3.
Lemma inv_sqrt n : 0 < n -> / sqrt n * / sqrt n = / n.
Proof. intros H. rewrite <- Rinv_mult, sqrt_sqrt by lra. reflexivity. Qed.

Theorem C69_isotropic d : d = 2%nat \/ d = 3%nat ->
  is_odf d (iso d) /\ eq2 d (moment2 (iso d)) (fun i j => / INR d * delta i j) /\
  (exists t, linear_closure d (moment2 (iso d)) = Some t /\ eq4 d t (moment4 (iso d))) /\
  (exists t, hybrid_closure d (moment2 (iso d)) = Some t /\ eq4 d t (moment4 (iso d))).
Proof.
  assert (M2 : eq2 2 (moment2 iso2) (fun i j => 1 / 2 * delta i j)).
  { pose proof (inv_sqrt 2 ltac:(lra)) as E. intros i j Hi Hj. unfold moment2, avg, iso2. cbn [fold_right fst snd].
    set (s := / sqrt 2) in *. clearbody s. idx i Hi; idx j Hj; unfold delta, vec2; cbn [Nat.eqb]; nra. }
  assert (M3 : eq2 3 (moment2 iso3) (fun i j => 1 / 3 * delta i j)).
  { pose proof (inv_sqrt 3 ltac:(lra)) as E. intros i j Hi Hj. unfold moment2, avg, iso3. cbv zeta. cbn [fold_right fst snd].
    set (s := / sqrt 3) in *. clearbody s. idx i Hi; idx j Hj; unfold delta, vec3; cbn [Nat.eqb]; nra. }
  assert (F2 : forall i j k l, (i < 2)%nat -> (j < 2)%nat -> (k < 2)%nat -> (l < 2)%nat ->
     moment4 iso2 i j k l = 1 / 8 * (delta i j * delta k l + delta i k * delta j l + delta i l * delta j k)).
  { pose proof (inv_sqrt 2 ltac:(lra)) as E. intros i j k l Hi Hj Hk Hl. unfold moment4, avg, iso2. cbn [fold_right fst snd].
    set (s := / sqrt 2) in *. clearbody s. 
    assert (E4 : s * s * s * s = 1 / 4) by (replace (s * s * s * s) with ((s * s) * (s * s)) by ring; rewrite E; field).
    idx i Hi; idx j Hj; idx k Hk; idx l Hl; unfold delta, vec2; cbn [Nat.eqb]; lra. }
  assert (F3 : forall i j k l, (i < 3)%nat -> (j < 3)%nat -> (k < 3)%nat -> (l < 3)%nat ->
     moment4 iso3 i j k l = 1 / 15 * (delta i j * delta k l + delta i k * delta j l + delta i l * delta j k)).
  { pose proof (inv_sqrt 3 ltac:(lra)) as E. intros i j k l Hi Hj Hk Hl. unfold moment4, avg, iso3. cbv zeta. cbn [fold_right fst snd].
    set (s := / sqrt 3) in *. clearbody s.
    assert (E4 : s * s * s * s = 1 / 9) by (replace (s * s * s * s) with ((s * s) * (s * s)) by ring; rewrite E; field).
    idx i Hi; idx j Hj; idx k Hk; idx l Hl; unfold delta, vec3; cbn [Nat.eqb]; lra. }
  intros [-> | ->]; unfold iso; cbn [Nat.eqb].
  - split; [|split; [|split]].
    + split.
      * pose proof (inv_sqrt 2 ltac:(lra)) as E. intros wp [<-|[<-|[<-|[<-|[]]]]]; cbn [fst snd rsum vec2]; (split; [lra|]); try rewrite Rmult_opp_opp; rewrite ?E; lra.
      * unfold avg, iso2. cbn [fold_right fst]. field.
    + intros i j Hi Hj. rewrite M2 by assumption. cbn [INR]. field.
    + eexists. split; [reflexivity|]. intros i j k l Hi Hj Hk Hl. rewrite F2 by assumption.
      unfold t4add, t4scale, es_ij_kl, es_kl_ij, es_ik_jl, es_il_jk, es_jk_il, es_jl_ik. rewrite !M2 by assumption. field.
    + eexists. split; [reflexivity|]. intros i j k l Hi Hj Hk Hl. rewrite F2 by assumption.
      unfold t4add, t4scale, quadratic_closure, es_ij_kl, es_kl_ij, es_ik_jl, es_il_jk, es_jk_il, es_jl_ik, det. rewrite !M2 by (assumption || lia).
      change (delta 0%nat 0%nat) with 1. change (delta 1%nat 1%nat) with 1. change (delta 0%nat 1%nat) with 0. change (delta 1%nat 0%nat) with 0. field.
  - split; [|split; [|split]].
    + split.
      * pose proof (inv_sqrt 3 ltac:(lra)) as E. intros wp [<-|[<-|[<-|[<-|[<-|[<-|[<-|[]]]]]]]]; cbn [fst snd rsum vec3]; (split; [lra|]); rewrite ?Rmult_opp_opp, ?E; lra.
      * unfold avg, iso3. cbn [fold_right fst]. field.
    + intros i j Hi Hj. rewrite M3 by assumption. cbn [INR]. field.
    + eexists. split; [reflexivity|]. intros i j k l Hi Hj Hk Hl. rewrite F3 by assumption.
      unfold t4add, t4scale, es_ij_kl, es_kl_ij, es_ik_jl, es_il_jk, es_jk_il, es_jl_ik. rewrite !M3 by assumption. field.
    + eexists. split; [reflexivity|]. intros i j k l Hi Hj Hk Hl. rewrite F3 by assumption.
      unfold t4add, t4scale, quadratic_closure, es_ij_kl, es_kl_ij, es_ik_jl, es_il_jk, es_jk_il, es_jl_ik, det. rewrite !M3 by (assumption || lia).
      change (delta 0%nat 0%nat) with 1. change (delta 1%nat 1%nat) with 1. change (delta 0%nat 1%nat) with 0. change (delta 1%nat 0%nat) with 0.
      change (delta 2%nat 2%nat) with 1. change (delta 0%nat 2%nat) with 0. change (delta 2%nat 0%nat) with 0. change (delta 1%nat 2%nat) with 0. change (delta 2%nat 1%nat) with 0. field.
Qed.
Print Assumptions C69_isotropic.

(** The linear closure of an aligned state has a negative fourth moment, so it belongs to no
    distribution. *)
Theorem C69_linear_aligned_inadmissible d t : d = 2%nat \/ d = 3%nat ->
  linear_closure d (fun i j => delta i 0%nat * delta j 0%nat) = Some t ->
  t 1%nat 1%nat 1%nat 1%nat < 0 /\ ~ exists F, is_odf d F /\ eq4 d (moment4 F) t.
Proof.
  intros Hd E. assert (N : t 1%nat 1%nat 1%nat 1%nat < 0).
  { unfold linear_closure, linear_coeffs in E. destruct Hd as [-> | ->]; injection E as <-;
      unfold t4add, t4scale, es_ij_kl, es_kl_ij, es_ik_jl, es_il_jk, es_jk_il, es_jl_ik, delta; cbn [Nat.eqb]; lra. }
  split; [exact N|]. intros (F & [H1 _] & H4).
  assert (0 <= moment4 F 1%nat 1%nat 1%nat 1%nat).
  { apply avg_nonneg; [intros wp Hin; apply (H1 wp Hin)|]. intros wp _.
    replace (snd wp 1%nat * snd wp 1%nat * snd wp 1%nat * snd wp 1%nat) with ((snd wp 1%nat * snd wp 1%nat) * (snd wp 1%nat * snd wp 1%nat)) by ring. apply sq0. }
  rewrite H4 in H by lia. lra.
Qed.
Print Assumptions C69_linear_aligned_inadmissible.

(** Determinant bounds of a positive semidefinite matrix. *)
Lemma psd_22 a b c : (forall x y, 0 <= a * (x * x) + 2 * (c * (x * y)) + b * (y * y)) -> 0 <= a /\ 0 <= b /\ c * c <= a * b.
Proof.
  intros H. assert (A : 0 <= a) by (specialize (H 1 0); lra). assert (B : 0 <= b) by (specialize (H 0 1); lra).
  split; [exact A|split; [exact B|]]. destruct (Req_dec a 0) as [->|Na].
  - pose proof (H (- (b + 1)) (2 * c)) as P. assert (c * c <= 0); [|lra]. nra.
  - pose proof (H (- c) a) as P. assert (0 < a) by lra. 
    assert (Q : 0 <= a * (a * b - c * c)) by lra. destruct (Rle_dec (c * c) (a * b)); [assumption|]. exfalso. nra.
Qed.
Lemma psd_33 a b c d e f : (forall x y z, 0 <= a * (x * x) + b * (y * y) + c * (z * z) + 2 * (d * (x * y)) + 2 * (e * (x * z)) + 2 * (f * (y * z))) ->
  0 <= a /\ 0 <= b /\ 0 <= c /\ 0 <= a * (b * c - f * f) - d * (d * c - f * e) + e * (d * f - b * e) <= a * b * c.
Proof.
  intros H. assert (A : 0 <= a) by (specialize (H 1 0 0); lra). assert (B : 0 <= b) by (specialize (H 0 1 0); lra).
  assert (C : 0 <= c) by (specialize (H 0 0 1); lra). split; [exact A|split; [exact B|split; [exact C|]]].
  destruct (psd_22 a b d) as (_ & _ & Hd); [intros x y; specialize (H x y 0); lra|].
  destruct (psd_22 a c e) as (_ & _ & He); [intros x z; specialize (H x 0 z); lra|].
  destruct (Req_dec a 0) as [->|Na].
  - assert (d = 0) by (apply sq_zero; pose proof (sq0 d); lra). assert (e = 0) by (apply sq_zero; pose proof (sq0 e); lra). subst. split; lra.
  - assert (P : 0 < a) by lra.
    set (B' := b - d * d / a). set (C' := c - e * e / a). set (F' := f - d * e / a).
    assert (HB : a * B' = a * b - d * d) by (unfold B'; field; lra). assert (HC : a * C' = a * c - e * e) by (unfold C'; field; lra).
    assert (HF : a * F' = a * f - d * e) by (unfold F'; field; lra).
    destruct (psd_22 B' C' F') as (PB & PC & PF).
    { intros y z. specialize (H (- (d * y + e * z) / a) y z).
      replace (B' * (y * y) + 2 * (F' * (y * z)) + C' * (z * z))
        with (a * (- (d * y + e * z) / a * (- (d * y + e * z) / a)) + b * (y * y) + c * (z * z)
          + 2 * (d * (- (d * y + e * z) / a * y)) + 2 * (e * (- (d * y + e * z) / a * z)) + 2 * (f * (y * z))) by (unfold B', C', F'; field; lra).
      exact H. }
    assert (Q : a * (b * c - f * f) - d * (d * c - f * e) + e * (d * f - b * e) = a * (B' * C' - F' * F')) by (unfold B', C', F'; field; lra).
    rewrite Q. split; [apply Rmult_le_pos; lra|].
    assert (LB : B' <= b) by (apply Rmult_le_reg_l with a; [exact P|]; rewrite HB; pose proof (sq0 d); lra).
    assert (LC : C' <= c) by (apply Rmult_le_reg_l with a; [exact P|]; rewrite HC; pose proof (sq0 e); lra).
    rewrite Rmult_assoc. apply Rmult_le_compat_l; [lra|].
    assert (B' * C' <= b * c) by (apply Rmult_le_compat; assumption). pose proof (sq0 F'). lra.
Qed.
Lemma amgm3 a b c : 0 <= a -> 0 <= b -> 0 <= c -> 27 * (a * b * c) <= (a + b + c) * (a + b + c) * (a + b + c).
Proof.
  intros A B C.
  pose proof (Rmult_le_pos _ _ A (sq0 (b - c))). pose proof (Rmult_le_pos _ _ B (sq0 (a - c))). pose proof (Rmult_le_pos _ _ C (sq0 (a - b))).
  pose proof (Rmult_le_pos _ _ A (sq0 (a - b))). pose proof (Rmult_le_pos _ _ A (sq0 (a - c))). pose proof (Rmult_le_pos _ _ B (sq0 (b - a))).
  pose proof (Rmult_le_pos _ _ B (sq0 (b - c))). pose proof (Rmult_le_pos _ _ C (sq0 (c - a))). pose proof (Rmult_le_pos _ _ C (sq0 (c - b))).
  nra.
Qed.

(** Hybrid closure: a convex combination of the other two for every positive semidefinite [a2] of trace
    at most one; the quadratic closure for an aligned state; contraction [a2] for unit trace. *)
Theorem C69_hybrid d (a : T2) : d = 2%nat \/ d = 3%nat ->
  exists f t lin, linear_closure d a = Some lin /\ hybrid_closure d a = Some t /\ f = 1 - INR d ^ d * det d a /\
    (forall i j k l, t i j k l = (1 - f) * lin i j k l + f * quadratic_closure a i j k l) /\
    (psd2 d a -> trace d a <= 1 -> 0 <= f <= 1) /\
    (forall p, eq2 d a (fun i j => p i * p j) -> f = 1 /\ eq4 d t (quadratic_closure a)) /\
    (symm2 d a -> trace d a = 1 -> eq2 d (contract d t) a).
Proof.
  intros Hd.
  assert (L : exists lin, linear_closure d a = Some lin) by (destruct Hd as [-> | ->]; eexists; reflexivity).
  destruct L as [lin EL].
  exists (1 - (match d with 2%nat => 4 | _ => 27 end) * det d a),
    (t4add (t4scale (1 - (1 - (match d with 2%nat => 4 | _ => 27 end) * det d a)) lin)
       (t4scale (1 - (match d with 2%nat => 4 | _ => 27 end) * det d a) (quadratic_closure a))), lin.
  split; [exact EL|]. split; [unfold hybrid_closure, hybrid_det_scale; rewrite EL; destruct Hd as [-> | ->]; reflexivity|].
  split; [destruct Hd as [-> | ->]; cbn [INR pow]; ring|].
  split; [intros; reflexivity|].
  assert (R1 : forall p, eq2 d a (fun i j => p i * p j) -> det d a = 0).
  { intros p Hp. destruct Hd as [-> | ->]; unfold det; rewrite !Hp by lia; ring. }
  split; [|split].
  - intros [S P] T. destruct Hd as [-> | ->]; unfold det, trace in *; cbn [rsum] in *.
    + pose proof (S 1%nat 0%nat ltac:(lia) ltac:(lia)) as S10. rewrite S10.
      destruct (psd_22 (a 0%nat 0%nat) (a 1%nat 1%nat) (a 0%nat 1%nat)) as (A & B & C).
      { intros x y. specialize (P (vec2 x y)). cbn [rsum vec2] in P. rewrite S10 in P. lra. }
      pose proof (sq0 (a 0%nat 0%nat - a 1%nat 1%nat)). pose proof (sq0 (a 0%nat 1%nat)). split; nra.
    + pose proof (S 1%nat 0%nat ltac:(lia) ltac:(lia)) as S10. pose proof (S 2%nat 0%nat ltac:(lia) ltac:(lia)) as S20.
      pose proof (S 2%nat 1%nat ltac:(lia) ltac:(lia)) as S21. rewrite S10, S20, S21.
      destruct (psd_33 (a 0%nat 0%nat) (a 1%nat 1%nat) (a 2%nat 2%nat) (a 0%nat 1%nat) (a 0%nat 2%nat) (a 1%nat 2%nat)) as (A & B & C & D1 & D2).
      { intros x y z. specialize (P (vec3 x y z)). cbn [rsum vec3] in P. rewrite S10, S20, S21 in P. lra. }
      pose proof (amgm3 _ _ _ A B C) as G.
      set (s := a 0%nat 0%nat + a 1%nat 1%nat + a 2%nat 2%nat) in *.
      assert (Hs : 0 <= s <= 1) by (unfold s; lra). assert (s * s <= 1) by nra. assert (s * s * s <= 1) by nra. split; lra.
  - intros p Hp. rewrite (R1 p Hp). split; [ring|]. intros i j k l _ _ _ _. unfold t4add, t4scale. ring.
  - intros S T. destruct (C69_linear d a) as [_ HL]. destruct (HL lin EL S) as (_ & _ & Hc). specialize (Hc T).
    intros i j Hi Hj. destruct (C69_quadratic d a) as (_ & Hq & _). specialize (Hq i j). rewrite T in Hq. specialize (Hc i j Hi Hj).
    unfold contract in *. unfold t4add, t4scale. rewrite rsum_add, !rsum_scale, Hc, Hq. ring.
Qed.
Print Assumptions C69_hybrid.

(** ** The closure-free construction in two dimensions *)
Definition tri (c2 s2 c4 s4 : R) : T4 :=
  let f1111 := (3 + 4 * c2 + c4) / 8 in let f2222 := (3 - 4 * c2 + c4) / 8 in
  let f1122 := (1 - c4) / 8 in let f1112 := (2 * s2 + s4) / 8 in let f1222 := (2 * s2 - s4) / 8 in
  fun i j k l => match (i + j + k + l)%nat with
    | 0%nat => f1111 | 1%nat => f1112 | 2%nat => f1122 | 3%nat => f1222 | _ => f2222 end.
Definition nu_c (a : T2) (eps : R) : R := (a 0%nat 0%nat - a 1%nat 1%nat) / (a 0%nat 0%nat + a 1%nat 1%nat + eps).
Definition nu_s (a : T2) (eps : R) : R := 2 * a 0%nat 1%nat / (a 0%nat 0%nat + a 1%nat 1%nat + eps).

Lemma build_tri a y1 y2 eps : let c := nu_c a eps in let s := nu_s a eps in
  eq4 2 (build_a4_2d a y1 y2 eps) (fun i j k l => trace 2 a *
    tri c s (c * c - s * s + y1 * (1 - (c * c + s * s))) (2 * (c * s) + y2 * (1 - (c * c + s * s))) i j k l).
Proof.
  cbv zeta. intros i j k l Hi Hj Hk Hl. unfold build_a4_2d, tri, trace. cbn [rsum].
  fold (nu_c a eps) (nu_s a eps). generalize (nu_c a eps) (nu_s a eps). intros c s.
  idx i Hi; idx j Hj; idx k Hk; idx l Hl; cbn [nth Nat.add]; field.
Qed.

Lemma trig4 p : unit2 p -> eq4 2 (fun i j k l => p i * p j * p k * p l) (tri (C2 p) (S2 p) (C4 p) (S4 p)).
Proof.
  intros U i j k l Hi Hj Hk Hl. unfold unit2 in U. cbn [rsum] in U. unfold tri, C4, S4, C2, S2.
  set (x := p 0%nat) in *. set (y := p 1%nat) in *.
  assert (U' : x * x = 1 - y * y) by lra.
  assert (X4 : x * x * x * x = (1 - y * y) * (1 - y * y)) by (rewrite <- U'; ring).
  assert (X3 : x * x * x * y = (1 - y * y) * x * y) by (rewrite <- U'; ring).
  assert (X2 : x * x * (y * y) = (1 - y * y) * (y * y)) by (rewrite <- U'; ring).
  idx i Hi; idx j Hj; idx k Hk; idx l Hl; fold x y; cbn [Nat.add]; nra.
Qed.

Lemma tri_ext c2 s2 c4 s4 c2' s2' c4' s4' : c2 = c2' -> s2 = s2' -> c4 = c4' -> s4 = s4' -> tri c2 s2 c4 s4 = tri c2' s2' c4' s4'.
Proof. intros -> -> -> ->. reflexivity. Qed.

Lemma moment4_tri F : is_odf 2 F -> eq4 2 (moment4 F) (tri (avg F C2) (avg F S2) (avg F C4) (avg F S4)).
Proof.
  intros [H1 H2] i j k l Hi Hj Hk Hl. unfold moment4.
  assert (HC : forall c, avg F (fun _ => c) = c) by (intros c; rewrite avg_const, H2; ring).
  rewrite (avg_ext F _ (fun p => tri (C2 p) (S2 p) (C4 p) (S4 p) i j k l)) by (intros wp Hin; apply (trig4 (snd wp)); try assumption; apply (H1 wp Hin)).
  idx i Hi; idx j Hj; idx k Hk; idx l Hl; unfold tri; cbn [Nat.add]; unfold Rdiv; rewrite avg_scale_r; f_equal;
    rewrite ?avg_add, ?avg_sub, ?avg_scale, ?avg_add, ?avg_sub, ?avg_scale, ?HC; ring.
Qed.
Lemma moment2_trig F : is_odf 2 F -> eq2 2 (moment2 F) (fun i j => match (i + j)%nat with
  | 0%nat => (1 + avg F C2) / 2 | 1%nat => avg F S2 / 2 | _ => (1 - avg F C2) / 2 end).
Proof.
  intros [H1 H2] i j Hi Hj. unfold moment2.
  assert (E : forall wp, In wp F -> snd wp 0%nat * snd wp 0%nat + snd wp 1%nat * snd wp 1%nat = 1).
  { intros wp Hin. destruct (H1 wp Hin) as [_ U]. cbn [rsum] in U. lra. }
  idx i Hi; idx j Hj; cbn [Nat.add]; unfold Rdiv.
  - rewrite <- H2, <- avg_add, <- avg_scale_r. apply avg_ext. intros wp Hin. specialize (E wp Hin). unfold C2. lra.
  - rewrite <- avg_scale_r. apply avg_ext. intros. unfold S2. lra.
  - rewrite <- avg_scale_r. apply avg_ext. intros. unfold S2. lra.
  - rewrite <- H2, <- avg_sub, <- avg_scale_r. apply avg_ext. intros wp Hin. specialize (E wp Hin). unfold C2. lra.
Qed.

(** Full symmetry, and the contraction: the deviator of [a2] is scaled by [tau / (tau + eps)]; exact for
    [eps = 0]. *)
Theorem C69_build_symmetric_contraction a y1 y2 eps : symm2 2 a ->
  trace 2 a + eps <> 0 ->
  let t := build_a4_2d a y1 y2 eps in
  fully_symmetric 2 t /\
  eq2 2 (contract 2 t) (fun i j => trace 2 a / 2 * delta i j + trace 2 a / (trace 2 a + eps) * (a i j - trace 2 a / 2 * delta i j)) /\
  (eps = 0 -> eq2 2 (contract 2 t) a).
Proof.
  intros S Hn. cbv zeta.
  assert (Cn : eq2 2 (contract 2 (build_a4_2d a y1 y2 eps))
    (fun i j => trace 2 a / 2 * delta i j + trace 2 a / (trace 2 a + eps) * (a i j - trace 2 a / 2 * delta i j))).
  { pose proof (S 1%nat 0%nat ltac:(lia) ltac:(lia)) as S10.
    intros i j Hi Hj. unfold contract. cbn [rsum]. rewrite !build_tri by lia.
    assert (Hc : nu_c a eps = (a 0%nat 0%nat - a 1%nat 1%nat) / (trace 2 a + eps)) by (unfold nu_c, trace; cbn [rsum]; f_equal; ring).
    assert (Hs : nu_s a eps = 2 * a 0%nat 1%nat / (trace 2 a + eps)) by (unfold nu_s, trace; cbn [rsum]; f_equal; ring).
    rewrite Hc, Hs. assert (Ht : a 1%nat 1%nat = trace 2 a - a 0%nat 0%nat) by (unfold trace; cbn [rsum]; ring).
    set (tau := trace 2 a) in *. clearbody tau.
    idx i Hi; idx j Hj; unfold tri, delta; cbn [Nat.add Nat.eqb]; rewrite ?S10, ?Ht; field; exact Hn. }
  split; [|split; [exact Cn|]].
  - intros i j k l Hi Hj Hk Hl. rewrite !build_tri by assumption. unfold tri.
    rewrite (Nat.add_comm j i), <- (Nat.add_assoc i k j), (Nat.add_comm k j), (Nat.add_assoc i j k),
      <- (Nat.add_assoc (i + j) l k), (Nat.add_comm l k), (Nat.add_assoc (i + j) k l). repeat split; reflexivity.
  - intros -> i j Hi Hj. rewrite Cn by assumption. field. lra.
Qed.
Print Assumptions C69_build_symmetric_contraction.

(** FINDING: with the default [eps > 0] the contraction identity is not exact. *)
Theorem C69_build_contraction_refuted eps : 0 < eps ->
  ~ (forall a y1 y2, psd2 2 a -> trace 2 a <= 1 -> eq2 2 (contract 2 (build_a4_2d a y1 y2 eps)) a).
Proof.
  intros He H. specialize (H (fun i j => delta i 0%nat * delta j 0%nat) 0 0).
  assert (P : psd2 2 (fun i j => delta i 0%nat * delta j 0%nat)).
  { split; [intros i j _ _; ring|]. intros x. cbn [rsum]. unfold delta. cbn [Nat.eqb]. pose proof (sq0 (x 0%nat)). lra. }
  assert (T : trace 2 (fun i j => delta i 0%nat * delta j 0%nat) = 1) by (unfold trace, delta; cbn [rsum Nat.eqb]; ring).
  specialize (H P ltac:(lra) 0%nat 0%nat ltac:(lia) ltac:(lia)).
  destruct (C69_build_symmetric_contraction _ 0 0 eps (proj1 P)) as (_ & Hc & _); [lra|].
  rewrite (Hc 0%nat 0%nat ltac:(lia) ltac:(lia)), T in H. unfold delta in H. cbn [Nat.eqb] in H.
  assert (E : 1 / (1 + eps) * (1 + eps) = 1) by (field; lra). nra.
Qed.
Print Assumptions C69_build_contraction_refuted.

Lemma psd_nu a eps : psd2 2 a -> 0 < trace 2 a -> 0 <= eps -> nu_c a eps * nu_c a eps + nu_s a eps * nu_s a eps <= 1.
Proof.
  intros [S P] T He. pose proof (S 1%nat 0%nat ltac:(lia) ltac:(lia)) as S10.
  destruct (psd_22 (a 0%nat 0%nat) (a 1%nat 1%nat) (a 0%nat 1%nat)) as (A & B & C).
  { intros x y. specialize (P (vec2 x y)). cbn [rsum vec2] in P. rewrite S10 in P. lra. }
  unfold trace in T. cbn [rsum] in T. unfold nu_c, nu_s.
  set (x := a 0%nat 0%nat) in *. set (y := a 1%nat 1%nat) in *. set (z := a 0%nat 1%nat) in *. clearbody x y z.
  assert (Q : 0 < x + y + eps) by lra.
  replace ((x - y) / (x + y + eps) * ((x - y) / (x + y + eps)) + 2 * z / (x + y + eps) * (2 * z / (x + y + eps)))
    with (((x - y) * (x - y) + 4 * (z * z)) / ((x + y + eps) * (x + y + eps))) by (field; lra).
  apply Rmult_le_reg_r with ((x + y + eps) * (x + y + eps)); [nra|].
  unfold Rdiv. rewrite Rmult_assoc, Rinv_l by nra. nra.
Qed.

(** Two parallel fibres families realise a Schur coefficient on the unit circle. *)
Lemma realise_circle n1 n2 r1 r2 : n1 * n1 + n2 * n2 <= 1 -> r1 * r1 + r2 * r2 = 1 ->
  exists F, is_odf 2 F /\ avg F C2 = n1 /\ avg F S2 = n2 /\
    avg F C4 = n1 * n1 - n2 * n2 + r1 * (1 - (n1 * n1 + n2 * n2)) /\
    avg F S4 = 2 * (n1 * n2) + r2 * (1 - (n1 * n1 + n2 * n2)).
Proof.
  intros Hn Hr. destruct (half_angle r1 r2 Hr) as (e1 & e2 & He & E1 & E2).
  destruct (chord n1 n2 e1 e2 Hn He) as (l & u1 & u2 & v1 & v2 & Hl & Hu & Hv & M1 & M2 & M3 & M4).
  destruct (half_angle u1 u2 Hu) as (p1 & p2 & Hp & P1 & P2). destruct (half_angle v1 v2 Hv) as (q1 & q2 & Hq & Q1 & Q2).
  exists [(l, vec2 p1 p2); (1 - l, vec2 q1 q2)].
  assert (A : forall g, avg [(l, vec2 p1 p2); (1 - l, vec2 q1 q2)] g = l * g (vec2 p1 p2) + (1 - l) * g (vec2 q1 q2)).
  { intros g. unfold avg. cbn [fold_right fst snd]. ring. }
  rewrite !A. unfold C4, S4, C2, S2. cbn [vec2]. rewrite P1, P2, Q1, Q2.
  rewrite E1 in M3. rewrite E2 in M4.
  split; [|repeat split; lra].
  split; [|rewrite A; ring]. intros wp [<-|[<-|[]]]; cbn [fst snd rsum vec2]; split; lra.
Qed.

(** Admissibility: for every positive semidefinite [a2], every [(y1, y2)] in the unit disk and every
    [eps >= 0] there is a fibre distribution with fourth moment [a4 / tau]; its second moment is [a2 / tau]
    with the deviator scaled by [tau / (tau + eps)]. *)
Theorem C69_build_admissible a y1 y2 eps : psd2 2 a -> 0 < trace 2 a -> 0 <= eps -> y1 * y1 + y2 * y2 <= 1 ->
  exists F, is_odf 2 F /\
    eq4 2 (build_a4_2d a y1 y2 eps) (fun i j k l => trace 2 a * moment4 F i j k l) /\
    eq2 2 (moment2 F) (fun i j => / 2 * delta i j + / (trace 2 a + eps) * (a i j - trace 2 a / 2 * delta i j)) /\
    (eps = 0 -> eq2 2 a (fun i j => trace 2 a * moment2 F i j)).
Proof.
  intros Ha Ht He Hy. pose proof (psd_nu a eps Ha Ht He) as Hn.
  set (c := nu_c a eps). set (s := nu_s a eps). fold c s in Hn.
  assert (X : exists F, is_odf 2 F /\ avg F C2 = c /\ avg F S2 = s /\ avg F C4 = c * c - s * s + y1 * (1 - (c * c + s * s)) /\
    avg F S4 = 2 * (c * s) + y2 * (1 - (c * c + s * s))).
  { (* y = r e with e on the circle, a mixture of e and -e *)
    assert (Y : exists r e1 e2, 0 <= r <= 1 /\ e1 * e1 + e2 * e2 = 1 /\ y1 = r * e1 /\ y2 = r * e2).
    { destruct (Req_dec (y1 * y1 + y2 * y2) 0) as [Z|Z].
      - exists 0, 1, 0. pose proof (sq0 y1). pose proof (sq0 y2).
        assert (y1 = 0) by (apply sq_zero; lra). assert (y2 = 0) by (apply sq_zero; lra). subst. repeat split; lra.
      - assert (P : 0 < y1 * y1 + y2 * y2) by (pose proof (sq0 y1); pose proof (sq0 y2); lra).
        pose proof (sqrt_lt_R0 _ P) as RP. pose proof (sqrt_sqrt _ (Rlt_le _ _ P)) as RR.
        set (r := sqrt (y1 * y1 + y2 * y2)) in *. clearbody r.
        exists r, (y1 / r), (y2 / r). split; [split; nra|]. split.
        + replace (y1 / r * (y1 / r) + y2 / r * (y2 / r)) with ((y1 * y1 + y2 * y2) / (r * r)) by (field; lra). rewrite RR. field. lra.
        + split; field; lra. }
    destruct Y as (r & e1 & e2 & Hr & Hee & -> & ->).
    destruct (realise_circle c s e1 e2 Hn Hee) as (F & HF & F1 & F2 & F3 & F4).
    destruct (realise_circle c s (- e1) (- e2) Hn ltac:(lra)) as (G & HG & G1 & G2 & G3 & G4).
    exists (wscale ((1 + r) / 2) F ++ wscale ((1 - r) / 2) G).
    assert (A : forall g, avg (wscale ((1 + r) / 2) F ++ wscale ((1 - r) / 2) G) g = (1 + r) / 2 * avg F g + (1 - r) / 2 * avg G g).
    { intros g. rewrite avg_app, !avg_wscale. reflexivity. }
    rewrite !A, F1, F2, F3, F4, G1, G2, G3, G4. split; [|repeat split; field].
    destruct HF as [HF1 HF2]. destruct HG as [HG1 HG2]. split; [|rewrite A, HF2, HG2; field].
    intros wp Hin. apply in_app_or in Hin. unfold wscale in Hin. destruct Hin as [Hin|Hin]; apply in_map_iff in Hin;
      destruct Hin as (wq & <- & Hin); cbn [fst snd]; [destruct (HF1 wq Hin) as [W U]|destruct (HG1 wq Hin) as [W U]];
      (split; [apply Rmult_le_pos; [lra|exact W]|exact U]). }
  destruct X as (F & HF & X1 & X2 & X3 & X4). exists F. split; [exact HF|].
  assert (M2 : eq2 2 (moment2 F) (fun i j => / 2 * delta i j + / (trace 2 a + eps) * (a i j - trace 2 a / 2 * delta i j))).
  { intros i j Hi Hj. rewrite moment2_trig by assumption. rewrite X1, X2. unfold c, s, nu_c, nu_s.
    pose proof (proj1 Ha 1%nat 0%nat ltac:(lia) ltac:(lia)) as S10. unfold trace in *. cbn [rsum] in *.
    idx i Hi; idx j Hj; unfold delta; cbn [Nat.add Nat.eqb]; rewrite ?S10; field; lra. }
  split; [|split; [exact M2|]].
  - intros i j k l Hi Hj Hk Hl. rewrite build_tri, moment4_tri by assumption. cbv zeta. fold c s.
    rewrite X1, X2, X3, X4. reflexivity.
  - intros E0 i j Hi Hj. rewrite M2 by assumption. subst eps. field. lra.
Qed.
Print Assumptions C69_build_admissible.

Lemma avg_lin3 F g1 g2 g3 a b c : avg F (fun _ => 1) = 1 ->
  avg F (fun p => g1 p + a * g2 p + b * g3 p + c) = avg F g1 + a * avg F g2 + b * avg F g3 + c.
Proof. intros H. rewrite avg_add, avg_add, avg_add, (avg_scale F a g2), (avg_scale F b g3), avg_const, H. ring. Qed.

(** The variance bound [|nu2 - nu1^2| <= 1 - |nu1|^2] of every distribution on the circle. *)
Lemma circle_variance F : is_odf 2 F -> let n1 := avg F C2 in let n2 := avg F S2 in
  let k1 := avg F C4 - (n1 * n1 - n2 * n2) in let k2 := avg F S4 - 2 * (n1 * n2) in
  0 <= 1 - (n1 * n1 + n2 * n2) /\ k1 * k1 + k2 * k2 <= (1 - (n1 * n1 + n2 * n2)) * (1 - (n1 * n1 + n2 * n2)).
Proof.
  intros [H1 H2]. cbv zeta. set (n1 := avg F C2). set (n2 := avg F S2).
  assert (W : forall wp, In wp F -> 0 <= fst wp) by (intros wp Hin; apply (H1 wp Hin)).
  assert (U : forall wp, In wp F -> C2 (snd wp) * C2 (snd wp) + S2 (snd wp) * S2 (snd wp) = 1) by (intros wp Hin; apply unit2_trig, (H1 wp Hin)).
  assert (HC : forall c, avg F (fun _ => c) = c) by (intros c; rewrite avg_const, H2; ring).
  set (g := 1 - (n1 * n1 + n2 * n2)).
  assert (V : avg F (fun p => (C2 p - n1) * (C2 p - n1) + (S2 p - n2) * (S2 p - n2)) = g).
  { transitivity (avg F (fun p => (1 + (n1 * n1 + n2 * n2)) - (2 * n1) * C2 p - (2 * n2) * S2 p)).
    - apply avg_ext. intros wp Hin. specialize (U wp Hin). lra.
    - rewrite !avg_sub, !avg_scale, HC. unfold g, n1, n2. ring. }
  set (k1 := avg F C4 - (n1 * n1 - n2 * n2)). set (k2 := avg F S4 - 2 * (n1 * n2)).
  assert (K1 : avg F (fun p => (C2 p - n1) * (C2 p - n1) - (S2 p - n2) * (S2 p - n2)) = k1).
  { transitivity (avg F (fun p => C4 p + (- 2 * n1) * C2 p + (2 * n2) * S2 p + (n1 * n1 - n2 * n2))).
    - apply avg_ext. intros. unfold C4. ring.
    - rewrite (avg_lin3 F C4 C2 S2) by exact H2. unfold k1, n1, n2. ring. }
  assert (K2 : avg F (fun p => 2 * ((C2 p - n1) * (S2 p - n2))) = k2).
  { transitivity (avg F (fun p => S4 p + (- 2 * n1) * S2 p + (- 2 * n2) * C2 p + 2 * (n1 * n2))).
    - apply avg_ext. intros. unfold S4. ring.
    - rewrite (avg_lin3 F S4 S2 C2) by exact H2. unfold k2, n1, n2. ring. }
  assert (G : 0 <= g).
  { rewrite <- V. apply avg_nonneg; [exact W|]. intros wp _. pose proof (sq0 (C2 (snd wp) - n1)). pose proof (sq0 (S2 (snd wp) - n2)). lra. }
  split; [exact G|].
  (* for every unit vector e: e . k <= g *)
  assert (B : forall e1 e2, e1 * e1 + e2 * e2 = 1 -> e1 * k1 + e2 * k2 <= g).
  { intros e1 e2 He. rewrite <- K1, <- K2, <- V, <- !avg_scale, <- avg_add.
    assert (N : 0 <= avg F (fun p => ((C2 p - n1) * (C2 p - n1) + (S2 p - n2) * (S2 p - n2))
       - (e1 * ((C2 p - n1) * (C2 p - n1) - (S2 p - n2) * (S2 p - n2)) + e2 * (2 * ((C2 p - n1) * (S2 p - n2)))))).
    { apply avg_nonneg; [exact W|]. intros wp _. generalize (C2 (snd wp) - n1) (S2 (snd wp) - n2). intros x y.
      destruct (half_angle e1 e2 He) as (h1 & h2 & Hh & E1 & E2). rewrite <- E1, <- E2.
      replace (x * x + y * y - ((h1 * h1 - h2 * h2) * (x * x - y * y) + 2 * (h1 * h2) * (2 * (x * y))))
        with ((1 - (h1 * h1 + h2 * h2)) * (x * x + y * y) + 2 * ((h2 * x - h1 * y) * (h2 * x - h1 * y))) by ring.
      rewrite Hh. pose proof (sq0 (h2 * x - h1 * y)). lra. }
    rewrite avg_sub in N. lra. }
  destruct (Req_dec (k1 * k1 + k2 * k2) 0) as [Z|Z]; [rewrite Z; apply sq0|].
  assert (P : 0 < k1 * k1 + k2 * k2) by (pose proof (sq0 k1); pose proof (sq0 k2); lra).
  pose proof (sqrt_lt_R0 _ P) as RP. pose proof (sqrt_sqrt _ (Rlt_le _ _ P)) as RR.
  set (r := sqrt (k1 * k1 + k2 * k2)) in *. clearbody r.
  specialize (B (k1 / r) (k2 / r)).
  assert (Q1 : k1 / r * (k1 / r) + k2 / r * (k2 / r) = 1).
  { replace (k1 / r * (k1 / r) + k2 / r * (k2 / r)) with ((k1 * k1 + k2 * k2) / (r * r)) by (field; lra). rewrite RR. field. lra. }
  specialize (B Q1).
  replace (k1 / r * k1 + k2 / r * k2) with r in B.
  2:{ replace (k1 / r * k1 + k2 / r * k2) with ((k1 * k1 + k2 * k2) / r) by (field; lra). rewrite <- RR. field. lra. }
  rewrite <- RR. apply Rmult_le_compat; lra.
Qed.

Lemma nu_of_moment F tau : is_odf 2 F -> 0 < tau -> let a := fun i j => tau * moment2 F i j in
  trace 2 a = tau /\ nu_c a 0 = avg F C2 /\ nu_s a 0 = avg F S2.
Proof.
  intros HF Ht. cbv zeta. unfold nu_c, nu_s, trace. cbn [rsum]. rewrite !(moment2_trig F HF) by lia. cbn [Nat.add].
  generalize (avg F C2) (avg F S2). intros c s. repeat split; field; try lra.
Qed.

(** The parameters sweep the whole admissible region: the fourth moment of every distribution is
    obtained from its second moment with some [(y1, y2)] in the unit disk, at every fibre content. *)
Theorem C69_build_sweeps F tau : is_odf 2 F -> 0 < tau ->
  exists y1 y2, y1 * y1 + y2 * y2 <= 1 /\
    eq4 2 (build_a4_2d (fun i j => tau * moment2 F i j) y1 y2 0) (fun i j k l => tau * moment4 F i j k l).
Proof.
  intros HF Ht. destruct (circle_variance F HF) as [G K]. cbv zeta in G, K.
  destruct (nu_of_moment F tau HF Ht) as (T & N1 & N2). cbv zeta in *.
  set (n1 := avg F C2) in *. set (n2 := avg F S2) in *. set (g := 1 - (n1 * n1 + n2 * n2)) in *.
  set (k1 := avg F C4 - (n1 * n1 - n2 * n2)) in *. set (k2 := avg F S4 - 2 * (n1 * n2)) in *.
  assert (Y : exists y1 y2, y1 * y1 + y2 * y2 <= 1 /\ y1 * g = k1 /\ y2 * g = k2).
  { destruct (Req_dec g 0) as [Z|Z].
    - rewrite Z in K. pose proof (sq0 k1). pose proof (sq0 k2).
      assert (k1 = 0) by (apply sq_zero; lra). assert (k2 = 0) by (apply sq_zero; lra).
      exists 0, 0. repeat split; lra.
    - assert (P : 0 < g) by lra. exists (k1 / g), (k2 / g). split; [|split; field; lra].
      replace (k1 / g * (k1 / g) + k2 / g * (k2 / g)) with ((k1 * k1 + k2 * k2) / (g * g)) by (field; lra).
      apply Rmult_le_reg_r with (g * g); [nra|]. unfold Rdiv. rewrite Rmult_assoc, Rinv_l by nra. lra. }
  destruct Y as (y1 & y2 & Hy & E1 & E2). exists y1, y2. split; [exact Hy|].
  intros i j k l Hi Hj Hk Hl. rewrite build_tri, (moment4_tri F HF) by assumption. cbv zeta. rewrite T, N1, N2. f_equal.
  fold g. rewrite E1, E2.
  rewrite (tri_ext n1 n2 (n1 * n1 - n2 * n2 + k1) (2 * (n1 * n2) + k2) n1 n2 (avg F C4) (avg F S4)) by (reflexivity || (unfold k1, k2; ring)).
  reflexivity.
Qed.
Print Assumptions C69_build_sweeps.

(** Outside the disk nothing is admissible, unless [a2] is rank one. *)
Theorem C69_build_admissible_iff a y1 y2 : psd2 2 a -> 0 < trace 2 a -> 0 < det 2 a ->
  ((exists F, is_odf 2 F /\ eq2 2 a (fun i j => trace 2 a * moment2 F i j) /\
      eq4 2 (build_a4_2d a y1 y2 0) (fun i j k l => trace 2 a * moment4 F i j k l))
   <-> y1 * y1 + y2 * y2 <= 1).
Proof.
  intros Ha Ht Hd. split.
  - intros (F & HF & E2 & E4). destruct (circle_variance F HF) as [G K]. cbv zeta in G, K.
    pose proof (proj1 Ha 1%nat 0%nat ltac:(lia) ltac:(lia)) as S10.
    set (tau := trace 2 a) in *.
    assert (N1 : nu_c a 0 = avg F C2).
    { unfold nu_c. rewrite !E2 by lia. rewrite !(moment2_trig F HF) by lia. cbn [Nat.add]. field. lra. }
    assert (N2 : nu_s a 0 = avg F S2).
    { unfold nu_s. rewrite !E2 by lia. rewrite !(moment2_trig F HF) by lia. cbn [Nat.add]. field. lra. }
    set (n1 := avg F C2) in *. set (n2 := avg F S2) in *. set (g := 1 - (n1 * n1 + n2 * n2)) in *.
    assert (Gd : det 2 a = tau * tau / 4 * g).
    { unfold det. rewrite !E2 by lia. rewrite !(moment2_trig F HF) by lia. cbn [Nat.add]. fold n1 n2. unfold g. field. }
    assert (P : 0 < g) by (rewrite Gd in Hd; nra).
    assert (X : forall i j k l, (i < 2)%nat -> (j < 2)%nat -> (k < 2)%nat -> (l < 2)%nat ->
       tri n1 n2 (n1 * n1 - n2 * n2 + y1 * g) (2 * (n1 * n2) + y2 * g) i j k l = tri n1 n2 (avg F C4) (avg F S4) i j k l).
    { intros i j k l Hi Hj Hk Hl. apply (Rmult_eq_reg_l tau); [|lra].
      rewrite <- (moment4_tri F HF) by assumption. rewrite <- E4 by assumption. rewrite build_tri by assumption. cbv zeta.
      rewrite N1, N2. reflexivity. }
    pose proof (X 0%nat 0%nat 0%nat 0%nat ltac:(lia) ltac:(lia) ltac:(lia) ltac:(lia)) as X1.
    pose proof (X 0%nat 0%nat 0%nat 1%nat ltac:(lia) ltac:(lia) ltac:(lia) ltac:(lia)) as X2.
    unfold tri in X1, X2. cbn [Nat.add] in X1, X2.
    replace (avg F C4 - (n1 * n1 - n2 * n2)) with (y1 * g) in K by lra.
    replace (avg F S4 - 2 * (n1 * n2)) with (y2 * g) in K by lra.
    apply Rmult_le_reg_r with (g * g); [nra|]. lra.
  - intros Hy. destruct (C69_build_admissible a y1 y2 0 Ha Ht ltac:(lra) Hy) as (F & HF & E4 & _ & E2).
    exists F. split; [exact HF|]. split; [apply E2; reflexivity|exact E4].
Qed.
Print Assumptions C69_build_admissible_iff.

(** Rank one: the result is [tau n^4] whatever the parameters; an empty element gives zero. *)
Theorem C69_build_limits :
  (forall n tau y1 y2, unit2 n -> 0 < tau ->
     eq4 2 (build_a4_2d (fun i j => tau * (n i * n j)) y1 y2 0) (fun i j k l => tau * (n i * n j * n k * n l))) /\
  (forall a y1 y2 eps, trace 2 a = 0 -> eq4 2 (build_a4_2d a y1 y2 eps) (fun _ _ _ _ => 0)).
Proof.
  split.
  - intros n tau y1 y2 U Ht i j k l Hi Hj Hk Hl. rewrite build_tri by assumption. cbv zeta.
    rewrite (trig4 n U i j k l) by assumption.
    pose proof (unit2_trig n U) as V. unfold unit2 in U. cbn [rsum] in U.
    assert (T : trace 2 (fun i j => tau * (n i * n j)) = tau).
    { unfold trace. cbn [rsum]. replace (0 + tau * (n 0%nat * n 0%nat) + tau * (n 1%nat * n 1%nat)) with (tau * (0 + n 0%nat * n 0%nat + n 1%nat * n 1%nat)) by ring. rewrite U. ring. }
    assert (D : tau * (n 0%nat * n 0%nat) + tau * (n 1%nat * n 1%nat) + 0 = tau) by (unfold trace in T; cbn [rsum] in T; lra).
    assert (N1 : nu_c (fun i j => tau * (n i * n j)) 0 = C2 n) by (unfold nu_c; rewrite D; unfold C2; field; lra).
    assert (N2 : nu_s (fun i j => tau * (n i * n j)) 0 = S2 n) by (unfold nu_s; rewrite D; unfold S2; field; lra).
    rewrite T, N1, N2, V. unfold C4, S4. f_equal.
    rewrite (tri_ext (C2 n) (S2 n) (C2 n * C2 n - S2 n * S2 n + y1 * (1 - 1)) (2 * (C2 n * S2 n) + y2 * (1 - 1))
      (C2 n) (S2 n) (C2 n * C2 n - S2 n * S2 n) (2 * (C2 n * S2 n))) by ring. reflexivity.
  - intros a y1 y2 eps T i j k l Hi Hj Hk Hl. rewrite build_tri, T by assumption. ring.
Qed.
Print Assumptions C69_build_limits.

(** ** Principal direction *)
(** What [eigh] guarantees: real eigenpairs, ascending, with an orthonormal eigenvector matrix. *)
Definition eigh_spec (d : nat) (a : T2) (w : nat -> R) (v : T2) : Prop :=
  (forall k i, (k < d)%nat -> (i < d)%nat -> rsum d (fun j => a i j * v j k) = w k * v i k) /\
  (forall k, (S k < d)%nat -> w k <= w (S k)) /\
  (forall k l, (k < d)%nat -> (l < d)%nat -> rsum d (fun i => v i k * v i l) = delta k l) /\
  (forall i j, (i < d)%nat -> (j < d)%nat -> rsum d (fun k => v i k * v j k) = delta i j).

Lemma ascending_le d (w : nat -> R) : (forall k, (S k < d)%nat -> w k <= w (S k)) -> forall k, (k < d)%nat -> w k <= w (d - 1)%nat.
Proof.
  intros H. assert (G : forall n k, (k + n < d)%nat -> w k <= w (k + n)%nat).
  { induction n as [|n IH]; intros k Hk; [rewrite Nat.add_0_r; lra|]. specialize (IH k ltac:(lia)).
    specialize (H (k + n)%nat ltac:(lia)). rewrite Nat.add_succ_r. lra. }
  intros k Hk. specialize (G (d - 1 - k)%nat k ltac:(lia)). replace (k + (d - 1 - k))%nat with (d - 1)%nat in G by lia. exact G.
Qed.

(** The director is a unit eigenvector for the eigenvalue [lam] that bounds the quadratic form of [a2]:
    no direction is more concentrated. Scaled, its length is [lam]. For a distribution [1/d <= lam <= 1]. *)
Theorem C69_principal_direction (eigh : T2 -> (nat -> R) * T2) d a : (0 < d)%nat ->
  (let (w, v) := eigh a in eigh_spec d a w v) ->
  let n := principal_direction eigh d a false in
  exists lam,
    rsum d (fun i => n i * n i) = 1 /\
    (forall i, (i < d)%nat -> rsum d (fun j => a i j * n j) = lam * n i) /\
    (forall x : nat -> R, rsum d (fun i => rsum d (fun j => x i * a i j * x j)) <= lam * rsum d (fun i => x i * x i)) /\
    (forall i, principal_direction eigh d a true i = lam * n i) /\
    (forall F, is_odf d F -> eq2 d a (moment2 F) -> / INR d <= lam <= 1).
Proof.
  intros Hd Hs. cbv zeta. unfold principal_direction. destruct (eigh a) as [w v]. destruct Hs as (E & As & O1 & O2).
  exists (w (d - 1)%nat). pose proof (ascending_le d w As) as Mx.
  assert (Ev : forall i, (i < d)%nat -> rsum d (fun j => a i j * v j (d - 1)%nat) = w (d - 1)%nat * v i (d - 1)%nat) by (intros; apply E; lia).
  assert (Un : rsum d (fun i => v i (d - 1)%nat * v i (d - 1)%nat) = 1).
  { rewrite O1 by lia. unfold delta. rewrite Nat.eqb_refl. reflexivity. }
  (* a = sum_k w_k v_k v_k^T *)
  assert (Sp : forall i j, (i < d)%nat -> (j < d)%nat -> a i j = rsum d (fun k => w k * (v i k * v j k))).
  { intros i j Hi Hj. transitivity (rsum d (fun l => delta l j * a i l)); [rewrite rsum_delta by exact Hj; reflexivity|].
    transitivity (rsum d (fun l => rsum d (fun k => a i l * v l k * v j k))).
    - apply rsum_ext. intros l Hl. rewrite <- O2 by assumption. rewrite <- rsum_scale_r. apply rsum_ext. intros. ring.
    - rewrite rsum_swap. apply rsum_ext. intros k Hk. rewrite rsum_scale_r, E by assumption. ring. }
  assert (Q : forall x : nat -> R, rsum d (fun i => rsum d (fun j => x i * a i j * x j))
      = rsum d (fun k => w k * (rsum d (fun i => x i * v i k) * rsum d (fun i => x i * v i k)))).
  { intros x. transitivity (rsum d (fun i => rsum d (fun j => rsum d (fun k => w k * (x i * v i k * (x j * v j k)))))).
    - apply rsum_ext. intros i Hi. apply rsum_ext. intros j Hj. rewrite Sp by assumption.
      rewrite <- rsum_scale, <- rsum_scale_r. apply rsum_ext. intros. ring.
    - transitivity (rsum d (fun i => rsum d (fun k => rsum d (fun j => w k * (x i * v i k * (x j * v j k)))))).
      + apply rsum_ext. intros i _. apply rsum_swap.
      + rewrite rsum_swap. apply rsum_ext. intros k _. rewrite <- rsum_scale_r, <- rsum_scale.
        apply rsum_ext. intros i _. rewrite <- rsum_scale, <- rsum_scale. apply rsum_ext. intros. ring. }
  assert (Pa : forall x : nat -> R, rsum d (fun k => rsum d (fun i => x i * v i k) * rsum d (fun i => x i * v i k)) = rsum d (fun i => x i * x i)).
  { intros x. transitivity (rsum d (fun i => rsum d (fun j => rsum d (fun k => x i * x j * (v i k * v j k))))).
    - transitivity (rsum d (fun k => rsum d (fun i => rsum d (fun j => x i * x j * (v i k * v j k))))).
      + apply rsum_ext. intros k _. rewrite <- rsum_scale_r. apply rsum_ext. intros i _. rewrite <- rsum_scale. apply rsum_ext. intros. ring.
      + rewrite rsum_swap. apply rsum_ext. intros i _. apply rsum_swap.
    - apply rsum_ext. intros i Hi. transitivity (rsum d (fun j => delta j i * (x i * x j))).
      + apply rsum_ext. intros j Hj. rewrite rsum_scale, O2 by assumption. unfold delta. rewrite Nat.eqb_sym. ring.
      + rewrite rsum_delta by exact Hi. reflexivity. }
  assert (Le : forall n f g, (forall i, (i < n)%nat -> f i <= g i) -> rsum n f <= rsum n g).
  { intros n f g H. induction n as [|n IH]; cbn [rsum]; [lra|]. pose proof (H n ltac:(lia)). pose proof (IH ltac:(intros; apply H; lia)). lra. }
  assert (Ray : forall x : nat -> R, rsum d (fun i => rsum d (fun j => x i * a i j * x j)) <= w (d - 1)%nat * rsum d (fun i => x i * x i)).
  { intros x. rewrite Q, <- Pa, <- rsum_scale. apply Le. intros k Hk. apply Rmult_le_compat_r; [apply sq0|]. apply Mx. exact Hk. }
  split; [exact Un|]. split; [exact Ev|]. split; [exact Ray|]. split; [intros; ring|].
  intros F HF EF. split.
  - (* d lam >= trace = 1 *)
    destruct (C69_moments d F HF) as (T & _).
    assert (Tr : trace d a = 1) by (rewrite <- T; unfold trace; apply rsum_ext; intros; apply EF; assumption).
    assert (Tw : 1 <= INR d * w (d - 1)%nat).
    { rewrite <- Tr. unfold trace. apply Rle_trans with (rsum d (fun _ => w (d - 1)%nat)).
      - apply Le. intros i Hi. pose proof (Ray (fun l => delta l i)) as R. cbv beta in R.
        replace (rsum d (fun j => delta j i * delta j i)) with 1 in R by (rewrite rsum_delta by exact Hi; unfold delta; rewrite Nat.eqb_refl; reflexivity).
        replace (rsum d (fun i0 => rsum d (fun j => delta i0 i * a i0 j * delta j i))) with (a i i) in R; [lra|].
        symmetry. transitivity (rsum d (fun i0 => delta i0 i * a i0 i)).
        + apply rsum_ext. intros m _. transitivity (rsum d (fun j => delta j i * (delta m i * a m j))); [apply rsum_ext; intros; ring|].
          rewrite rsum_delta by exact Hi. reflexivity.
        + rewrite rsum_delta by exact Hi. reflexivity.
      - right. clear. generalize (w (d - 1)%nat). intros c. induction d as [|n IH]; [cbn; ring|]. cbn [rsum]. rewrite IH, S_INR. ring. }
    apply Rmult_le_reg_l with (INR d); [apply lt_0_INR; exact Hd|]. rewrite Rinv_r; [exact Tw|]. apply not_0_INR. lia.
  - (* lam = n.a.n = avg (p.n)^2 <= 1 *)
    set (n := fun i => v i (d - 1)%nat) in *.
    assert (Un' : rsum d (fun i => n i * n i) = 1) by exact Un.
    assert (L : w (d - 1)%nat = avg F (fun p => rsum d (fun i => p i * n i) * rsum d (fun i => p i * n i))).
    { transitivity (rsum d (fun i => n i * rsum d (fun j => a i j * n j))).
      - rewrite <- (Rmult_1_r (w (d - 1)%nat)), <- Un, <- rsum_scale. apply rsum_ext. intros i Hi. fold (n i).
        change (v i (d - 1)%nat) with (n i). unfold n at 4. rewrite Ev by exact Hi. unfold n. ring.
      - transitivity (rsum d (fun i => rsum d (fun j => avg F (fun p => p i * n i * (p j * n j))))).
        + apply rsum_ext. intros i Hi. rewrite <- rsum_scale. apply rsum_ext. intros j Hj. rewrite EF by assumption. unfold moment2.
          rewrite <- avg_scale_r, <- avg_scale. apply avg_ext. intros. ring.
        + transitivity (rsum d (fun i => avg F (fun p => rsum d (fun j => p i * n i * (p j * n j))))).
          * apply rsum_ext. intros i _. rewrite avg_rsum. reflexivity.
          * rewrite <- avg_rsum. apply avg_ext. intros wp _. rewrite <- rsum_scale_r. apply rsum_ext. intros i _. rewrite <- rsum_scale. reflexivity. }
    destruct HF as [H1 H2]. rewrite L, <- H2.
    assert (N : 0 <= avg F (fun p => 1 - rsum d (fun i => p i * n i) * rsum d (fun i => p i * n i))); [|rewrite avg_sub in N; lra].
    apply avg_nonneg; [intros wp Hin; apply (H1 wp Hin)|]. intros wp Hin. destruct (H1 wp Hin) as [_ U].
    set (c := rsum d (fun i => snd wp i * n i)).
    assert (N : 0 <= rsum d (fun i => (snd wp i - c * n i) * (snd wp i - c * n i))) by (apply rsum_nonneg; intros; apply sq0).
    assert (X : rsum d (fun i => (snd wp i - c * n i) * (snd wp i - c * n i)) = 1 - c * c).
    { transitivity (rsum d (fun i => snd wp i * snd wp i) + (-2 * c) * rsum d (fun i => snd wp i * n i) + c * c * rsum d (fun i => n i * n i)).
      - rewrite <- !rsum_scale, <- !rsum_add. apply rsum_ext. intros. ring.
      - rewrite U, Un'. fold c. ring. }
    lra.
Qed.
Print Assumptions C69_principal_direction.

(** The hypotheses are met: a 45-degree cross-ply of content 1/2, a parameter inside the disk, and a
    diagonal tensor with its eigenvectors. *)
Example C69_example :
  is_odf 2 [(1 / 2, vec2 1 0); (1 / 2, vec2 0 1)] /\
  psd2 2 (fun i j => 1 / 4 * delta i j) /\ 0 < trace 2 (fun i j => 1 / 4 * delta i j) /\ 0 < det 2 (fun i j => 1 / 4 * delta i j) /\
  build_a4_2d (fun i j => 1 / 4 * delta i j) 1 0 0 0%nat 0%nat 0%nat 0%nat = 1 / 4 /\
  build_a4_2d (fun i j => 1 / 4 * delta i j) 1 0 0 0%nat 0%nat 1%nat 1%nat = 0 /\
  eigh_spec 2 (fun i j => delta i j * (INR i + 1) / 3) (fun k => (INR k + 1) / 3) delta.
Proof.
  split; [|split; [|split; [|split; [|split; [|split]]]]].
  - split; [|unfold avg; cbn [fold_right fst]; field]. intros wp [<-|[<-|[]]]; cbn [fst snd rsum vec2]; split; lra.
  - split; [intros i j _ _; unfold delta; rewrite Nat.eqb_sym; reflexivity|]. intros x. cbn [rsum]. unfold delta. cbn [Nat.eqb].
    pose proof (sq0 (x 0%nat)). pose proof (sq0 (x 1%nat)). lra.
  - unfold trace, delta. cbn [rsum Nat.eqb]. lra.
  - unfold det, delta. cbn [Nat.eqb]. lra.
  - unfold build_a4_2d, delta. cbn [nth Nat.eqb]. field.
  - unfold build_a4_2d, delta. cbn [nth Nat.eqb]. field.
  - split; [|split; [|split]].
    + intros k i Hk Hi. cbn [rsum]. idx k Hk; idx i Hi; unfold delta; cbn [Nat.eqb INR]; field.
    + intros k Hk. rewrite S_INR. lra.
    + intros k l Hk Hl. cbn [rsum]. idx k Hk; idx l Hl; unfold delta; cbn [Nat.eqb]; ring.
    + intros k l Hk Hl. cbn [rsum]. idx k Hk; idx l Hl; unfold delta; cbn [Nat.eqb]; ring.
Qed.
