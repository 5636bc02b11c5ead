(** C117: the default quadrature of the serendipity types does not see every strain. *)
From Coq Require Import Reals Lra String List Arith ZArith Lia.
From Verif Require Import Base Basis_Model Basis_Spec FaceQuad_Model FaceQuad_Props Serendip_Model Serendip_Props.
Import ListNotations.
Local Open Scope string_scope.
Local Open Scope list_scope.
Local Open Scope R_scope.

(** The default rule of both types has order 2 (basis.py:76, 101; basix.make_quadrature): all coordinates of its points are 1/2 +- 1/(2 sqrt 3). *)
Definition gauss2 (e : string) (p : rpoint) : Prop :=
  (2 * px p - 1) * (2 * px p - 1) = 1 / 3 /\ (2 * py p - 1) * (2 * py p - 1) = 1 / 3 /\ (e = "HEX20" -> (2 * pz p - 1) * (2 * pz p - 1) = 1 / 3).
(** Partial derivatives in the cell. *)
Definition ddx (f : rpoint -> R) (p : rpoint) (l : R) : Prop := derivable_pt_lim (fun h => f (px p + h, py p, pz p)) 0 l.
Definition ddy (f : rpoint -> R) (p : rpoint) (l : R) : Prop := derivable_pt_lim (fun h => f (px p, py p + h, pz p)) 0 l.
Definition ddz (f : rpoint -> R) (p : rpoint) (l : R) : Prop := derivable_pt_lim (fun h => f (px p, py p, pz p + h)) 0 l.

(** The coefficients of a function: its value at a corner; at a midside node the one that makes the field take its value there (C107_midside). *)
Definition coefs (kappa : R) (e : string) (f : rpoint -> R) (a : nat) : R :=
  if (a <? length (meshio_vertices e))%nat then f (node_at e a)
  else (f (node_at e a) - (1 - kappa) * (f (node_at e (fst (ends e a))) + f (node_at e (snd (ends e a)))) / 2) / kappa.
Definition mode_u (p : rpoint) : R := (2 * px p - 1) * (3 * ((2 * py p - 1) * (2 * py p - 1)) - 1) + 2.
Definition mode_v (p : rpoint) : R := - (2 * py p - 1) * (3 * ((2 * px p - 1) * (2 * px p - 1)) - 1) - 2.

Lemma mode_u_poly kappa e p : kappa <> 0 -> In e ser_types -> ser_field kappa e (coefs kappa e mode_u) p = mode_u p.
Proof. intros N H. destruct p as [[x y] z]. ser_cases H; cbv -[IZR Rplus Rminus Rmult Ropp Rinv Rdiv]; field; exact N. Qed.
Lemma mode_v_poly kappa e p : kappa <> 0 -> In e ser_types -> ser_field kappa e (coefs kappa e mode_v) p = mode_v p.
Proof. intros N H. destruct p as [[x y] z]. ser_cases H; cbv -[IZR Rplus Rminus Rmult Ropp Rinv Rdiv]; field; exact N. Qed.
Lemma parabola_lim (f : R -> R) c m k : (forall h, f h = c + h * m + h * h * k) -> derivable_pt_lim f 0 m.
Proof.
  intros E. intros eps He. assert (P : 0 < Rabs k + 1) by (pose proof (Rabs_pos k); lra). assert (Q : 0 < eps / (Rabs k + 1)) by (apply Rdiv_lt_0_compat; assumption).
  exists (mkposreal _ Q). intros h Nh Hh. cbn in Hh. rewrite !E.
  replace ((c + (0 + h) * m + (0 + h) * (0 + h) * k - (c + 0 * m + 0 * 0 * k)) / h - m) with (h * k) by (field; exact Nh). rewrite Rabs_mult.
  apply Rle_lt_trans with (Rabs h * (Rabs k + 1)); [apply Rmult_le_compat_l; [apply Rabs_pos|lra]|].
  apply (Rmult_lt_compat_r (Rabs k + 1)) in Hh; [|exact P]. replace (eps / (Rabs k + 1) * (Rabs k + 1)) with eps in Hh by (field; lra). exact Hh.
Qed.

(** One QUAD8 or HEX20 cell (the reference square or cube) whose supports exclude every rigid motion (corner 0 held, corner 1 on a line, corner 3 on a plane): there is a displacement, in the plane of the
    first two axes and zero in the third direction, that vanishes at the supports and moves corner 1, whose strains are zero at all points of the default rule and not at the centre. So the support
    hypothesis of C117_definite fails for such a cell and its eliminated stiffness is singular, whatever the midside coefficients stand for. *)
Theorem C117_reduced_refuted : forall kappa e, kappa <> 0 -> In e ser_types ->
  (exists ro, get_elements e = Some (Serendipity, 2, 2, ro)%nat) /\
  exists cu cv : nat -> R,
    let u := ser_field kappa e cu in let v := ser_field kappa e cv in
    cu 0%nat = 0 /\ cv 0%nat = 0 /\ cv 1%nat = 0 /\ cu 1%nat <> 0 /\
    (forall p, gauss2 e p -> ddx u p 0 /\ ddy v p 0 /\ (exists g, ddy u p g /\ ddx v p (- g)) /\ ddz u p 0 /\ ddz v p 0) /\
    (exists l, l <> 0 /\ ddx u (1 / 2, 1 / 2, 1 / 2) l).
Proof.
  intros kappa e N H. split; [ser_cases H; eexists; reflexivity|]. exists (coefs kappa e mode_u), (coefs kappa e mode_v). cbv zeta.
  assert (C : coefs kappa e mode_u 0 = 0 /\ coefs kappa e mode_v 0 = 0 /\ coefs kappa e mode_v 1 = 0 /\ coefs kappa e mode_u 1 <> 0).
  { ser_cases H; (repeat split; cbv -[IZR Rplus Rminus Rmult Ropp Rinv Rdiv]; lra). }
  destruct C as (C1 & C2 & C3 & C4). split; [exact C1|]. split; [exact C2|]. split; [exact C3|]. split; [exact C4|].
  assert (U := fun p => mode_u_poly kappa e p N H). assert (V := fun p => mode_v_poly kappa e p N H).
  assert (UX : forall x y z m, m = 2 * (3 * ((2 * y - 1) * (2 * y - 1)) - 1) -> ddx (ser_field kappa e (coefs kappa e mode_u)) (x, y, z) m).
  { intros x y z m ->. unfold ddx. cbn [px py pz fst snd]. apply parabola_lim with (c := mode_u (x, y, z)) (k := 0). intros h. rewrite U. unfold mode_u. cbn [px py pz fst snd]. ring. }
  split.
  - intros [[x y] z] (X & Y & _). cbn [px py fst snd] in X, Y. split; [apply UX; rewrite Y; field|]. split; [|split; [|split]].
    + unfold ddy. cbn [px py pz fst snd]. apply parabola_lim with (c := mode_v (x, y, z)) (k := 0). intros h. rewrite V. unfold mode_v. cbn [px py pz fst snd]. rewrite X. field.
    + exists (12 * (2 * x - 1) * (2 * y - 1)). split.
      * unfold ddy. cbn [px py pz fst snd]. apply parabola_lim with (c := mode_u (x, y, z)) (k := 12 * (2 * x - 1)). intros h. rewrite U. unfold mode_u. cbn [px py pz fst snd]. ring.
      * unfold ddx. cbn [px py pz fst snd]. apply parabola_lim with (c := mode_v (x, y, z)) (k := - 12 * (2 * y - 1)). intros h. rewrite V. unfold mode_v. cbn [px py pz fst snd]. ring.
    + unfold ddz. apply parabola_lim with (c := mode_u (x, y, z)) (k := 0). intros h. rewrite U. unfold mode_u. cbn [px py pz fst snd]. ring.
    + unfold ddz. apply parabola_lim with (c := mode_v (x, y, z)) (k := 0). intros h. rewrite V. unfold mode_v. cbn [px py pz fst snd]. ring.
  - exists (-2). split; [lra|]. apply UX. field.
Qed.
Print Assumptions C117_reduced_refuted.

(** The rule has points. *)
Example gauss2_example : gauss2 "HEX20" (1 / 2 + / (2 * sqrt 3), 1 / 2 - / (2 * sqrt 3), 1 / 2 + / (2 * sqrt 3)).
Proof.
  assert (S : sqrt 3 * sqrt 3 = 3) by (apply sqrt_sqrt; lra). assert (P : sqrt 3 <> 0) by (intro E; rewrite E in S; lra).
  assert (I : / sqrt 3 * / sqrt 3 = 1 / 3) by (rewrite <- Rinv_mult_distr by assumption; rewrite S; field).
  split; [|split; [|intros _]]; cbn [px py pz fst snd]; rewrite <- I; field; assumption.
Qed.
