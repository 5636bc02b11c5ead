(** C92, element part: the element stiffness of the multigrid solver. *)
From Coq Require Import Reals List Arith Lia Lra Bool Psatz.
From Verif Require Import Tmc_Model Tmc_Props Adaptive_Model Adaptive_Props CmgSolve_Model.
Import ListNotations.
Local Open Scope R_scope.

(** Specification. The work of the nodal vector [u] against the stiffness times [v]. *)
Definition work (K : nat -> nat -> R) (u v : vec) : R := rs 24 (fun i => rs 24 (fun j => u i * K i j * v j)).
(** Nodal values (three per corner, component fastest) of the field x -> t + A x on the unit cube. *)
Definition nodal (t : vec) (A : nat -> nat -> R) : vec := fun i => t (i mod 3)%nat + rs 3 (fun j => A (i mod 3)%nat j * corner (i / 3) j).
(** Linear elastic energy density of the displacement gradient [A]. *)
Definition strain_of (A : nat -> nat -> R) (i j : nat) : R := (A i j + A j i) / 2.
Definition density (lam mu : R) (A : nat -> nat -> R) : R :=
  lam / 2 * rs 3 (fun i => A i i) ^ 2 + mu * rs 3 (fun i => rs 3 (fun j => strain_of A i j ^ 2)).
Definition skew (W : nat -> nat -> R) : Prop := forall i j, W i j = - W j i.

Lemma Jac_half x i j : (i < 3)%nat -> (j < 3)%nat -> Jac x i j = if (i =? j)%nat then 1 / 2 else 0.
Proof. intros Hi Hj. destruct i as [|[|[|i]]]; try lia; destruct j as [|[|[|j]]]; try lia; unfold Jac, dN, sgn, corner; cbn; field. Qed.
Lemma det_Jac x : det3 (Jac x) = 1 / 8.
Proof. unfold det3. rewrite !Jac_half by lia. cbn [Nat.eqb]. field. Qed.
Lemma dNxyz_eq x i a : (i < 3)%nat -> dNxyz x i a = 2 * dN x i a.
Proof.
  intros Hi. unfold dNxyz, inv3. rewrite det_Jac. destruct i as [|[|[|i]]]; try lia; cbn [rs Nat.modulo Nat.divmod fst snd Nat.sub Nat.add];
    rewrite !Jac_half by (cbn; lia); cbn; field.
Qed.

(** Displacement gradient at the point [x] and the six strains. *)
Definition Hg (x : vec) (u : vec) (k i : nat) : R := rs 8 (fun a => u (3 * a + k)%nat * dNxyz x i a).
Definition eps (x : vec) (u : vec) (r : nat) : R := rs 24 (fun c => Bmat x r c * u c).
Lemma eps_H x u r : (r < 6)%nat -> eps x u r =
  match r with O => Hg x u 0 0 | 1%nat => Hg x u 1 1 | 2%nat => Hg x u 2 2 | 3%nat => Hg x u 0 1 + Hg x u 1 0 | 4%nat => Hg x u 1 2 + Hg x u 2 1 | _ => Hg x u 0 2 + Hg x u 2 0 end.
Proof.
  intros Hr. unfold eps, Hg. destruct r as [|[|[|[|[|[|r]]]]]]; try lia; cbn -[dNxyz]; ring.
Qed.

Lemma rs_prod n m f g : rs n f * rs m g = rs n (fun i => rs m (fun j => f i * g j)).
Proof. rewrite <- rs_scale_r. apply rs_ext. intros i _. rewrite <- rs_scale. reflexivity. Qed.
Lemma KE_sym nu E i j : KEmat nu E i j = KEmat nu E j i.
Proof.
  unfold KEmat. apply rs_ext. intros q _. f_equal. rewrite rs_swap. apply rs_ext. intros r Hr. apply rs_ext. intros s Hs.
  assert (Dmat nu E s r = Dmat nu E r s) as ->.
  { unfold Dmat. rewrite andb_comm, (Nat.eqb_sym s r). reflexivity. }
  ring.
Qed.
(** The quadratic form is the sum over the Gauss points of the energy of the strains there. *)
Definition quad (nu E : R) (x u v : vec) : R := rs 6 (fun r => rs 6 (fun s => eps x u r * Dmat nu E r s * eps x v s)).
Lemma work_quad nu E u v : work (KEmat nu E) u v = rs 8 (fun q => quad nu E (gauss q) u v * (1 / 8)).
Proof.
  unfold work, KEmat.
  rewrite (rs_ext 24 _ (fun i => rs 8 (fun q => rs 24 (fun j => u i * (rs 6 (fun r => rs 6 (fun s => Bmat (gauss q) r i * Dmat nu E r s * Bmat (gauss q) s j)) * det3 (Jac (gauss q))) * v j)))).
  2:{ intros i _. rewrite rs_swap. apply rs_ext. intros j _. rewrite <- rs_scale, <- rs_scale_r. apply rs_ext. intros q _. ring. }
  rewrite rs_swap. apply rs_ext. intros q _. rewrite det_Jac.
  unfold quad. rewrite <- rs_scale_r.
  transitivity (rs 24 (fun i => rs 24 (fun j => rs 6 (fun r => rs 6 (fun s => (Bmat (gauss q) r i * u i) * Dmat nu E r s * (Bmat (gauss q) s j * v j) * (1 / 8)))))).
  { apply rs_ext; intros i _. apply rs_ext; intros j _. rewrite <- (rs_scale_r 6 (1/8)), <- rs_scale, <- rs_scale_r. apply rs_ext; intros r _.
    rewrite <- rs_scale_r, <- rs_scale, <- rs_scale_r. apply rs_ext; intros s _. ring. }
  transitivity (rs 6 (fun r => rs 6 (fun s => rs 24 (fun i => rs 24 (fun j => (Bmat (gauss q) r i * u i) * Dmat nu E r s * (Bmat (gauss q) s j * v j) * (1 / 8)))))).
  { rewrite (rs_ext 24 _ (fun i => rs 6 (fun r => rs 24 (fun j => rs 6 (fun s => (Bmat (gauss q) r i * u i) * Dmat nu E r s * (Bmat (gauss q) s j * v j) * (1 / 8))))))
      by (intros; rewrite rs_swap; reflexivity).
    rewrite rs_swap. apply rs_ext; intros r _.
    rewrite (rs_ext 24 _ (fun i => rs 6 (fun s => rs 24 (fun j => (Bmat (gauss q) r i * u i) * Dmat nu E r s * (Bmat (gauss q) s j * v j) * (1 / 8)))))
      by (intros; rewrite rs_swap; reflexivity).
    rewrite rs_swap. reflexivity. }
  apply rs_ext; intros r _. rewrite <- rs_scale_r. apply rs_ext; intros s _.
  unfold eps. rewrite <- (rs_scale_r 24 (Dmat nu E r s)), rs_prod, <- rs_scale_r. apply rs_ext; intros i _. rewrite <- rs_scale_r. apply rs_ext; intros j _. ring.
Qed.
Lemma quad_H nu E x u v : quad nu E x u v =
  lame nu E * (Hg x u 0 0 + Hg x u 1 1 + Hg x u 2 2) * (Hg x v 0 0 + Hg x v 1 1 + Hg x v 2 2) +
  shear nu E * (2 * (Hg x u 0 0 * Hg x v 0 0 + Hg x u 1 1 * Hg x v 1 1 + Hg x u 2 2 * Hg x v 2 2) +
    (Hg x u 0 1 + Hg x u 1 0) * (Hg x v 0 1 + Hg x v 1 0) + (Hg x u 1 2 + Hg x u 2 1) * (Hg x v 1 2 + Hg x v 2 1) + (Hg x u 0 2 + Hg x u 2 0) * (Hg x v 0 2 + Hg x v 2 0)).
Proof. unfold quad. cbn [rs]. rewrite !eps_H by lia. unfold Dmat. cbn -[Hg lame shear]. ring. Qed.

(** The two moduli combinations are positive for an admissible material. *)
Definition admissible (nu E : R) : Prop := 0 < E /\ -1 < nu < 1 / 2.
Lemma moduli nu E : admissible nu E -> 0 < shear nu E /\ 0 < 3 * lame nu E + 2 * shear nu E.
Proof.
  intros (HE & Hn). split; [apply Rdiv_lt_0_compat; lra|].
  replace (3 * lame nu E + 2 * shear nu E) with (E / (1 - 2 * nu)) by (unfold lame, shear; field; lra).
  apply Rdiv_lt_0_compat; lra.
Qed.
Lemma form_nonneg lam mu a b c d e f : 0 < mu -> 0 < 3 * lam + 2 * mu ->
  0 <= lam * (a + b + c) * (a + b + c) + mu * (2 * (a * a + b * b + c * c) + d * d + e * e + f * f).
Proof.
  intros M L.
  replace (lam * (a + b + c) * (a + b + c) + mu * (2 * (a * a + b * b + c * c) + d * d + e * e + f * f))
    with ((3 * lam + 2 * mu) * ((a + b + c) * (a + b + c) / 3) + mu * (2 / 3 * ((a - b) * (a - b) + (b - c) * (b - c) + (a - c) * (a - c)) + d * d + e * e + f * f)) by field.
  pose proof (Rle_0_sqr (a + b + c)). pose proof (Rle_0_sqr (a - b)). pose proof (Rle_0_sqr (b - c)). pose proof (Rle_0_sqr (a - c)).
  pose proof (Rle_0_sqr d). pose proof (Rle_0_sqr e). pose proof (Rle_0_sqr f). unfold Rsqr in *.
  apply Rplus_le_le_0_compat; apply Rmult_le_pos; lra.
Qed.
Lemma form_zero lam mu a b c d e f : 0 < mu -> 0 < 3 * lam + 2 * mu ->
  lam * (a + b + c) * (a + b + c) + mu * (2 * (a * a + b * b + c * c) + d * d + e * e + f * f) = 0 ->
  a = 0 /\ b = 0 /\ c = 0 /\ d = 0 /\ e = 0 /\ f = 0.
Proof.
  intros M L.
  replace (lam * (a + b + c) * (a + b + c) + mu * (2 * (a * a + b * b + c * c) + d * d + e * e + f * f))
    with ((3 * lam + 2 * mu) * ((a + b + c) * (a + b + c) / 3) + mu * (2 / 3 * ((a - b) * (a - b) + (b - c) * (b - c) + (a - c) * (a - c)) + d * d + e * e + f * f)) by field.
  set (X := (a + b + c) * (a + b + c) / 3). set (Y := 2 / 3 * _ + d * d + e * e + f * f). intros Z.
  pose proof (Rle_0_sqr (a + b + c)). pose proof (Rle_0_sqr (a - b)). pose proof (Rle_0_sqr (b - c)). pose proof (Rle_0_sqr (a - c)).
  pose proof (Rle_0_sqr d). pose proof (Rle_0_sqr e). pose proof (Rle_0_sqr f). unfold Rsqr in *.
  assert (PX : 0 <= X) by (unfold X; lra). assert (PY : 0 <= Y) by (unfold Y; lra).
  assert (X0 : X = 0). { destruct (Req_dec X 0) as [e0|N]; [exact e0|]. pose proof (Rmult_lt_0_compat _ X L ltac:(lra)). pose proof (Rmult_le_pos _ Y (Rlt_le _ _ M) PY). lra. }
  assert (Y0 : Y = 0). { rewrite X0, Rmult_0_r, Rplus_0_l in Z. apply Rmult_integral in Z. destruct Z; lra. }
  unfold X in X0. unfold Y in Y0.
  assert (S : a + b + c = 0) by (apply Rsqr_0_uniq; unfold Rsqr; lra).
  assert (D1 : a - b = 0) by (apply Rsqr_0_uniq; unfold Rsqr; lra). assert (D2 : b - c = 0) by (apply Rsqr_0_uniq; unfold Rsqr; lra).
  assert (d = 0) by (apply Rsqr_0_uniq; unfold Rsqr; lra). assert (e = 0) by (apply Rsqr_0_uniq; unfold Rsqr; lra). assert (f = 0) by (apply Rsqr_0_uniq; unfold Rsqr; lra).
  repeat split; lra.
Qed.

Lemma Hg_nodal x t A k i : (k < 3)%nat -> (i < 3)%nat -> Hg x (nodal t A) k i = A k i.
Proof.
  intros Hk Hi. unfold Hg.
  assert (M : forall a, ((3 * a + k) mod 3 = k)%nat) by (intros; rewrite Nat.add_comm, Nat.mul_comm, Nat.mod_add, Nat.mod_small by lia; reflexivity).
  assert (D : forall a, ((3 * a + k) / 3 = a)%nat) by (intros; rewrite Nat.add_comm, Nat.mul_comm, Nat.div_add, Nat.div_small by lia; lia).
  rewrite (rs_ext 8 _ (fun a => (t k + rs 3 (fun j => A k j * corner a j)) * (2 * dN x i a))).
  2:{ intros a _. unfold nodal. rewrite M, D, dNxyz_eq by assumption. reflexivity. }
  clear M D. destruct i as [|[|[|i]]]; try lia; unfold dN, sgn, corner; cbn; field.
Qed.

(** The element stiffness is symmetric, never has negative work, gives an affine field exactly its
    elastic energy on the unit cube, and works as much on [v] as the affine stress does; the work
    of [u] is zero exactly for the infinitesimal rigid motions. *)
Theorem C92_element : forall nu E : R,
  (forall i j, KEmat nu E i j = KEmat nu E j i) /\
  (forall t A, work (KEmat nu E) (nodal t A) (nodal t A) = 2 * density (lame nu E) (shear nu E) A) /\
  (admissible nu E -> forall u : vec, 0 <= work (KEmat nu E) u u) /\
  (forall t W, skew W -> forall i, (i < 24)%nat -> rs 24 (fun j => KEmat nu E i j * nodal t W j) = 0).
Proof.
  intros nu E. split; [apply KE_sym|]. split; [|split].
  - intros t A. rewrite work_quad. rewrite (rs_ext 8 _ (fun _ => 2 * density (lame nu E) (shear nu E) A * (1 / 8))).
    { rewrite rs_const. cbn [INR]. field. }
    intros q _. rewrite quad_H, !Hg_nodal by lia. unfold density, strain_of. cbn [rs]. field.
  - intros Ad u. destruct (moduli nu E Ad) as [M L]. rewrite work_quad. apply rs_nonneg. intros q _. rewrite quad_H.
    apply Rmult_le_pos; [|lra]. apply form_nonneg; assumption.
  - intros t W Sk i Hi.
    transitivity (work (KEmat nu E) (fun k => if (k =? i)%nat then 1 else 0) (nodal t W)).
    2:{ rewrite work_quad. apply rs_zero. intros q _. rewrite quad_H, !Hg_nodal by lia.
        rewrite (Sk 1%nat 0%nat), (Sk 2%nat 1%nat), (Sk 2%nat 0%nat).
        pose proof (Sk 0%nat 0%nat). pose proof (Sk 1%nat 1%nat). pose proof (Sk 2%nat 2%nat).
        replace (W 0%nat 0%nat) with 0 by lra. replace (W 1%nat 1%nat) with 0 by lra. replace (W 2%nat 2%nat) with 0 by lra. ring. }
    unfold work. symmetry. rewrite (rs_ext 24 _ (fun k => (if (k =? i)%nat then 1 else 0) * rs 24 (fun j => KEmat nu E k j * nodal t W j))).
    + apply (rs_delta 24 i (fun k => rs 24 (fun j => KEmat nu E k j * nodal t W j)) Hi).
    + intros k _. rewrite <- rs_scale. apply rs_ext. intros; ring.
Qed.
Print Assumptions C92_element.

(** Only the rigid motions have zero work: there are no spurious (hourglass) modes. *)
Definition mom (u : vec) (k : nat) (s : nat -> R) : R := 1 / 4 * rs 8 (fun a => s a * u (3 * a + k)%nat).
Lemma Hg_mom x u k i : (k < 3)%nat -> (i < 3)%nat -> Hg x u k i =
  let j := if (i =? 0)%nat then 1%nat else 0%nat in let l := if (i =? 2)%nat then 1%nat else 2%nat in
  mom u k (fun a => sgn a i) + x j * mom u k (fun a => sgn a i * sgn a j) + x l * mom u k (fun a => sgn a i * sgn a l) + x j * x l * mom u k (fun a => sgn a 0 * sgn a 1 * sgn a 2).
Proof.
  intros Hk Hi. unfold Hg. rewrite (rs_ext 8 _ (fun a => u (3 * a + k)%nat * (2 * dN x i a))) by (intros; rewrite dNxyz_eq by assumption; reflexivity).
  unfold mom. destruct i as [|[|[|i]]]; try lia; unfold dN; cbn [Nat.eqb]; cbn [rs]; field.
Qed.
Lemma four_zero g p q r s : g <> 0 -> p + g * q + g * r + g * g * s = 0 -> p + g * q - g * r - g * g * s = 0 ->
  p - g * q + g * r - g * g * s = 0 -> p - g * q - g * r + g * g * s = 0 -> p = 0 /\ q = 0 /\ r = 0 /\ s = 0.
Proof.
  intros G A B C D. assert (p = 0) by lra. assert (g * q = 0) by lra. assert (g * r = 0) by lra. assert (g * g * s = 0) by lra.
  assert (GG : g * g <> 0) by (apply Rmult_integral_contrapositive; split; exact G).
  repeat split; [assumption| | |].
  - destruct (Rmult_integral _ _ H0); [contradiction|assumption].
  - destruct (Rmult_integral _ _ H1); [contradiction|assumption].
  - destruct (Rmult_integral _ _ H2); [contradiction|assumption].
Qed.
Lemma g_pos : 0 < 1 / sqrt 3.
Proof. apply Rdiv_lt_0_compat; [lra|]. apply sqrt_lt_R0. lra. Qed.
Lemma gauss_val q c : (q < 8)%nat -> gauss q c = sgn q c * (1 / sqrt 3).
Proof. reflexivity. Qed.


Theorem C92_element_rigid : forall nu E (u : vec), admissible nu E -> work (KEmat nu E) u u = 0 ->
  exists t W, skew W /\ forall i, (i < 24)%nat -> u i = nodal t W i.
Proof.
  intros nu E u Ad Wz. destruct (moduli nu E Ad) as [Mu La]. rewrite work_quad in Wz.
  assert (Q : forall q, (q < 8)%nat -> quad nu E (gauss q) u u * (1 / 8) = 0).
  { apply rs_zero_inv; [|exact Wz]. intros q _. rewrite quad_H. apply Rmult_le_pos; [|lra]. apply form_nonneg; assumption. }
  assert (S : forall q, (q < 8)%nat -> Hg (gauss q) u 0 0 = 0 /\ Hg (gauss q) u 1 1 = 0 /\ Hg (gauss q) u 2 2 = 0 /\
    Hg (gauss q) u 0 1 + Hg (gauss q) u 1 0 = 0 /\ Hg (gauss q) u 1 2 + Hg (gauss q) u 2 1 = 0 /\ Hg (gauss q) u 0 2 + Hg (gauss q) u 2 0 = 0).
  { intros q Hq. specialize (Q q Hq). rewrite quad_H in Q. apply (form_zero (lame nu E) (shear nu E)); [assumption..|]. lra. }
  clear Q Wz. pose proof g_pos as Gp. set (g := 1 / sqrt 3) in *.
  assert (GV : forall q c, gauss q c = sgn q c * g) by reflexivity.
  assert (S' : forall q, (q < 8)%nat ->
     let y c := sgn q c * g in
     let m k s := mom u k s in let s3 := fun a => sgn a 0 * sgn a 1 * sgn a 2 in
     (m 0%nat (fun a => sgn a 0) + y 1%nat * m 0%nat (fun a => sgn a 0 * sgn a 1) + y 2%nat * m 0%nat (fun a => sgn a 0 * sgn a 2) + y 1%nat * y 2%nat * m 0%nat s3 = 0) /\
     (m 1%nat (fun a => sgn a 1) + y 0%nat * m 1%nat (fun a => sgn a 1 * sgn a 0) + y 2%nat * m 1%nat (fun a => sgn a 1 * sgn a 2) + y 0%nat * y 2%nat * m 1%nat s3 = 0) /\
     (m 2%nat (fun a => sgn a 2) + y 0%nat * m 2%nat (fun a => sgn a 2 * sgn a 0) + y 1%nat * m 2%nat (fun a => sgn a 2 * sgn a 1) + y 0%nat * y 1%nat * m 2%nat s3 = 0) /\
     (m 0%nat (fun a => sgn a 1) + y 0%nat * m 0%nat (fun a => sgn a 1 * sgn a 0) + y 2%nat * m 0%nat (fun a => sgn a 1 * sgn a 2) + y 0%nat * y 2%nat * m 0%nat s3 +
      (m 1%nat (fun a => sgn a 0) + y 1%nat * m 1%nat (fun a => sgn a 0 * sgn a 1) + y 2%nat * m 1%nat (fun a => sgn a 0 * sgn a 2) + y 1%nat * y 2%nat * m 1%nat s3) = 0) /\
     (m 1%nat (fun a => sgn a 2) + y 0%nat * m 1%nat (fun a => sgn a 2 * sgn a 0) + y 1%nat * m 1%nat (fun a => sgn a 2 * sgn a 1) + y 0%nat * y 1%nat * m 1%nat s3 +
      (m 2%nat (fun a => sgn a 1) + y 0%nat * m 2%nat (fun a => sgn a 1 * sgn a 0) + y 2%nat * m 2%nat (fun a => sgn a 1 * sgn a 2) + y 0%nat * y 2%nat * m 2%nat s3) = 0) /\
     (m 0%nat (fun a => sgn a 2) + y 0%nat * m 0%nat (fun a => sgn a 2 * sgn a 0) + y 1%nat * m 0%nat (fun a => sgn a 2 * sgn a 1) + y 0%nat * y 1%nat * m 0%nat s3 +
      (m 2%nat (fun a => sgn a 0) + y 1%nat * m 2%nat (fun a => sgn a 0 * sgn a 1) + y 2%nat * m 2%nat (fun a => sgn a 0 * sgn a 2) + y 1%nat * y 2%nat * m 2%nat s3) = 0)).
  { intros q Hq. specialize (S q Hq). rewrite !Hg_mom in S by lia. cbn [Nat.eqb] in S. rewrite !GV in S. cbv zeta. exact S. }
  clear S GV. rename S' into S.
  assert (C10 : forall k, mom u k (fun a => sgn a 1 * sgn a 0) = mom u k (fun a => sgn a 0 * sgn a 1)) by (intros; unfold mom; f_equal; apply rs_ext; intros; ring).
  assert (C20 : forall k, mom u k (fun a => sgn a 2 * sgn a 0) = mom u k (fun a => sgn a 0 * sgn a 2)) by (intros; unfold mom; f_equal; apply rs_ext; intros; ring).
  assert (C21 : forall k, mom u k (fun a => sgn a 2 * sgn a 1) = mom u k (fun a => sgn a 1 * sgn a 2)) by (intros; unfold mom; f_equal; apply rs_ext; intros; ring).
  set (m3 := fun k => mom u k (fun a => sgn a 0 * sgn a 1 * sgn a 2)).
  set (m01 := fun k => mom u k (fun a => sgn a 0 * sgn a 1)). set (m02 := fun k => mom u k (fun a => sgn a 0 * sgn a 2)). set (m12 := fun k => mom u k (fun a => sgn a 1 * sgn a 2)).
  set (m0 := fun k => mom u k (fun a => sgn a 0)). set (m1 := fun k => mom u k (fun a => sgn a 1)). set (m2 := fun k => mom u k (fun a => sgn a 2)).
  assert (S' : forall q, (q < 8)%nat -> let y c := sgn q c * g in
     (m0 0%nat + y 1%nat * m01 0%nat + y 2%nat * m02 0%nat + y 1%nat * y 2%nat * m3 0%nat = 0) /\
     (m1 1%nat + y 0%nat * m01 1%nat + y 2%nat * m12 1%nat + y 0%nat * y 2%nat * m3 1%nat = 0) /\
     (m2 2%nat + y 0%nat * m02 2%nat + y 1%nat * m12 2%nat + y 0%nat * y 1%nat * m3 2%nat = 0) /\
     (m1 0%nat + y 0%nat * m01 0%nat + y 2%nat * m12 0%nat + y 0%nat * y 2%nat * m3 0%nat + (m0 1%nat + y 1%nat * m01 1%nat + y 2%nat * m02 1%nat + y 1%nat * y 2%nat * m3 1%nat) = 0) /\
     (m2 1%nat + y 0%nat * m02 1%nat + y 1%nat * m12 1%nat + y 0%nat * y 1%nat * m3 1%nat + (m1 2%nat + y 0%nat * m01 2%nat + y 2%nat * m12 2%nat + y 0%nat * y 2%nat * m3 2%nat) = 0) /\
     (m2 0%nat + y 0%nat * m02 0%nat + y 1%nat * m12 0%nat + y 0%nat * y 1%nat * m3 0%nat + (m0 2%nat + y 1%nat * m01 2%nat + y 2%nat * m02 2%nat + y 1%nat * y 2%nat * m3 2%nat) = 0)).
  { intros q Hq. specialize (S q Hq). cbv zeta in S. rewrite !C10, !C20, !C21 in S. exact S. }
  clear S. rename S' into S.
  assert (REC : forall k a, (k < 3)%nat -> (a < 8)%nat -> u (3 * a + k)%nat = 1 / 2 * (mom u k (fun _ => 1) + sgn a 0 * m0 k + sgn a 1 * m1 k + sgn a 2 * m2 k +
     sgn a 0 * sgn a 1 * m01 k + sgn a 0 * sgn a 2 * m02 k + sgn a 1 * sgn a 2 * m12 k + sgn a 0 * sgn a 1 * sgn a 2 * m3 k)).
  { intros k a Hk Ha. unfold m0, m1, m2, m01, m02, m12, m3, mom. clear - Hk Ha.
    do 8 (destruct a as [|a]; [unfold sgn, corner; cbn -[Nat.mul Nat.add]; field|]). lia. }
  clearbody m0 m1 m2 m01 m02 m12 m3.
  assert (Hm : forall q c, sgn q c = 1 \/ sgn q c = -1).
  { intros q c. unfold sgn, corner. destruct c as [|[|c]]; match goal with |- context [if ?t then _ else _] => destruct t end; [right|left|right|left|right|left]; lra. }
  pose proof (S 0%nat ltac:(lia)) as S0. pose proof (S 1%nat ltac:(lia)) as S1. pose proof (S 2%nat ltac:(lia)) as S2. pose proof (S 3%nat ltac:(lia)) as S3.
  pose proof (S 4%nat ltac:(lia)) as S4. pose proof (S 5%nat ltac:(lia)) as S5. pose proof (S 6%nat ltac:(lia)) as S6. pose proof (S 7%nat ltac:(lia)) as S7.
  clear S. unfold sgn, corner in S0, S1, S2, S3, S4, S5, S6, S7. cbn in S0, S1, S2, S3, S4, S5, S6, S7.
  destruct S0 as (a0 & b0 & c0 & d0 & e0 & f0). destruct S1 as (a1 & b1 & c1 & d1 & e1 & f1). destruct S2 as (a2 & b2 & c2 & d2 & e2 & f2). destruct S3 as (a3 & b3 & c3 & d3 & e3 & f3).
  destruct S4 as (a4 & b4 & c4 & d4 & e4 & f4). destruct S5 as (a5 & b5 & c5 & d5 & e5 & f5). destruct S6 as (a6 & b6 & c6 & d6 & e6 & f6). destruct S7 as (a7 & b7 & c7 & d7 & e7 & f7).
  assert (GN : g <> 0) by lra.
  destruct (four_zero g (m0 0%nat) (m01 0%nat) (m02 0%nat) (m3 0%nat) GN) as (A1 & A2 & A3 & A4); [lra..|].
  destruct (four_zero g (m1 1%nat) (m01 1%nat) (m12 1%nat) (m3 1%nat) GN) as (B1 & B2 & B3 & B4); [lra..|].
  destruct (four_zero g (m2 2%nat) (m02 2%nat) (m12 2%nat) (m3 2%nat) GN) as (D1 & D2 & D3 & D4); [lra..|].
  rewrite A2, A4, B2, B4 in d0, d1. rewrite B3, B4, D3, D4 in e0, e4. rewrite A3, A4, D2, D4 in f0, f2.
  destruct (four_zero g (m1 0%nat + m0 1%nat) (m12 0%nat + m02 1%nat) 0 0 GN) as (E1 & E2 & _); [lra..|].
  destruct (four_zero g (m2 1%nat + m1 2%nat) (m02 1%nat + m01 2%nat) 0 0 GN) as (F1 & F2 & _); [lra..|].
  destruct (four_zero g (m2 0%nat + m0 2%nat) (m12 0%nat + m01 2%nat) 0 0 GN) as (G1 & G2 & _); [lra..|].
  set (M := fun k j : nat => match j with O => m0 k | 1%nat => m1 k | _ => m2 k end).
  set (W := fun k j => if (k <? 3)%nat && (j <? 3)%nat then M k j else 0).
  exists (fun k => 1 / 2 * (mom u k (fun _ => 1) - M k 0%nat - M k 1%nat - M k 2%nat)), W. split.
  - intros i j. unfold W, M. destruct i as [|[|[|i]]]; destruct j as [|[|[|j]]]; cbn; lra.
  - intros i Hi. pose proof (Nat.div_mod i 3 ltac:(lia)) as DM. pose proof (Nat.mod_upper_bound i 3 ltac:(lia)) as MB.
    assert (Ha : (i / 3 < 8)%nat) by (apply Nat.div_lt_upper_bound; lia).
    unfold nodal. set (k := (i mod 3)%nat) in *. set (a := (i / 3)%nat) in *. rewrite DM, (REC k a MB Ha). clearbody k a. clear DM REC.
    unfold W, M. cbn [rs]. unfold sgn. destruct k as [|[|[|k]]]; try lia; cbn [Nat.ltb Nat.leb andb].
    + rewrite A1, A2, A3, A4. replace (m12 0%nat) with 0 by lra. field.
    + rewrite B1, B2, B3, B4. replace (m02 1%nat) with 0 by lra. field.
    + rewrite D1, D2, D3, D4. replace (m01 2%nat) with 0 by lra. field.
Qed.
Print Assumptions C92_element_rigid.
(** The default material (0.3, 1) is admissible, and stretching in x does work. *)
Example C92_element_example : admissible 0.3 1 /\ work (KEmat 0.3 1) (nodal (fun _ => 0) (fun i j => if (i =? 0)%nat && (j =? 0)%nat then 1 else 0)) (nodal (fun _ => 0) (fun i j => if (i =? 0)%nat && (j =? 0)%nat then 1 else 0)) = 35 / 26.
Proof.
  split; [unfold admissible; lra|]. destruct (C92_element 0.3 1) as (_ & A & _). rewrite A. unfold density, strain_of, lame, shear. cbn [rs Nat.eqb andb]. field_simplify; try lra. 
Qed.
