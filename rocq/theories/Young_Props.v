(** C66: the directional Young's modulus. *)
From Verif Require Import Base Csr_Model Kernel_Model Kernel_Proofs SensFilter_Props Young_Model.

(** Voigt vectors: stress [(s11, s22, s33, s23, s13, s12)], strain with engineering shears. *)
Section Spec.
  Variable K : CRing.
  Local Open Scope ring_K.
  (** The uniaxial stress [n (x) n]. *)
  Definition uniaxial (n : list K) : list K :=
    [get n 0 * get n 0; get n 1 * get n 1; get n 2 * get n 2; get n 1 * get n 2; get n 0 * get n 2; get n 0 * get n 1].
  (** The strain tensor of an engineering strain vector [e]. *)
  Definition strain_tensor (half : K) (e : list K) (i j : nat) : K :=
    get2 [[get e 0; half * get e 5; half * get e 4];
          [half * get e 5; get e 1; half * get e 3];
          [half * get e 4; half * get e 3; get e 2]] i j.
  (** Elongation in direction [n]: [n . eps n]. *)
  Definition elongation (half : K) (e n : list K) : K :=
    Sum 3 (fun i => Sum 3 (fun j => strain_tensor half e i j * get n i * get n j)).
  Definition mat6 (M : list (list K)) (v : list K) (i : nat) : K := Sum 6 (fun j => get2 M i j * get v j).
  Definition dot3 (a b : list K) : K := Sum 3 (fun i => get a i * get b i).
  (** Isotropic compliance of Young's modulus [1/e] and Poisson ratio [nu]. *)
  Definition iso_compliance (e nu : K) : list (list K) :=
    let o := 0 in let m := - (nu * e) in let s := (1 + 1) * (1 + nu) * e in
    [[e; m; m; o; o; o]; [m; e; m; o; o; o]; [m; m; e; o; o; o]; [o; o; o; s; o; o]; [o; o; o; o; s; o]; [o; o; o; o; o; s]].
End Spec.
Arguments uniaxial {K}. Arguments strain_tensor {K}. Arguments elongation {K}. Arguments mat6 {K}. Arguments dot3 {K}.
Arguments iso_compliance {K}.

Section Proofs.
  Variable K : CRing.
  Add Ring Kring66 : (cth K).
  Local Open Scope ring_K.
  Variable half : K.
  Hypothesis H2 : half + half = 1.

  (** Voigt index of a pair of tensor indices. *)
  Definition vi (a b : nat) : nat := nth b (nth a [[0; 5; 4]; [5; 1; 3]; [4; 3; 2]]%nat []) 0%nat.
  Definition shear (i : nat) : K := if (2 <? i)%nat then half else 1.
  Lemma tensor_entry (S : list (list K)) a b c d : a < 3 -> b < 3 -> c < 3 -> d < 3 ->
    compliance_tensor half S a b c d = get2 S (vi a b) (vi c d) * shear (vi a b) * shear (vi c d).
  Proof.
    intros Ha Hb Hc Hd.
    destruct a as [|[|[|a]]]; try lia; destruct b as [|[|[|b]]]; try lia;
      destruct c as [|[|[|c]]]; try lia; destruct d as [|[|[|d]]]; try lia; reflexivity.
  Qed.

  (** [sum_ijkl S_ijkl n_i n_j n_k n_l = s . S s] with [s] the Voigt form of [n (x) n]. *)
  Lemma compliance_voigt (S : list (list K)) n :
    directional_compliance half S n = Sum 6 (fun i => get (uniaxial n) i * mat6 S (uniaxial n) i).
  Proof.
    unfold directional_compliance.
    set (w := fun i : nat => Sum 3 (fun a => Sum 3 (fun b => if (vi a b =? i)%nat then shear i * get n a * get n b else 0))).
    assert (W : forall i, i < 6 -> w i = get (uniaxial n) i).
    { intros i Hi. unfold w, Sum, uniaxial, shear. cbn [seq sumf].
      generalize (get n 0) (get n 1) (get n 2). intros x y z.
      destruct i as [|[|[|[|[|[|i]]]]]]; try lia; unfold vi, get, Nat.ltb; cbn [nth Nat.eqb Nat.leb]; try ring.
      - transitivity ((half + half) * (y * z)); [|rewrite H2]; ring.
      - transitivity ((half + half) * (x * z)); [|rewrite H2]; ring.
      - transitivity ((half + half) * (x * y)); [|rewrite H2]; ring. }
    transitivity (Sum 6 (fun i => w i * Sum 6 (fun j => get2 S i j * w j))).
    2:{ unfold mat6. apply Sum_ext. intros i Hi. rewrite W by exact Hi. f_equal. apply Sum_ext. intros j Hj. rewrite W by exact Hj. reflexivity. }
    transitivity (Sum 3 (fun a => Sum 3 (fun c => Sum 3 (fun b => Sum 3 (fun d =>
       get n a * get n b * get n c * get n d * (get2 S (vi a b) (vi c d) * shear (vi a b) * shear (vi c d))))))).
    { apply Sum_ext. intros a Ha. apply Sum_ext. intros c Hc.
      rewrite <- Sum_mul_l. rewrite <- Sum_mul_r. apply Sum_ext. intros b Hb.
      rewrite <- Sum_mul_l. rewrite <- Sum_mul_r. apply Sum_ext. intros d Hd. rewrite tensor_entry by assumption. ring. }
    unfold w, Sum. cbn [seq sumf]. unfold vi. cbn [nth Nat.eqb]. ring.
  Qed.

  Lemma voigt_work (s e : list K) n : (forall i, i < 6 -> get s i = get (uniaxial n) i) ->
    Sum 6 (fun i => get s i * get e i) = elongation half e n.
  Proof.
    intros Hs. rewrite (Sum_ext K 6 _ (fun i => get (uniaxial n) i * get e i)) by (intros i Hi; rewrite Hs by exact Hi; reflexivity).
    unfold elongation, strain_tensor, uniaxial, Sum. cbn [seq sumf]. unfold get2.
    generalize (get n 0) (get n 1) (get n 2) (get e 0) (get e 1) (get e 2) (get e 3) (get e 4) (get e 5).
    intros x y z a b c d f g. unfold get. cbn [nth].
    transitivity (x * x * a + y * y * b + z * z * c + (half + half) * (y * z * d + x * z * f + x * y * g)); [rewrite H2|]; ring.
  Qed.

  Lemma inverse6 (S C : list (list K)) (e : list K) (s : nat -> K) :
    (forall i j, i < 6 -> j < 6 -> Sum 6 (fun k => get2 S i k * get2 C k j) = if (i =? j)%nat then 1 else 0) ->
    (forall i, i < 6 -> mat6 C e i = s i) ->
    forall i, i < 6 -> Sum 6 (fun k => get2 S i k * s k) = get e i.
  Proof.
    intros HI He i Hi.
    transitivity (Sum 6 (fun k => Sum 6 (fun j => get2 S i k * get2 C k j * get e j))).
    { apply Sum_ext. intros k Hk. rewrite <- He by exact Hk. unfold mat6. rewrite <- Sum_mul_l. apply Sum_ext. intros; ring. }
    rewrite (Sum_swap K 6 6).
    transitivity (Sum 6 (fun j => if (j =? i)%nat then get e j else 0)).
    { apply Sum_ext. intros j Hj. rewrite Sum_mul_r, HI by assumption. rewrite (Nat.eqb_sym j i). destruct (i =? j)%nat; ring. }
    apply Sum_single. exact Hi.
  Qed.

  Lemma iso_voigt (e nu : K) n :
    Sum 6 (fun i => get (uniaxial n) i * mat6 (iso_compliance e nu) (uniaxial n) i) = e * (dot3 n n * dot3 n n).
  Proof.
    unfold mat6, dot3, uniaxial, iso_compliance, Sum. cbn [seq sumf]. unfold get2.
    generalize (get n 0) (get n 1) (get n 2). intros x y z. unfold get. cbn [nth]. ring.
  Qed.
  Lemma scaling (t : K) (S : list (list K)) n : length n = 3 ->
    directional_compliance half S (map (cmul t) n) = t * t * (t * t) * directional_compliance half S n.
  Proof.
    intros Hl. destruct n as [|x [|y [|z [|? ?]]]]; try discriminate Hl.
    unfold directional_compliance, Sum. cbn [seq sumf map]. generalize (compliance_tensor half S). intros T.
    unfold get. cbn [nth]. ring.
  Qed.
  Lemma sphere_unit (st ct sp cp : K) : st * st + ct * ct = 1 -> sp * sp + cp * cp = 1 ->
    dot3 [st * cp; st * sp; ct] [st * cp; st * sp; ct] = 1.
  Proof.
    intros Ht Hp. unfold dot3, Sum. cbn [seq sumf]. unfold get. cbn [nth].
    transitivity (st * st * (sp * sp + cp * cp) + ct * ct); [ring|]. rewrite Hp. transitivity (st * st + ct * ct); [ring|exact Ht].
  Qed.
End Proofs.

(** E(n) is stress over strain in the tension test along [n]: if the strain [e] is the one the
    stiffness [C] answers with the uniaxial stress [n (x) n], then E(n) times the elongation
    [n . eps n] is one. *)
Theorem C66_tension_test (K : CRing) (half : K) (kinv : K -> K) (C S : list (list K)) (n e : list K) :
  cadd half half = c1 ->
  (forall i j, i < 6 -> j < 6 -> Sum 6 (fun k => cmul (get2 S i k) (get2 C k j)) = if i =? j then c1 else c0) ->
  (forall i, i < 6 -> mat6 C e i = get (uniaxial n) i) ->
  cmul (kinv (elongation half e n)) (elongation half e n) = c1 ->
  cmul (youngs_modulus half kinv S n) (elongation half e n) = c1.
Proof.
  intros H2 HI He Hk.
  assert (D : directional_compliance half S n = elongation half e n).
  { rewrite compliance_voigt by exact H2. rewrite <- (voigt_work K half H2 (uniaxial n)) by reflexivity.
    apply Sum_ext. intros i Hi. f_equal. apply (inverse6 K S C e (fun i => get (uniaxial n) i) HI He i Hi). }
  unfold youngs_modulus. rewrite D. exact Hk.
Qed.
Print Assumptions C66_tension_test.

(** An isotropic material has the same modulus in every unit direction: the one it was given. *)
Theorem C66_isotropic (K : CRing) (half : K) (kinv : K -> K) (e nu : K) (n : list K) :
  cadd half half = c1 -> dot3 n n = c1 -> youngs_modulus half kinv (iso_compliance e nu) n = kinv e.
Proof.
  intros H2 Hn. unfold youngs_modulus. f_equal. rewrite compliance_voigt by exact H2.
  rewrite iso_voigt, Hn. pose proof (cth K) as R. rewrite (Rmul_comm R), (Rmul_1_l R), (Rmul_1_l R). reflexivity.
Qed.
Print Assumptions C66_isotropic.

(** The direction is not normalised: a direction [t] times as long multiplies the compliance by
    [t^4] (and so divides the modulus by it). *)
Theorem C66_scaling (K : CRing) (half t : K) (S : list (list K)) (n : list K) : length n = 3 ->
  directional_compliance half S (map (cmul t) n) = cmul (cmul (cmul t t) (cmul t t)) (directional_compliance half S n).
Proof. intros Hl. apply (scaling K half). exact Hl. Qed.
Print Assumptions C66_scaling.

(** The sphere of an isotropic material is a sphere: every sampled modulus is the material's. *)
Theorem C66_sphere_isotropic (K : CRing) (half : K) (kinv : K -> K) (e nu : K) snth csth snph csph nth_ nph :
  cadd half half = c1 ->
  (forall j, j < nth_ -> cadd (cmul (snth j) (snth j)) (cmul (csth j) (csth j)) = c1) ->
  (forall i, i < nph -> cadd (cmul (snph i) (snph i)) (cmul (csph i) (csph i)) = c1) ->
  sphere_moduli half kinv snth csth snph csph (iso_compliance e nu) nth_ nph = repeat (kinv e) (nph * nth_).
Proof.
  intros H2 Ht Hp. unfold sphere_moduli, sphere_dirs. rewrite map_map.
  rewrite <- (seq_length nph 0) at 2. rewrite <- (seq_length nth_ 0) at 2. rewrite <- prod_length.
  assert (A : forall ij, In ij (list_prod (seq 0 nph) (seq 0 nth_)) ->
     youngs_modulus half kinv (iso_compliance e nu)
       [cmul (snth (snd ij)) (csph (fst ij)); cmul (snth (snd ij)) (snph (fst ij)); csth (snd ij)] = kinv e).
  { intros [i j] Hij. apply in_prod_iff in Hij. destruct Hij as [Hi Hj]. apply in_seq in Hi. apply in_seq in Hj.
    apply C66_isotropic; [exact H2|]. apply sphere_unit; [apply Ht|apply Hp]; cbn; lia. }
  induction (list_prod (seq 0 nph) (seq 0 nth_)) as [|x l IH]; [reflexivity|].
  cbn [map length repeat]. rewrite (A x (or_introl eq_refl)). f_equal. apply IH. intros y Hy. apply A. right. exact Hy.
Qed.
Print Assumptions C66_sphere_isotropic.

(** The cells written for the sphere: point [p] carries the direction of grid position
    [(p / n_theta, p mod n_theta)]; the cells are exactly the unit squares of that grid, corner by
    corner around the square, each once, and refer to existing points only. *)
Theorem C66_sphere_cells nth_ nph :
  NoDup (sphere_cells nth_ nph) /\
  (forall c, In c (sphere_cells nth_ nph) -> forall p, In p c -> p < nph * nth_) /\
  (forall c, In c (sphere_cells nth_ nph) <->
     exists i j, i + 1 < nph /\ j + 1 < nth_ /\
       map (fun p => (p / nth_, p mod nth_)) c = [(i, j); (i, j + 1); (i + 1, j + 1); (i + 1, j)]).
Proof.
  assert (I : forall c, In c (sphere_cells nth_ nph) <-> exists i j, i + 1 < nph /\ j + 1 < nth_ /\
     c = [i * nth_ + j; i * nth_ + (j + 1); (i + 1) * nth_ + (j + 1); (i + 1) * nth_ + j]).
  { intros c. unfold sphere_cells. rewrite in_flat_map. split.
    - intros [i [Hi H]]. apply in_map_iff in H. destruct H as [j [<- Hj]]. apply in_seq in Hi. apply in_seq in Hj.
      exists i, j. repeat split; lia.
    - intros (i & j & Hi & Hj & ->). exists i. split; [apply in_seq; lia|]. apply in_map_iff. exists j.
      split; [reflexivity|apply in_seq; lia]. }
  assert (U : forall i j, j < nth_ -> ((i * nth_ + j) / nth_, (i * nth_ + j) mod nth_) = (i, j)).
  { intros i j Hj. f_equal.
    - rewrite (Nat.mul_comm i), Nat.add_comm. symmetry. rewrite Nat.add_comm. apply (Nat.div_unique _ _ _ j); lia.
    - symmetry. apply (Nat.mod_unique _ _ i); lia. }
  split; [|split].
  - apply NoDup_flat_map; [apply seq_NoDup| |].
    + intros i _. apply NoDup_map_on; [apply seq_NoDup|]. intros a b _ _ E. apply (f_equal (hd 0)) in E. cbn in E. lia.
    + intros i i' c Hi Hi' Hc Hc'. apply in_map_iff in Hc. apply in_map_iff in Hc'.
      destruct Hc as [j [Ej Hj]], Hc' as [j' [Ej' Hj']]. apply in_seq in Hj. apply in_seq in Hj'.
      rewrite <- Ej in Ej'. apply (f_equal (hd 0)) in Ej'. cbn in Ej'.
      pose proof (U i j ltac:(lia)) as A. rewrite <- Ej', U in A by lia. congruence.
  - intros c Hc p Hp. apply I in Hc. destruct Hc as (i & j & Hi & Hj & ->).
    assert (i * nth_ + nth_ + nth_ <= nph * nth_) by nia. cbn in Hp.
    destruct Hp as [<-|[<-|[<-|[<-|[]]]]]; nia.
  - intros c. rewrite I. split; intros (i & j & Hi & Hj & E); exists i, j; split; try exact Hi; split; try exact Hj.
    + rewrite E. cbn [map]. rewrite !U by lia. reflexivity.
    + destruct c as [|p0 [|p1 [|p2 [|p3 [|? ?]]]]]; try discriminate E. cbn [map] in E.
      assert (D : forall p a b, (p / nth_, p mod nth_) = (a, b) -> p = a * nth_ + b).
      { intros p a b X. assert (p / nth_ = a /\ p mod nth_ = b) as [<- <-] by (split; congruence).
        pose proof (Nat.div_mod p nth_ ltac:(lia)). lia. }
      rewrite (D p0 i j), (D p1 i (j + 1)), (D p2 (i + 1) (j + 1)), (D p3 (i + 1) j); try reflexivity; congruence.
Qed.
Print Assumptions C66_sphere_cells.

From Coq Require Import QArith Qcanon.
From Verif Require Import Homog_Props.
Local Close Scope Qc_scope. Local Close Scope Q_scope. Local Open Scope nat_scope.
(** A cubic material with moduli [C11 = 3], [C12 = 1], [C44 = 5]: [E] along the diagonal
    [(1, 1, 1)] (not normalised) and along the axes, and the strain of the tension test. *)
Definition cubic_C : list (list QcR) := map (map qc)
  [[3; 1; 1; 0; 0; 0]; [1; 3; 1; 0; 0; 0]; [1; 1; 3; 0; 0; 0]; [0; 0; 0; 5; 0; 0]; [0; 0; 0; 0; 5; 0]; [0; 0; 0; 0; 0; 5]]%Z.
Definition cubic_S : list (list QcR) :=
  let a := Q2Qc (2 # 5) in let b := Q2Qc (- 1 # 10) in let s := Q2Qc (1 # 5) in let o := qc 0 in
  [[a; b; b; o; o; o]; [b; a; b; o; o; o]; [b; b; a; o; o; o]; [o; o; o; s; o; o]; [o; o; o; o; s; o]; [o; o; o; o; o; s]].
Definition cubic_n : list QcR := [qc 1; qc 1; qc 1].
Definition cubic_e : list QcR := let a := Q2Qc (1 # 5) in [a; a; a; a; a; a].
Example C66_example :
  cadd qhalf qhalf = c1 /\
  (forall i j, i < 6 -> j < 6 -> Sum 6 (fun k => cmul (get2 cubic_S i k) (get2 cubic_C k j)) = if i =? j then c1 else c0) /\
  (forall i, i < 6 -> mat6 cubic_C cubic_e i = get (uniaxial cubic_n) i) /\
  cmul (qinv (elongation qhalf cubic_e cubic_n)) (elongation qhalf cubic_e cubic_n) = c1 /\
  youngs_modulus qhalf qinv cubic_S cubic_n = Q2Qc (5 # 6) /\
  youngs_modulus qhalf qinv cubic_S [qc 1; qc 0; qc 0] = Q2Qc (5 # 2).
Proof.
  split; [apply Qc_is_canon; vm_compute; reflexivity|].
  split; [intros i j Hi Hj; do 6 (destruct i as [|i]; [do 6 (destruct j as [|j]; [apply Qc_is_canon; vm_compute; reflexivity|]); lia|]); lia|].
  split; [intros i Hi; do 6 (destruct i as [|i]; [apply Qc_is_canon; vm_compute; reflexivity|]); lia|].
  split; [|split]; apply Qc_is_canon; vm_compute; reflexivity.
Qed.
(** Rational points of the circle as sines and cosines. *)
Definition circ_n : list QcR := [Q2Qc (3 # 5); Q2Qc (4 # 5); qc 0].
Example C66_example_sphere :
  dot3 circ_n circ_n = c1 /\
  youngs_modulus qhalf qinv (iso_compliance (Q2Qc (1 # 7) : QcR) (Q2Qc (1 # 3))) circ_n = qc 7 /\
  sphere_cells 3 3 = [[0; 1; 4; 3]; [1; 2; 5; 4]; [3; 4; 7; 6]; [4; 5; 8; 7]].
Proof. split; [|split]; [apply Qc_is_canon; vm_compute; reflexivity..|reflexivity]. Qed.
