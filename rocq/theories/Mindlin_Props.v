(** Property C86: the Mindlin plate weak form is the derivative of the plate energy; rigid motions cost nothing. *)
From Coq Require Import Reals List Arith Bool String Lia Lra.
From Verif Require Import Tmc_Model Tmc_Props Layered_Model Shell_Model Shell_Props.
Import ListNotations.
Open Scope R_scope.

(** Specification, at one point: the displacement gradient [gu] (rows u, v, w), the rotation [th] and its gradient [gth].
    The energy stored per area, for a linear or a von Karman membrane strain; an absent coupling or thermal load is zero. *)
Definition membrane (vk : bool) (gu : mat) : mat := fun i j => 1 / 2 * (gu i j + gu j i) + if vk then 1 / 2 * (gu 2%nat i * gu 2%nat j) else 0.
Definition curvature (gth : mat) : mat := fun i j => 1 / 2 * (gth i j + gth j i).
Definition slope (gu : mat) (th : nat -> R) : nat -> R := fun i => gu 2%nat i + th i.
Definition shear_energy (Gs : mat) (g h : nat -> R) : R := rs 2 (fun i => rs 2 (fun j => g i * Gs i j * h j)).
Definition inner (a b : mat) : R := rs 2 (fun i => rs 2 (fun j => a i j * b i j)).
Definition ocoup (B : option ten) (e k : mat) : R := match B with None => 0 | Some B => energy2 B e k end.
Definition oload (N : option mat) (e : mat) : R := match N with None => 0 | Some N => inner N e end.
Definition plate_energy (A D : ten) (Gs : mat) (B : option ten) (NT MT : option mat) (vk : bool) (th : nat -> R) (gu gth : mat) : R :=
  1 / 2 * energy2 A (membrane vk gu) (membrane vk gu) + ocoup B (membrane vk gu) (curvature gth) + 1 / 2 * energy2 D (curvature gth) (curvature gth)
  + 1 / 2 * shear_energy Gs (slope gu th) (slope gu th) - oload NT (membrane vk gu) - oload MT (curvature gth).
(** What the kernel pairs with a test displacement [du], rotation [dth] and their gradients. *)
Definition pairing (m0 m1 : nat -> R) (g0 g1 : mat) (du dth : nat -> R) (dgu dgth : mat) : R :=
  rs 3 (fun i => m0 i * du i) + rs 2 (fun i => m1 i * dth i) + rs 3 (fun i => rs 2 (fun j => g0 i j * dgu i j)) + rs 2 (fun i => rs 2 (fun j => g1 i j * dgth i j)).
Definition mode (vk : bool) : string := if vk then "von_karman"%string else "linear"%string.
Definition osym4 (B : option ten) : Prop := match B with None => True | Some B => minor2 B /\ major2 B end.
Definition osym2 (N : option mat) : Prop := match N with None => True | Some N => symm N end.

(** Only the two documented strain measures are accepted. *)
Theorem C86_modes A D Gs B NT MT nl th gu gth : (exists r, weak_form A D Gs B NT MT nl th gu gth = Some r) <-> nl = "linear"%string \/ nl = "von_karman"%string.
Proof.
  unfold weak_form, strains. destruct (nl =? "von_karman")%string eqn:E1.
  - apply String.eqb_eq in E1. cbn. split; [right; exact E1|]. eauto.
  - destruct (nl =? "linear")%string eqn:E2; cbn.
    + apply String.eqb_eq in E2. split; [left; exact E2|eauto].
    + apply String.eqb_neq in E1. apply String.eqb_neq in E2. split; [intros [r H]; discriminate|intros [H|H]; contradiction].
Qed.
Print Assumptions C86_modes.

(** The weak form, written out for each measure. *)
Lemma weak_form_eq (A D : ten) (Gs : mat) (B : option ten) (NT MT : option mat) (vk : bool) (th : nat -> R) (gu gth : mat) :
  let e := if vk then fun i j => 1 / 2 * (gu i j + gu j i) + 1 / 2 * (gu 2%nat i * gu 2%nat j) else fun i j => 1 / 2 * (gu i j + gu j i) in
  let k := fun i j => 1 / 2 * (gth i j + gth j i) in
  let N := fun i j => ddot2 A e i j + match B with None => 0 | Some B => ddot2 B k i j end - oadd NT (fun n => n i j) in
  let M := fun i j => ddot2 D k i j + match B with None => 0 | Some B => ddot2 B e i j end - oadd MT (fun m => m i j) in
  let Q := fun i => rs 2 (fun j => Gs i j * (gu 2%nat j + th j)) in
  let q := if vk then fun i => Q i + rs 2 (fun j => N i j * gu 2%nat j) else Q in
  weak_form A D Gs B NT MT (mode vk) th gu gth = Some (fun _ => 0, Q, (fun i j => if (i <? 2)%nat then N i j else q j), M).
Proof. destruct vk; reflexivity. Qed.

Lemma poly_deriv c0 c1 c2 c3 c4 f : (forall t, f t = c0 + c1 * t + c2 * t ^ 2 + c3 * t ^ 3 + c4 * t ^ 4) -> derivable_pt_lim f 0 c1.
Proof.
  intros H. assert (P : forall n c, derivable_pt_lim (fun t => c * t ^ n) 0 (c * (INR n * 0 ^ pred n))) by (intros n c; apply derivable_pt_lim_scal, derivable_pt_lim_pow).
  assert (X : derivable_pt_lim (fun t => c0 + c1 * t + c2 * t ^ 2 + c3 * t ^ 3 + c4 * t ^ 4) 0 (0 + c1 * 1 + c2 * (INR 2 * 0 ^ pred 2) + c3 * (INR 3 * 0 ^ pred 3) + c4 * (INR 4 * 0 ^ pred 4))).
  { repeat apply derivable_pt_lim_plus; try apply P; [apply derivable_pt_lim_const|apply derivable_pt_lim_scal, derivable_pt_lim_id]. }
  cbn [pred pow] in X. replace (0 + c1 * 1 + _ + _ + _) with c1 in X by ring. intros eps He. destruct (X eps He) as [d Hd]. exists d. intros h Hh0 Hh. rewrite !H. apply Hd; assumption.
Qed.
Definition addt (a b : mat) (t : R) : mat := fun i j => a i j + t * b i j.
Definition addv (a b : nat -> R) (t : R) : nat -> R := fun i => a i + t * b i.
(** The strains along a line of states: first and second order parts. *)
Definition mem1 (vk : bool) (gu dgu : mat) : mat := fun i j => 1 / 2 * (dgu i j + dgu j i) + if vk then 1 / 2 * (gu 2%nat i * dgu 2%nat j + dgu 2%nat i * gu 2%nat j) else 0.
Definition mem2 (vk : bool) (dgu : mat) : mat := fun i j => if vk then 1 / 2 * (dgu 2%nat i * dgu 2%nat j) else 0.
Lemma mem_line vk gu dgu t : forall i j, membrane vk (addt gu dgu t) i j = membrane vk gu i j + t * mem1 vk gu dgu i j + t ^ 2 * mem2 vk dgu i j.
Proof. intros i j. unfold membrane, addt, mem1, mem2. destruct vk; field. Qed.
Lemma cur_line gth dgth t : forall i j, curvature (addt gth dgth t) i j = curvature gth i j + t * curvature dgth i j.
Proof. intros i j. unfold curvature, addt. field. Qed.
Lemma slope_line gu dgu th dth t : forall i, slope (addt gu dgu t) (addv th dth t) i = slope gu th i + t * slope dgu dth i.
Proof. intros i. unfold slope, addt, addv. ring. Qed.
Lemma energy2_ext C a b c d : e2 a c -> e2 b d -> energy2 C a b = energy2 C c d.
Proof.
  intros H K. unfold energy2, ddot2. apply rs_ext. intros i Hi. apply rs_ext. intros j Hj. rewrite (H i j Hi Hj). f_equal. apply rs_ext. intros k Hk. apply rs_ext. intros l Hl. rewrite (K k l Hk Hl). reflexivity.
Qed.
Lemma energy2_plus_l C a b c : energy2 C (fun i j => a i j + b i j) c = energy2 C a c + energy2 C b c.
Proof. unfold energy2. cbn [rs]. ring. Qed.
Lemma energy2_plus_r C a b c : energy2 C c (fun i j => a i j + b i j) = energy2 C c a + energy2 C c b.
Proof. unfold energy2, ddot2. cbn [rs]. ring. Qed.
Lemma energy2_scale_l C t b c : energy2 C (fun i j => t * b i j) c = t * energy2 C b c.
Proof. unfold energy2. cbn [rs]. ring. Qed.
Lemma energy2_scale_r C t b c : energy2 C c (fun i j => t * b i j) = t * energy2 C c b.
Proof. unfold energy2, ddot2. cbn [rs]. ring. Qed.
Lemma energy2_sym C a b : major2 C -> energy2 C a b = energy2 C b a.
Proof.
  intros H. unfold energy2, ddot2.
  rewrite (rs_ext 2 _ (fun i => rs 2 (fun j => rs 2 (fun k => rs 2 (fun l => C i j k l * a i j * b k l))))).
  2: { intros i _. apply rs_ext. intros j _. rewrite <- rs_scale. apply rs_ext. intros k _. rewrite <- rs_scale. apply rs_ext. intros; ring. }
  rewrite (rs_ext 2 (fun i => rs 2 (fun j => b i j * _)) (fun i => rs 2 (fun j => rs 2 (fun k => rs 2 (fun l => C i j k l * b i j * a k l))))).
  2: { intros i _. apply rs_ext. intros j _. rewrite <- rs_scale. apply rs_ext. intros k _. rewrite <- rs_scale. apply rs_ext. intros; ring. }
  cbn [rs]. rewrite (H 0 0 0 1)%nat, (H 0 0 1 0)%nat, (H 0 0 1 1)%nat, (H 0 1 1 0)%nat, (H 0 1 1 1)%nat, (H 1 0 1 1)%nat by lia. ring.
Qed.
Lemma quartic C (e0 e1 e2' : mat) t : major2 C ->
  energy2 C (fun i j => e0 i j + t * e1 i j + t ^ 2 * e2' i j) (fun i j => e0 i j + t * e1 i j + t ^ 2 * e2' i j) =
  energy2 C e0 e0 + 2 * energy2 C e1 e0 * t + (energy2 C e1 e1 + 2 * energy2 C e0 e2') * t ^ 2 + 2 * energy2 C e1 e2' * t ^ 3 + energy2 C e2' e2' * t ^ 4.
Proof.
  intros H. rewrite (energy2_plus_l C (fun i j => e0 i j + t * e1 i j) (fun i j => t ^ 2 * e2' i j)), (energy2_plus_l C e0 (fun i j => t * e1 i j)).
  rewrite !(energy2_plus_r C (fun i j => e0 i j + t * e1 i j) (fun i j => t ^ 2 * e2' i j)), !(energy2_plus_r C e0 (fun i j => t * e1 i j)).
  rewrite !energy2_scale_l, !energy2_scale_r. rewrite (energy2_sym C e0 e1 H), (energy2_sym C e2' e0 H), (energy2_sym C e2' e1 H). ring.
Qed.
(** The work of the two-index resultants against the first-order strains. *)
Lemma pair_mem vk N gu dgu : symm N -> inner N (mem1 vk gu dgu) =
  rs 2 (fun i => rs 2 (fun j => N i j * dgu i j)) + (if vk then rs 2 (fun j => rs 2 (fun k => N j k * gu 2%nat k) * dgu 2%nat j) else 0).
Proof. intros S. assert (S1 : N 1%nat 0%nat = N 0%nat 1%nat) by (apply S; lia). unfold inner, mem1. destruct vk; cbn [rs]; rewrite S1; field. Qed.
Lemma pair_cur M dgth : symm M -> inner M (curvature dgth) = rs 2 (fun i => rs 2 (fun j => M i j * dgth i j)).
Proof. intros S. assert (S1 : M 1%nat 0%nat = M 0%nat 1%nat) by (apply S; lia). unfold inner, curvature. cbn [rs]. rewrite S1. field. Qed.
Lemma ddot2_symm C e : minor2 C -> symm (ddot2 C e).
Proof. intros H i j Hi Hj. unfold ddot2. apply rs_ext. intros k Hk. apply rs_ext. intros l Hl. rewrite (proj1 (H i j k l Hi Hj Hk Hl)). reflexivity. Qed.
Lemma energy2_inner C a b : energy2 C a b = inner (ddot2 C b) a.
Proof. unfold energy2, inner. apply rs_ext. intros i _. apply rs_ext. intros j _. ring. Qed.
Lemma inner_plus N M a : inner (fun i j => N i j + M i j) a = inner N a + inner M a.
Proof. unfold inner. cbn [rs]. ring. Qed.

(** For every laminate, state and direction, and both strain measures: the weak form paired with the direction is the
    derivative of the stored energy along it. *)
Theorem C86_variational A D Gs B NT MT vk th gu gth m0 m1 g0 g1 du dth dgu dgth :
  minor2 A -> major2 A -> minor2 D -> major2 D -> osym4 B -> osym2 NT -> osym2 MT -> symm Gs ->
  weak_form A D Gs B NT MT (mode vk) th gu gth = Some (m0, m1, g0, g1) ->
  derivable_pt_lim (fun t => plate_energy A D Gs B NT MT vk (fun i => th i + t * dth i) (fun i j => gu i j + t * dgu i j) (fun i j => gth i j + t * dgth i j)) 0
    (pairing m0 m1 g0 g1 du dth dgu dgth).
Proof.
  intros A1 A2 D1 D2 HB HN HM HG HW.
  set (e := membrane vk gu). set (k := curvature gth). set (s := slope gu th). set (e1 := mem1 vk gu dgu). set (k1 := curvature dgth). set (s1 := slope dgu dth). set (ee := mem2 vk dgu).
  assert (Sv : forall a b, shear_energy Gs a b = shear_energy Gs b a).
  { intros a b. assert (S1 : Gs 1%nat 0%nat = Gs 0%nat 1%nat) by (apply HG; lia). unfold shear_energy. cbn [rs]. rewrite S1. ring. }
  assert (C1 : pairing m0 m1 g0 g1 du dth dgu dgth = energy2 A e1 e + ocoup B e1 k + ocoup B e k1 + energy2 D k1 k + shear_energy Gs s1 s - oload NT e1 - oload MT k1).
  { assert (SS : exists N M, symm N /\ symm M /\ (forall x, inner N x = energy2 A x e + ocoup B x k - oload NT x) /\ (forall x, inner M x = energy2 D x k + ocoup B e x - oload MT x) /\
       m0 = (fun _ => 0) /\ m1 = (fun i => rs 2 (fun j => Gs i j * s j)) /\ g1 = M /\
       g0 = (fun i j => if (i <? 2)%nat then N i j else rs 2 (fun q => Gs j q * s q) + if vk then rs 2 (fun q => N j q * gu 2%nat q) else 0)).
    { assert (EX : exists N M, N = (fun i j => ddot2 A e i j + match B with None => 0 | Some B => ddot2 B k i j end - oadd NT (fun n => n i j)) /\
         M = (fun i j => ddot2 D k i j + match B with None => 0 | Some B => ddot2 B e i j end - oadd MT (fun m => m i j)) /\
         m0 = (fun _ => 0) /\ m1 = (fun i => rs 2 (fun j => Gs i j * s j)) /\ g1 = M /\
         g0 = (fun i j => if (i <? 2)%nat then N i j else rs 2 (fun q => Gs j q * s q) + if vk then rs 2 (fun q => N j q * gu 2%nat q) else 0)).
      { assert (L : (fun i j : nat => 1 / 2 * (gu i j + gu j i)) = (fun i j => 1 / 2 * (gu i j + gu j i) + 0)).
        { apply FunctionalExtensionality.functional_extensionality; intro i. apply FunctionalExtensionality.functional_extensionality; intro j. ring. }
        do 2 eexists. split; [reflexivity|]. split; [reflexivity|]. rewrite weak_form_eq in HW; destruct vk; inversion HW; subst; clear HW.
        - unfold e, k, s, membrane, curvature, slope. auto.
        - unfold e, k, s, membrane, curvature, slope. rewrite <- L. repeat (split; [reflexivity|]).
          apply FunctionalExtensionality.functional_extensionality; intro i. apply FunctionalExtensionality.functional_extensionality; intro j. destruct (i <? 2)%nat; [reflexivity|]. cbn [rs]. ring. }
      destruct EX as (N & M & EN & EM & Rest). exists N, M. split; [|split; [|split; [|split; [|exact Rest]]]]; clear Rest.
      - rewrite EN. intros i j Hi Hj. rewrite (ddot2_symm A e A1 i j Hi Hj). f_equal; [f_equal|].
        + destruct B as [B'|]; [|reflexivity]. apply ddot2_symm; [apply HB|assumption..].
        + destruct NT as [n|]; [|reflexivity]. cbn [oadd]. apply HN; assumption.
      - rewrite EM. intros i j Hi Hj. rewrite (ddot2_symm D k D1 i j Hi Hj). f_equal; [f_equal|].
        + destruct B as [B'|]; [|reflexivity]. apply ddot2_symm; [apply HB|assumption..].
        + destruct MT as [n|]; [|reflexivity]. cbn [oadd]. apply HM; assumption.
      - intros x. rewrite EN. destruct B as [B'|], NT as [n|]; cbn [ocoup oload oadd]; rewrite ?energy2_inner; unfold inner; cbn [rs]; ring.
      - intros x. rewrite EM. destruct B as [B'|], MT as [n|]; cbn [ocoup oload oadd]; rewrite ?(energy2_sym B' e x) by apply HB; rewrite ?energy2_inner; unfold inner; cbn [rs]; ring. }
    destruct SS as (N & M & SN & SM & IN & IM & -> & -> & -> & ->).
    assert (P1 : inner N e1 = energy2 A e1 e + ocoup B e1 k - oload NT e1) by apply IN. assert (P2 : inner M k1 = energy2 D k1 k + ocoup B e k1 - oload MT k1) by apply IM.
    transitivity (inner N e1 + inner M k1 + shear_energy Gs s1 s); [|rewrite P1, P2; ring].
    unfold e1, k1. rewrite (pair_mem vk N gu dgu SN), (pair_cur M dgth SM). unfold pairing, shear_energy, s1, slope at 1. destruct vk; cbn [rs Nat.ltb Nat.leb]; unfold slope; ring. }
  rewrite C1.
  apply (poly_deriv (plate_energy A D Gs B NT MT vk th gu gth)
    (energy2 A e1 e + ocoup B e1 k + ocoup B e k1 + energy2 D k1 k + shear_energy Gs s1 s - oload NT e1 - oload MT k1)
    (1 / 2 * (energy2 A e1 e1 + 2 * energy2 A e ee) + ocoup B e1 k1 + ocoup B ee k + 1 / 2 * energy2 D k1 k1 + 1 / 2 * shear_energy Gs s1 s1 - oload NT ee)
    (energy2 A e1 ee + ocoup B ee k1) (1 / 2 * energy2 A ee ee)).
  intros t. unfold plate_energy. fold e k s.
  assert (M1 : e2 (membrane vk (fun i j => gu i j + t * dgu i j)) (fun i j => e i j + t * e1 i j + t ^ 2 * ee i j)) by (intros i j _ _; apply mem_line).
  assert (K1 : e2 (curvature (fun i j => gth i j + t * dgth i j)) (fun i j => k i j + t * k1 i j + t ^ 2 * 0)) by (intros i j _ _; rewrite (cur_line gth dgth t i j : curvature (fun i j => gth i j + t * dgth i j) i j = _); unfold k, k1; ring).
  assert (S1 : forall i, slope (fun i j => gu i j + t * dgu i j) (fun i => th i + t * dth i) i = s i + t * s1 i) by (intros i; apply slope_line).
  rewrite (energy2_ext A _ _ _ _ M1 M1), (energy2_ext D _ _ _ _ K1 K1), (quartic A e e1 ee t A2), (quartic D k k1 (fun _ _ => 0) t D2).
  assert (Z : forall x, energy2 D x (fun _ _ => 0) = 0) by (intros x; unfold energy2, ddot2; cbn [rs]; ring). rewrite !Z.
  assert (HB' : ocoup B (membrane vk (fun i j => gu i j + t * dgu i j)) (curvature (fun i j => gth i j + t * dgth i j)) =
    ocoup B e k + (ocoup B e1 k + ocoup B e k1) * t + (ocoup B e1 k1 + ocoup B ee k) * t ^ 2 + ocoup B ee k1 * t ^ 3).
  { destruct B as [B'|]; cbn [ocoup]; [|ring]. rewrite (energy2_ext B' _ _ _ _ M1 K1).
    rewrite (energy2_plus_l B' (fun i j => e i j + t * e1 i j) (fun i j => t ^ 2 * ee i j)), (energy2_plus_l B' e (fun i j => t * e1 i j)).
    rewrite !(energy2_plus_r B' (fun i j => k i j + t * k1 i j) (fun i j => t ^ 2 * 0)), !(energy2_plus_r B' k (fun i j => t * k1 i j)). rewrite !energy2_scale_l, !energy2_scale_r.
    assert (Zb : forall x, energy2 B' x (fun _ _ => 0) = 0) by (intros x; unfold energy2, ddot2; cbn [rs]; ring). rewrite !Zb. ring. }
  rewrite HB'.
  assert (HL : oload NT (membrane vk (fun i j => gu i j + t * dgu i j)) = oload NT e + oload NT e1 * t + oload NT ee * t ^ 2).
  { destruct NT as [n|]; cbn [oload]; [|ring]. unfold inner. cbn [rs]. rewrite !M1 by lia. ring. }
  assert (HL2 : oload MT (curvature (fun i j => gth i j + t * dgth i j)) = oload MT k + oload MT k1 * t).
  { destruct MT as [n|]; cbn [oload]; [|ring]. unfold inner. cbn [rs]. rewrite !K1 by lia. ring. }
  rewrite HL, HL2.
  assert (HS : shear_energy Gs (slope (fun i j => gu i j + t * dgu i j) (fun i => th i + t * dth i)) (slope (fun i j => gu i j + t * dgu i j) (fun i => th i + t * dth i)) =
    shear_energy Gs s s + 2 * shear_energy Gs s1 s * t + shear_energy Gs s1 s1 * t ^ 2).
  { transitivity (shear_energy Gs s s + (shear_energy Gs s1 s + shear_energy Gs s s1) * t + shear_energy Gs s1 s1 * t ^ 2); [|rewrite (Sv s s1); ring].
    unfold shear_energy. cbn [rs]. rewrite !S1. ring. }
  rewrite HS. rewrite (energy2_sym A e ee A2) || idtac. field.
Qed.
Print Assumptions C86_variational.

(** Work of a state's resultants against another state, for the linear plate without thermal load. *)
Definition linear_work (A D : ten) (Gs : mat) (B : option ten) (th : nat -> R) (gu gth : mat) (dth : nat -> R) (dgu dgth : mat) : option R :=
  match weak_form A D Gs B None None "linear" th gu gth with Some (m0, m1, g0, g1) => Some (pairing m0 m1 g0 g1 (fun _ => 0) dth dgu dgth) | None => None end.
(** The linear plate is self-adjoint (its element matrix is symmetric) and stores no negative energy; with definite stiffness only a state without strain stores none. *)
Theorem C86_linear A D Gs B th gu gth dth dgu dgth : minor2 A -> major2 A -> minor2 D -> major2 D -> osym4 B -> symm Gs ->
  let E := fun e k => energy2 A e e + 2 * ocoup B e k + energy2 D k k in
  linear_work A D Gs B th gu gth dth dgu dgth = linear_work A D Gs B dth dgu dgth th gu gth /\
  linear_work A D Gs B th gu gth th gu gth = Some (E (membrane false gu) (curvature gth) + shear_energy Gs (slope gu th) (slope gu th)) /\
  ((forall e k, symm e -> symm k -> 0 <= E e k) -> (forall g, 0 <= shear_energy Gs g g) -> exists w, linear_work A D Gs B th gu gth th gu gth = Some w /\ 0 <= w) /\
  ((forall e k, symm e -> symm k -> 0 <= E e k /\ (E e k = 0 -> e2 e zero2 /\ e2 k zero2)) -> (forall g, 0 <= shear_energy Gs g g /\ (shear_energy Gs g g = 0 -> forall i, (i < 2)%nat -> g i = 0)) ->
     linear_work A D Gs B th gu gth th gu gth = Some 0 -> e2 (membrane false gu) zero2 /\ e2 (curvature gth) zero2 /\ forall i, (i < 2)%nat -> gu 2%nat i = - th i).
Proof.
  intros A1 A2 D1 D2 HB HG E.
  assert (W : forall th gu gth dth dgu dgth, linear_work A D Gs B th gu gth dth dgu dgth =
     Some (energy2 A (membrane false dgu) (membrane false gu) + ocoup B (membrane false dgu) (curvature gth) + ocoup B (membrane false gu) (curvature dgth) + energy2 D (curvature dgth) (curvature gth) + shear_energy Gs (slope dgu dth) (slope gu th))).
  { clear th gu gth dth dgu dgth. intros th gu gth dth dgu dgth. unfold linear_work.
    destruct (weak_form A D Gs B None None "linear" th gu gth) as [[[[m0 m1] g0] g1]|] eqn:HW; [|exfalso; destruct (proj2 (C86_modes A D Gs B None None "linear" th gu gth) (or_introl eq_refl)) as [r Hr]; rewrite HW in Hr; discriminate].
    f_equal. change "linear"%string with (mode false) in HW. rewrite weak_form_eq in HW. inversion HW; subst; clear HW.
    set (e := membrane false gu). set (k := curvature gth). set (s := slope gu th).
    assert (Ee : (fun i j : nat => 1 / 2 * (gu i j + gu j i)) = e).
    { unfold e, membrane. apply FunctionalExtensionality.functional_extensionality; intro i. apply FunctionalExtensionality.functional_extensionality; intro j. ring. }
    rewrite !Ee. change (fun i j : nat => 1 / 2 * (gth i j + gth j i)) with k. 
    assert (SN : symm (fun i j => ddot2 A e i j + match B with None => 0 | Some B0 => ddot2 B0 k i j end - 0)).
    { intros i j Hi Hj. rewrite (ddot2_symm A e A1 i j Hi Hj). f_equal. f_equal. destruct B as [B'|]; [|reflexivity]. apply ddot2_symm; [apply HB|assumption..]. }
    assert (SM : symm (fun i j => ddot2 D k i j + match B with None => 0 | Some B0 => ddot2 B0 e i j end - 0)).
    { intros i j Hi Hj. rewrite (ddot2_symm D k D1 i j Hi Hj). f_equal. f_equal. destruct B as [B'|]; [|reflexivity]. apply ddot2_symm; [apply HB|assumption..]. }
    pose proof (pair_mem false _ gu dgu SN) as PN. pose proof (pair_cur _ dgth SM) as PM.
    transitivity (inner (fun i j => ddot2 A e i j + match B with None => 0 | Some B0 => ddot2 B0 k i j end - 0) (mem1 false gu dgu) + inner (fun i j => ddot2 D k i j + match B with None => 0 | Some B0 => ddot2 B0 e i j end - 0) (curvature dgth) + shear_energy Gs (slope dgu dth) s).
    - rewrite PN, PM. unfold pairing, shear_energy, s, slope. cbn [rs Nat.ltb Nat.leb oadd]. ring.
    - change (mem1 false gu dgu) with (membrane false dgu). rewrite (energy2_inner A), (energy2_inner D). destruct B as [B'|]; cbn [ocoup].
      + rewrite (energy2_sym B' e (curvature dgth)) by apply HB. rewrite !(energy2_inner B'). unfold inner. cbn [rs]. ring.
      + unfold inner. cbn [rs]. ring. }
  assert (Sg : forall a b, shear_energy Gs a b = shear_energy Gs b a).
  { intros a b. assert (S1 : Gs 1%nat 0%nat = Gs 0%nat 1%nat) by (apply HG; lia). unfold shear_energy. cbn [rs]. rewrite S1. ring. }
  assert (D0 : linear_work A D Gs B th gu gth th gu gth = Some (E (membrane false gu) (curvature gth) + shear_energy Gs (slope gu th) (slope gu th))) by (rewrite W; f_equal; unfold E; ring).
  assert (Sm : symm (membrane false gu)) by (intros i j _ _; unfold membrane; ring). assert (Sk : symm (curvature gth)) by (intros i j _ _; unfold curvature; ring).
  split; [|split; [exact D0|split]].
  - rewrite !W. f_equal. rewrite (energy2_sym A _ (membrane false gu) A2), (energy2_sym D _ (curvature gth) D2), (Sg _ (slope gu th)). ring.
  - intros HE HS. eexists. split; [exact D0|]. pose proof (HE _ _ Sm Sk). pose proof (HS (slope gu th)). lra.
  - intros HE HS H. rewrite D0 in H. inversion H as [H0]. destruct (HE _ _ Sm Sk) as [P1 P2]. destruct (HS (slope gu th)) as [Q1 Q2].
    destruct P2 as [X Y]; [lra|]. split; [exact X|]. split; [exact Y|]. intros i Hi. assert (Z : slope gu th i = 0) by (apply Q2; [lra|exact Hi]). unfold slope in Z. lra.
Qed.
Print Assumptions C86_linear.

(** Rigid motions leave every residual entry zero: translations, in-plane rotation (skew gradient), and tilts with the
    fibre following; under von Karman strains the tilt needs the second-order in-plane shortening. *)
Theorem C86_rigid A D Gs B (vk : bool) (th : nat -> R) (gu gth : mat) (a : nat -> R) m0 m1 g0 g1 :
  (forall i j, (i < 2)%nat -> (j < 2)%nat -> gu i j + gu j i = if vk then - (a i * a j) else 0) -> (forall j, (j < 2)%nat -> gu 2%nat j = a j /\ th j = - a j) ->
  (forall i j, (i < 2)%nat -> (j < 2)%nat -> gth i j + gth j i = 0) ->
  weak_form A D Gs B None None (mode vk) th gu gth = Some (m0, m1, g0, g1) ->
  (forall i, m0 i = 0) /\ (forall i, (i < 2)%nat -> m1 i = 0) /\ (forall i j, (i < 3)%nat -> (j < 2)%nat -> g0 i j = 0) /\ (forall i j, (i < 2)%nat -> (j < 2)%nat -> g1 i j = 0).
Proof.
  intros H1 H2 H3 HW.
  assert (Q : forall i, rs 2 (fun j => Gs i j * (gu 2%nat j + th j)) = 0).
  { intros i. apply rs_zero. intros j Hj. destruct (H2 j Hj) as [-> ->]. ring. }
  assert (K : forall C i j, ddot2 C (fun i j => 1 / 2 * (gth i j + gth j i)) i j = 0).
  { intros C i j. unfold ddot2. apply rs_zero. intros k Hk. apply rs_zero. intros l Hl. rewrite H3 by assumption. ring. }
  assert (M : forall C i j, ddot2 C (fun i j => 1 / 2 * (gu i j + gu j i) + if vk then 1 / 2 * (gu 2%nat i * gu 2%nat j) else 0) i j = 0).
  { intros C i j. unfold ddot2. apply rs_zero. intros k Hk. apply rs_zero. intros l Hl. rewrite H1 by assumption. destruct (H2 k Hk) as [-> _]. destruct (H2 l Hl) as [-> _]. destruct vk; field. }
  rewrite weak_form_eq in HW; destruct vk; inversion HW; subst; clear HW.
  - assert (N : forall i j, ddot2 A (fun i j => 1 / 2 * (gu i j + gu j i) + 1 / 2 * (gu 2%nat i * gu 2%nat j)) i j + match B with None => 0 | Some B0 => ddot2 B0 (fun i j => 1 / 2 * (gth i j + gth j i)) i j end - 0 = 0).
    { intros i j. rewrite M. destruct B; rewrite ?K; ring. }
    split; [reflexivity|split; [|split]].
    + intros i _. apply Q.
    + intros i j _ _. cbv beta zeta. destruct (i <? 2)%nat; [apply N|].  match goal with |- ?a + ?b = 0 => replace a with 0 by (symmetry; apply Q) end. rewrite !N. ring.
    + intros i j _ _. unfold oadd. rewrite K. destruct B; rewrite ?M; ring.
  - assert (M0 : forall C i j, ddot2 C (fun i j => 1 / 2 * (gu i j + gu j i)) i j = 0).
    { intros C i j. rewrite <- (M C i j). unfold ddot2. apply rs_ext. intros k _. apply rs_ext. intros l _. ring. }
    split; [reflexivity|split; [|split]].
    + intros i _. apply Q.
    + intros i j _ _. destruct (i <? 2)%nat; [|apply Q]. unfold oadd. rewrite M0. destruct B; rewrite ?K; ring.
    + intros i j _ _. unfold oadd. rewrite K. destruct B; rewrite ?M0; ring.
Qed.
Print Assumptions C86_rigid.

(** A flat plate does not see the difference between the two measures, and a missing coupling or load is a zero one. *)
Theorem C86_defaults A D Gs (th : nat -> R) (gu gth : mat) :
  (forall i, (i < 2)%nat -> gu 2%nat i = 0) ->
  forall B NT MT m0 m1 g0 g1 n0 n1 h0 h1, weak_form A D Gs B NT MT "linear" th gu gth = Some (m0, m1, g0, g1) ->
    weak_form A D Gs (Some match B with Some b => b | None => zero4 end) (Some match NT with Some n => n | None => zero2 end) (Some match MT with Some n => n | None => zero2 end) "von_karman" th gu gth = Some (n0, n1, h0, h1) ->
    (forall i, m0 i = n0 i) /\ (forall i, m1 i = n1 i) /\ (forall i j, (i < 3)%nat -> (j < 2)%nat -> g0 i j = h0 i j) /\ (forall i j, g1 i j = h1 i j).
Proof.
  intros F B NT MT m0 m1 g0 g1 n0 n1 h0 h1 H1 H2. change "linear"%string with (mode false) in H1; change "von_karman"%string with (mode true) in H2. rewrite weak_form_eq in H1, H2. inversion H1; subst; clear H1. inversion H2; subst; clear H2.
  assert (X : forall C i j, ddot2 C (fun i j => 1 / 2 * (gu i j + gu j i) + 1 / 2 * (gu 2%nat i * gu 2%nat j)) i j = ddot2 C (fun i j => 1 / 2 * (gu i j + gu j i)) i j).
  { intros C i j. unfold ddot2. apply rs_ext. intros k Hk. apply rs_ext. intros l Hl. rewrite (F k Hk). ring. }
  assert (Z : forall e i j, ddot2 zero4 e i j = 0) by (intros e i j; unfold ddot2, zero4; cbn [rs]; ring).
  split; [reflexivity|split; [reflexivity|split]].
  - intros i j Hi Hj. destruct (i <? 2)%nat; [|cbn [rs]; rewrite (F 0%nat), (F 1%nat) by lia; ring]. rewrite X. destruct B, NT; cbn [oadd]; rewrite ?Z; unfold zero2; ring.
  - intros i j. destruct B, MT; cbn [oadd]; rewrite ?X, ?Z; unfold zero2; ring.
Qed.
Print Assumptions C86_defaults.

(** An isotropic plate meets the hypotheses: symmetric, and definite in strain, curvature and shear. *)
Example C86_isotropic : let A := iso2 1 (3 / 10) in let D := fun i j k l => 1 / 12 * iso2 1 (3 / 10) i j k l in
  minor2 A /\ major2 A /\ minor2 D /\ major2 D /\ symm kd /\
  (forall e k, symm e -> symm k -> 0 <= energy2 A e e + 2 * ocoup None e k + energy2 D k k /\ (energy2 A e e + 2 * ocoup None e k + energy2 D k k = 0 -> e2 e zero2 /\ e2 k zero2)) /\
  (forall g, 0 <= shear_energy kd g g /\ (shear_energy kd g g = 0 -> forall i, (i < 2)%nat -> g i = 0)).
Proof.
  intros A D. destruct (C85_isotropic 1 (3 / 10)) as (H1 & H2 & _); [lra..|].
  assert (P : forall e, symm e -> energy2 A e e = (30 / 91) * ((e 0%nat 0%nat + e 1%nat 1%nat) * (e 0%nat 0%nat + e 1%nat 1%nat)) + (10 / 13) * (e 0%nat 0%nat * e 0%nat 0%nat + e 1%nat 1%nat * e 1%nat 1%nat + 2 * (e 0%nat 1%nat * e 0%nat 1%nat))).
  { intros e S. assert (S1 : e 1%nat 0%nat = e 0%nat 1%nat) by (apply S; lia). unfold A, energy2, ddot2, iso2, kd. cbn [rs Nat.eqb]. rewrite S1. field. }
  assert (PD : forall k, energy2 D k k = 1 / 12 * energy2 A k k) by (intros k; unfold D, A, energy2, ddot2; cbn [rs]; ring).
  assert (Nn : forall e, symm e -> 0 <= energy2 A e e). { intros e S. rewrite (P e S). pose proof (Rle_0_sqr (e 0%nat 0%nat + e 1%nat 1%nat)). pose proof (Rle_0_sqr (e 0%nat 0%nat)). pose proof (Rle_0_sqr (e 1%nat 1%nat)). pose proof (Rle_0_sqr (e 0%nat 1%nat)). unfold Rsqr in *. lra. }
  assert (Df : forall e, symm e -> energy2 A e e = 0 -> e2 e zero2).
  { intros e S Z. rewrite (P e S) in Z. pose proof (Rle_0_sqr (e 0%nat 0%nat + e 1%nat 1%nat)) as Q0. pose proof (Rle_0_sqr (e 0%nat 0%nat)) as Q1. pose proof (Rle_0_sqr (e 1%nat 1%nat)) as Q2. pose proof (Rle_0_sqr (e 0%nat 1%nat)) as Q3.
    assert (S1 : e 1%nat 0%nat = e 0%nat 1%nat) by (apply S; lia). unfold Rsqr in *.
    assert (Y0 : e 0%nat 0%nat = 0) by (apply Rsqr_0_uniq; unfold Rsqr; lra). assert (Y1 : e 1%nat 1%nat = 0) by (apply Rsqr_0_uniq; unfold Rsqr; lra). assert (Y2 : e 0%nat 1%nat = 0) by (apply Rsqr_0_uniq; unfold Rsqr; lra).
    intros i j Hi Hj. unfold zero2. ix2 i; ix2 j; try assumption. rewrite S1; exact Y2. }
  split; [exact H1|]. split; [exact H2|]. split; [intros i j k l Hi Hj Hk Hl; unfold D; destruct (H1 i j k l Hi Hj Hk Hl) as [X Y]; unfold A in *; split; [rewrite <- X|rewrite <- Y]; reflexivity|].
  split; [intros i j k l Hi Hj Hk Hl; unfold D; rewrite (H2 i j k l Hi Hj Hk Hl); reflexivity|].
  split; [intros i j _ _; unfold kd; rewrite Nat.eqb_sym; reflexivity|]. split.
  - intros e k Se Sk. cbn [ocoup]. rewrite PD. pose proof (Nn e Se). pose proof (Nn k Sk). split; [lra|]. intros Z. split; apply Df; try assumption; lra.
  - intros g. assert (X : shear_energy kd g g = g 0%nat * g 0%nat + g 1%nat * g 1%nat) by (unfold shear_energy, kd; cbn [rs Nat.eqb]; ring). rewrite X.
    pose proof (Rle_0_sqr (g 0%nat)). pose proof (Rle_0_sqr (g 1%nat)). unfold Rsqr in *. split; [lra|]. intros Z i Hi. ix2 i; apply Rsqr_0_uniq; unfold Rsqr; lra.
Qed.
Print Assumptions C86_isotropic.
