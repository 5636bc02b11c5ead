(** C117: for scalar fields the default quadrature of the element types sees every gradient. *)
From Coq Require Import Reals Lra String List Arith ZArith Lia.
From Verif Require Import Base Basis_Model Basis_Spec FaceQuad_Model FaceQuad_Props Serendip_Model Serendip_Props ShapeFn_Model ShapeFn_Props Underint_Props.
Import ListNotations.
Local Open Scope string_scope.
Local Open Scope list_scope.
Local Open Scope R_scope.

(** The points of basix.make_quadrature for an order: one or more Gauss points per axis on squares and cubes, and the rules with one point and with three (four) points on the triangle (tetrahedron,
    where the number [t] solves 20 t^2 - 10 t + 1 = 0). Orders above the default ones are left out. *)
Definition quad_rule (e : string) (order : nat) (p : rpoint) : Prop :=
  if one_of e ["HEX8"; "HEX20"; "QUAD4"; "QUAD8"; "QUAD9"] then
    let axis (s : R) := match order with
      | 0%nat | 1%nat => s = 0
      | 2%nat | 3%nat => s * s = 1 / 3
      | 4%nat | 5%nat => s = 0 \/ s * s = 3 / 5
      | _ => False end in
    axis (2 * px p - 1) /\ axis (2 * py p - 1) /\ (solid e = true -> axis (2 * pz p - 1))
  else if one_of e ["TRI3"; "TRI6"] then
    match order with
    | 0%nat | 1%nat => px p = 1 / 3 /\ py p = 1 / 3
    | 2%nat => In (px p, py p) [(1 / 6, 1 / 6); (2 / 3, 1 / 6); (1 / 6, 2 / 3)]
    | _ => False end
  else
    match order with
    | 0%nat | 1%nat => px p = 1 / 4 /\ py p = 1 / 4 /\ pz p = 1 / 4
    | 2%nat => exists t, 20 * (t * t) - 10 * t + 1 = 0 /\ t < 1 / 4 /\ In p [(t, t, t); (1 - 3 * t, t, t); (t, 1 - 3 * t, t); (t, t, 1 - 3 * t)]
    | _ => False end.
(** The default rule of a type (basis.py:64-127). *)
Definition on_rule (e : string) (p : rpoint) : Prop := match get_elements e with Some (_, _, order, _) => quad_rule e order p | None => False end.
Definition rule_types : list string := ["HEX8"; "TET4"; "TET10"; "QUAD4"; "QUAD8"; "QUAD9"; "TRI3"; "TRI6"].
Definition field_at (kappa : R) (e : string) (c : nat -> R) (p : rpoint) : R := total (node_count e) (fun a => val kappa e a p * c a).

Lemma parabola_zero (f : R -> R) : (forall h, f h = f 0 + h * ((f 1 - f (-1)) / 2) + h * h * ((f 1 + f (-1) - 2 * f 0) / 2)) -> derivable_pt_lim f 0 0 -> f 1 - f (-1) = 0.
Proof. intros E D. pose proof (uniqueness_limite f 0 _ _ (parabola_lim f _ _ _ E) D). lra. Qed.
Ltac rcbv := cbv -[IZR Rplus Rminus Rmult Ropp Rinv Rdiv].
Lemma field_x kappa e c p : In e rule_types -> ddx (field_at kappa e c) p 0 -> field_at kappa e c (px p + 1, py p, pz p) - field_at kappa e c (px p + -1, py p, pz p) = 0.
Proof.
  intros H D. apply (parabola_zero (fun h => field_at kappa e c (px p + h, py p, pz p))); [|exact D]. clear D. intros h. destruct p as [[x y] z]. unfold rule_types in H. simpl In in H. repeat (destruct H as [<-|H]; [|]); [..|contradiction]; rcbv; field.
Qed.
Lemma field_y kappa e c p : In e rule_types -> ddy (field_at kappa e c) p 0 -> field_at kappa e c (px p, py p + 1, pz p) - field_at kappa e c (px p, py p + -1, pz p) = 0.
Proof.
  intros H D. apply (parabola_zero (fun h => field_at kappa e c (px p, py p + h, pz p))); [|exact D]. clear D. intros h. destruct p as [[x y] z]. unfold rule_types in H. simpl In in H. repeat (destruct H as [<-|H]; [|]); [..|contradiction]; rcbv; field.
Qed.
Lemma field_z kappa e c p : In e rule_types -> ddz (field_at kappa e c) p 0 -> field_at kappa e c (px p, py p, pz p + 1) - field_at kappa e c (px p, py p, pz p + -1) = 0.
Proof.
  intros H D. apply (parabola_zero (fun h => field_at kappa e c (px p, py p, pz p + h))); [|exact D]. clear D. intros h. destruct p as [[x y] z]. unfold rule_types in H. simpl In in H. repeat (destruct H as [<-|H]; [|]); [..|contradiction]; rcbv; field.
Qed.
Definition flat_at (kappa : R) (e : string) (c : nat -> R) (p : rpoint) : Prop :=
  ddx (field_at kappa e c) p 0 /\ ddy (field_at kappa e c) p 0 /\ (solid e = true -> ddz (field_at kappa e c) p 0).
Ltac in_types := unfold rule_types; simpl In; tauto.
Lemma tri3 kappa c : (forall p, on_rule "TRI3" p -> flat_at kappa "TRI3" c p) -> c 1%nat = c 0%nat /\ c 2%nat = c 0%nat.
Proof.
  intros F. destruct (F (1 / 3, 1 / 3, 0)) as (A & B & _); [split; reflexivity|]. apply field_x in A; [|in_types]. apply field_y in B; [|in_types]. cbv -[IZR Rplus Rminus Rmult Ropp Rinv Rdiv] in A, B. lra.
Qed.
Lemma tet4 kappa c : (forall p, on_rule "TET4" p -> flat_at kappa "TET4" c p) -> c 1%nat = c 0%nat /\ c 2%nat = c 0%nat /\ c 3%nat = c 0%nat.
Proof.
  intros F. destruct (F (1 / 4, 1 / 4, 1 / 4)) as (A & B & C); [split; [|split]; reflexivity|]. specialize (C eq_refl). apply field_x in A; [|in_types]. apply field_y in B; [|in_types]. apply field_z in C; [|in_types].
  cbv -[IZR Rplus Rminus Rmult Ropp Rinv Rdiv] in A, B, C. lra.
Qed.
Ltac point2 F p H := let A := fresh "E" in let B := fresh "E" in
  destruct (F p H) as (A & B & _); apply field_x in A; [|in_types]; apply field_y in B; [|in_types]; cbv -[IZR Rplus Rminus Rmult Ropp Rinv Rdiv] in A, B.
Ltac point3 F p H := let A := fresh "E" in let B := fresh "E" in let C := fresh "E" in
  destruct (F p H) as (A & B & C); specialize (C eq_refl); apply field_x in A; [|in_types]; apply field_y in B; [|in_types]; apply field_z in C; [|in_types]; cbv -[IZR Rplus Rminus Rmult Ropp Rinv Rdiv] in A, B, C.
Lemma tri6 kappa c : (forall p, on_rule "TRI6" p -> flat_at kappa "TRI6" c p) -> c 1%nat = c 0%nat /\ c 2%nat = c 0%nat /\ c 3%nat = c 0%nat /\ c 4%nat = c 0%nat /\ c 5%nat = c 0%nat.
Proof.
  intros F. assert (H1 : on_rule "TRI6" (1 / 6, 1 / 6, 0)) by (left; reflexivity). assert (H2 : on_rule "TRI6" (2 / 3, 1 / 6, 0)) by (right; left; reflexivity). assert (H3 : on_rule "TRI6" (1 / 6, 2 / 3, 0)) by (right; right; left; reflexivity).
  point2 F (1 / 6, 1 / 6, 0) H1. point2 F (2 / 3, 1 / 6, 0) H2. point2 F (1 / 6, 2 / 3, 0) H3. lra.
Qed.
Lemma gauss2_quad g sx sy : g * g = 1 / 3 -> sx * sx = 1 -> sy * sy = 1 -> forall e sz, sz * sz = 1 -> In e ["QUAD4"; "QUAD8"; "HEX8"] -> on_rule e (1 / 2 + sx * g / 2, 1 / 2 + sy * g / 2, 1 / 2 + sz * g / 2).
Proof.
  intros G X Y e sz Z H. assert (Q : forall s, s * s = 1 -> (2 * (1 / 2 + s * g / 2) - 1) * (2 * (1 / 2 + s * g / 2) - 1) = 1 / 3).
  { intros s S. replace ((2 * (1 / 2 + s * g / 2) - 1) * (2 * (1 / 2 + s * g / 2) - 1)) with ((s * s) * (g * g)) by field. rewrite S, G. ring. }
  simpl In in H. destruct H as [<-|[<-|[<-|[]]]]; (split; [exact (Q sx X)|split; [exact (Q sy Y)|intros _; exact (Q sz Z)]]).
Qed.
Lemma root_third : exists g, g * g = 1 / 3.
Proof. exists (sqrt (1 / 3)). apply sqrt_sqrt. lra. Qed.
(** Powers of [g] times [x] reduced. *)
Ltac powers g G x := let P := fresh "P" in let Q := fresh "P" in
  assert (P : g * g * x = x / 3) by (rewrite G; field); assert (Q : g * g * g * x = g * x / 3) by (replace (g * g * g * x) with ((g * g) * (g * x)) by ring; rewrite G; field).
Ltac times g E := let X := fresh "T" in pose proof (f_equal (Rmult g) E) as X; cbv beta in X.
Lemma quad4 kappa c : (forall p, on_rule "QUAD4" p -> flat_at kappa "QUAD4" c p) -> c 1%nat = c 0%nat /\ c 2%nat = c 0%nat /\ c 3%nat = c 0%nat.
Proof.
  intros F. destruct root_third as [g G]. assert (O1 : 1 * 1 = 1) by ring. assert (M1 : -1 * -1 = 1) by ring.
  point2 F (1 / 2 + 1 * g / 2, 1 / 2 + 1 * g / 2, 1 / 2 + 1 * g / 2) (gauss2_quad g 1 1 G O1 O1 "QUAD4" 1 O1 ltac:(simpl; tauto)).
  point2 F (1 / 2 + -1 * g / 2, 1 / 2 + -1 * g / 2, 1 / 2 + 1 * g / 2) (gauss2_quad g (-1) (-1) G M1 M1 "QUAD4" 1 O1 ltac:(simpl; tauto)).
  times g E. times g E0. times g E1. times g E2.
  powers g G (c 0%nat). powers g G (c 1%nat). powers g G (c 2%nat). powers g G (c 3%nat). repeat split; lra.
Qed.
Lemma hex8 kappa c : (forall p, on_rule "HEX8" p -> flat_at kappa "HEX8" c p) -> c 1%nat = c 0%nat /\ c 2%nat = c 0%nat /\ c 3%nat = c 0%nat /\ c 4%nat = c 0%nat /\ c 5%nat = c 0%nat /\ c 6%nat = c 0%nat /\ c 7%nat = c 0%nat.
Proof.
  intros F. destruct root_third as [g G]. assert (O1 : 1 * 1 = 1) by ring. assert (M1 : -1 * -1 = 1) by ring.
  point3 F (1 / 2 + 1 * g / 2, 1 / 2 + 1 * g / 2, 1 / 2 + 1 * g / 2) (gauss2_quad g 1 1 G O1 O1 "HEX8" 1 O1 ltac:(simpl; tauto)).
  point3 F (1 / 2 + 1 * g / 2, 1 / 2 + -1 * g / 2, 1 / 2 + -1 * g / 2) (gauss2_quad g 1 (-1) G O1 M1 "HEX8" (-1) M1 ltac:(simpl; tauto)).
  point3 F (1 / 2 + -1 * g / 2, 1 / 2 + 1 * g / 2, 1 / 2 + -1 * g / 2) (gauss2_quad g (-1) 1 G M1 O1 "HEX8" (-1) M1 ltac:(simpl; tauto)).
  point3 F (1 / 2 + -1 * g / 2, 1 / 2 + -1 * g / 2, 1 / 2 + 1 * g / 2) (gauss2_quad g (-1) (-1) G M1 M1 "HEX8" 1 O1 ltac:(simpl; tauto)).
 times g E. times g E0. times g E1. times g E2. times g E3. times g E4. times g E5. times g E6. times g E7. times g E8. times g E9. times g E10.
  powers g G (c 0%nat). powers g G (c 1%nat). powers g G (c 2%nat). powers g G (c 3%nat). powers g G (c 4%nat). powers g G (c 5%nat). powers g G (c 6%nat). powers g G (c 7%nat).
  repeat split; lra.
Qed.
Lemma root_tet : exists t, 20 * (t * t) - 10 * t + 1 = 0 /\ t < 1 / 4.
Proof. exists ((5 - sqrt 5) / 20). assert (S : sqrt 5 * sqrt 5 = 5) by (apply sqrt_sqrt; lra). assert (P := sqrt_lt_R0 5 ltac:(lra)). split; [|lra]. replace (20 * ((5 - sqrt 5) / 20 * ((5 - sqrt 5) / 20)) - 10 * ((5 - sqrt 5) / 20) + 1) with ((sqrt 5 * sqrt 5 - 5) / 20) by field. rewrite S. field. Qed.
Lemma tet10 kappa c : (forall p, on_rule "TET10" p -> flat_at kappa "TET10" c p) -> c 1%nat = c 0%nat /\ c 2%nat = c 0%nat /\ c 3%nat = c 0%nat /\ c 4%nat = c 0%nat /\ c 5%nat = c 0%nat /\ c 6%nat = c 0%nat /\ c 7%nat = c 0%nat /\ c 8%nat = c 0%nat /\ c 9%nat = c 0%nat.
Proof.
  intros F. destruct root_tet as (t & T & TL). assert (T2 : t * t = t / 2 - 1 / 20) by lra.
  assert (W : forall p, In p [(t, t, t); (1 - 3 * t, t, t); (t, 1 - 3 * t, t); (t, t, 1 - 3 * t)] -> on_rule "TET10" p) by (intros p Hp; exists t; auto).
  assert (H1 := W (t, t, t) ltac:(simpl; tauto)). assert (H2 := W (1 - 3 * t, t, t) ltac:(simpl; tauto)). assert (H3 := W (t, 1 - 3 * t, t) ltac:(simpl; tauto)). assert (H4 := W (t, t, 1 - 3 * t) ltac:(simpl; tauto)).
  point3 F (t, t, t) H1. point3 F (1 - 3 * t, t, t) H2. point3 F (t, 1 - 3 * t, t) H3. point3 F (t, t, 1 - 3 * t) H4.
  times t E. times t E0. times t E1. times t E2. times t E3. times t E4. times t E5. times t E6. times t E7. times t E8. times t E9. times t E10.
  assert (R0 : t * t * c 0%nat = (t / 2 - 1 / 20) * c 0%nat) by (rewrite T2; reflexivity). assert (R1 : t * t * c 1%nat = (t / 2 - 1 / 20) * c 1%nat) by (rewrite T2; reflexivity). assert (R2 : t * t * c 2%nat = (t / 2 - 1 / 20) * c 2%nat) by (rewrite T2; reflexivity). assert (R3 : t * t * c 3%nat = (t / 2 - 1 / 20) * c 3%nat) by (rewrite T2; reflexivity). assert (R4 : t * t * c 4%nat = (t / 2 - 1 / 20) * c 4%nat) by (rewrite T2; reflexivity). assert (R5 : t * t * c 5%nat = (t / 2 - 1 / 20) * c 5%nat) by (rewrite T2; reflexivity). assert (R6 : t * t * c 6%nat = (t / 2 - 1 / 20) * c 6%nat) by (rewrite T2; reflexivity). assert (R7 : t * t * c 7%nat = (t / 2 - 1 / 20) * c 7%nat) by (rewrite T2; reflexivity). assert (R8 : t * t * c 8%nat = (t / 2 - 1 / 20) * c 8%nat) by (rewrite T2; reflexivity). assert (R9 : t * t * c 9%nat = (t / 2 - 1 / 20) * c 9%nat) by (rewrite T2; reflexivity).
  repeat split; lra.
Qed.
(** The same field with midside coefficients that are values. *)
Definition as_values (kappa : R) (e : string) (c : nat -> R) (a : nat) : R :=
  if (a <? length (meshio_vertices e))%nat then c a else kappa * c a + (1 - kappa) * (c (fst (ends e a)) + c (snd (ends e a))) / 2.
Lemma field_values kappa e c p : In e ser_types -> field_at kappa e c p = field_at 1 e (as_values kappa e c) p.
Proof. intros H. destruct p as [[x y] z]. ser_cases H; cbv -[IZR Rplus Rminus Rmult Ropp Rinv Rdiv]; field. Qed.
Lemma quad8 c : (forall p, on_rule "QUAD8" p -> flat_at 1 "QUAD8" c p) -> c 1%nat = c 0%nat /\ c 2%nat = c 0%nat /\ c 3%nat = c 0%nat /\ c 4%nat = c 0%nat /\ c 5%nat = c 0%nat /\ c 6%nat = c 0%nat /\ c 7%nat = c 0%nat.
Proof.
  intros F. destruct root_third as [g G]. assert (O1 : 1 * 1 = 1) by ring. assert (M1 : -1 * -1 = 1) by ring.
  point2 F (1 / 2 + 1 * g / 2, 1 / 2 + 1 * g / 2, 1 / 2 + 1 * g / 2) (gauss2_quad g 1 1 G O1 O1 "QUAD8" 1 O1 ltac:(simpl; tauto)).
  point2 F (1 / 2 + 1 * g / 2, 1 / 2 + -1 * g / 2, 1 / 2 + 1 * g / 2) (gauss2_quad g 1 (-1) G O1 M1 "QUAD8" 1 O1 ltac:(simpl; tauto)).
  point2 F (1 / 2 + -1 * g / 2, 1 / 2 + 1 * g / 2, 1 / 2 + 1 * g / 2) (gauss2_quad g (-1) 1 G M1 O1 "QUAD8" 1 O1 ltac:(simpl; tauto)).
  point2 F (1 / 2 + -1 * g / 2, 1 / 2 + -1 * g / 2, 1 / 2 + 1 * g / 2) (gauss2_quad g (-1) (-1) G M1 M1 "QUAD8" 1 O1 ltac:(simpl; tauto)).
 times g E. times g E0. times g E1. times g E2. times g E3. times g E4. times g E5. times g E6.
  powers g G (c 0%nat). powers g G (c 1%nat). powers g G (c 2%nat). powers g G (c 3%nat). powers g G (c 4%nat). powers g G (c 5%nat). powers g G (c 6%nat). powers g G (c 7%nat).
  repeat split; lra.
Qed.
Lemma root_three_fifths : exists g, g * g = 3 / 5.
Proof. exists (sqrt (3 / 5)). apply sqrt_sqrt. lra. Qed.
Ltac powers9 g G x := let P := fresh "P" in let Q := fresh "P" in let R := fresh "P" in
  assert (P : g * g * x = 3 / 5 * x) by (rewrite G; field); assert (Q : g * g * g * x = 3 / 5 * (g * x)) by (replace (g * g * g * x) with ((g * g) * (g * x)) by ring; rewrite G; field);
  assert (R : g * g * g * g * x = 9 / 25 * x) by (replace (g * g * g * g * x) with ((g * g) * (g * g) * x) by ring; rewrite G; field).
Lemma quad9 kappa c : (forall p, on_rule "QUAD9" p -> flat_at kappa "QUAD9" c p) -> c 1%nat = c 0%nat /\ c 2%nat = c 0%nat /\ c 3%nat = c 0%nat /\ c 4%nat = c 0%nat /\ c 5%nat = c 0%nat /\ c 6%nat = c 0%nat /\ c 7%nat = c 0%nat /\ c 8%nat = c 0%nat.
Proof.
  intros F. destruct root_three_fifths as [g G].
  assert (W : forall x y, In x [-1; 0; 1] -> In y [-1; 0; 1] -> on_rule "QUAD9" (1 / 2 + x * g / 2, 1 / 2 + y * g / 2, 0)).
  { assert (Q : forall x, In x [-1; 0; 1] -> 2 * (1 / 2 + x * g / 2) - 1 = 0 \/ (2 * (1 / 2 + x * g / 2) - 1) * (2 * (1 / 2 + x * g / 2) - 1) = 3 / 5).
    { intros x [<-|[<-|[<-|[]]]]; [right|left|right]; [|field|]; rewrite <- G; field. }
    intros x y Hx Hy. split; [exact (Q x Hx)|split; [exact (Q y Hy)|intros D; discriminate D]]. }
  assert (I0 : In (-1) [-1; 0; 1]) by (simpl; tauto). assert (I1 : In 0 [-1; 0; 1]) by (simpl; tauto). assert (I2 : In 1 [-1; 0; 1]) by (simpl; tauto).
  point2 F (1 / 2 + -1 * g / 2, 1 / 2 + -1 * g / 2, 0) (W (-1) (-1) I0 I0).
  point2 F (1 / 2 + -1 * g / 2, 1 / 2 + 0 * g / 2, 0) (W (-1) (0) I0 I1).
  point2 F (1 / 2 + -1 * g / 2, 1 / 2 + 1 * g / 2, 0) (W (-1) (1) I0 I2).
  point2 F (1 / 2 + 0 * g / 2, 1 / 2 + -1 * g / 2, 0) (W (0) (-1) I1 I0).
  point2 F (1 / 2 + 0 * g / 2, 1 / 2 + 0 * g / 2, 0) (W (0) (0) I1 I1).
  point2 F (1 / 2 + 0 * g / 2, 1 / 2 + 1 * g / 2, 0) (W (0) (1) I1 I2).
  point2 F (1 / 2 + 1 * g / 2, 1 / 2 + -1 * g / 2, 0) (W (1) (-1) I2 I0).
  point2 F (1 / 2 + 1 * g / 2, 1 / 2 + 0 * g / 2, 0) (W (1) (0) I2 I1).
  point2 F (1 / 2 + 1 * g / 2, 1 / 2 + 1 * g / 2, 0) (W (1) (1) I2 I2).
 times g E. times g E0. times g E1. times g E2. times g E3. times g E4. times g E5. times g E6. times g E7. times g E8. times g E9. times g E10. times g E11. times g E12. times g E13. times g E14. times g E15. times g E16.
  powers9 g G (c 0%nat). powers9 g G (c 1%nat). powers9 g G (c 2%nat). powers9 g G (c 3%nat). powers9 g G (c 4%nat). powers9 g G (c 5%nat). powers9 g G (c 6%nat). powers9 g G (c 7%nat). powers9 g G (c 8%nat).
  clear W I0 I1 I2. repeat split; lra.
Qed.
Lemma all_equal (n : nat) (c : nat -> R) : (forall a, (a < n)%nat -> c a = c 0%nat) -> forall a b, (a < n)%nat -> (b < n)%nat -> c a = c b.
Proof. intros H a b Ha Hb. rewrite (H a Ha), (H b Hb). reflexivity. Qed.
(** A scalar field (a temperature, or one component of a displacement) whose gradient vanishes at every point of the default rule of its cell has the same coefficient at every node: the rules of these
    types see every gradient. Gradients in the cell and in the reference cell vanish together when the Jacobian is not singular, so this is the support hypothesis of C117_definite for one cell of any shape. *)
Theorem C117_conduction : forall kappa e c, kappa <> 0 -> In e rule_types ->
  (forall p, on_rule e p -> ddx (field_at kappa e c) p 0 /\ ddy (field_at kappa e c) p 0 /\ (solid e = true -> ddz (field_at kappa e c) p 0)) ->
  forall a b, (a < node_count e)%nat -> (b < node_count e)%nat -> c a = c b.
Proof.
  intros kappa e c N H F. apply all_equal. intros a Ha.
  unfold rule_types in H. simpl In in H. repeat (destruct H as [<-|H]; [|]); [..|contradiction]; cbn in Ha.
  - pose proof (hex8 kappa c F) as Q. each a ltac:(tauto).
  - pose proof (tet4 kappa c F) as Q. each a ltac:(tauto).
  - pose proof (tet10 kappa c F) as Q. each a ltac:(tauto).
  - pose proof (quad4 kappa c F) as Q. each a ltac:(tauto).
  - assert (Q : forall p, on_rule "QUAD8" p -> flat_at 1 "QUAD8" (as_values kappa "QUAD8" c) p).
    { intros p Hp. destruct (F p Hp) as (A & B & _). assert (V := fun q => field_values kappa "QUAD8" c q ltac:(simpl; tauto)).
      split; [|split; [|intros D; discriminate D]].
      - unfold ddx in *. intros eps He. destruct (A eps He) as [d Hd]. exists d. intros h Nh Hh. rewrite <- !V. exact (Hd h Nh Hh).
      - unfold ddy in *. intros eps He. destruct (B eps He) as [d Hd]. exists d. intros h Nh Hh. rewrite <- !V. exact (Hd h Nh Hh). }
    pose proof (quad8 _ Q) as (C1 & C2 & C3 & C4 & C5 & C6 & C7). cbv -[IZR Rplus Rminus Rmult Ropp Rinv Rdiv] in C1, C2, C3, C4, C5, C6, C7.
    rewrite C1 in *. rewrite C2 in *. rewrite C3 in *.
    assert (M : forall x, kappa * x + (1 - kappa) * (c 0%nat + c 0%nat) / 2 = c 0%nat -> x = c 0%nat) by (intros x E; apply (Rmult_eq_reg_l kappa); [lra|exact N]).
    each a ltac:(first [reflexivity|assumption|apply M; assumption]).
  - pose proof (quad9 kappa c F) as Q. each a ltac:(tauto).
  - pose proof (tri3 kappa c F) as Q. each a ltac:(tauto).
  - pose proof (tri6 kappa c F) as Q. each a ltac:(tauto).
Qed.
Print Assumptions C117_conduction.

(** With one point per cell (gauss_order 0 or 1 passed by the user) the four-node square has a field with opposite signs at neighbouring corners that the rule does not see. *)
Theorem C117_one_point_refuted : exists c, (forall p order, (order < 2)%nat -> quad_rule "QUAD4" order p -> flat_at 1 "QUAD4" c p) /\ c 0%nat <> c 1%nat.
Proof.
  exists (fun a => nth a [1; -1; 1; -1] 0). split; [|cbn; lra]. intros [[x y] z] order Ho Hp.
  assert (P : 2 * x - 1 = 0 /\ 2 * y - 1 = 0) by (destruct order as [|[|order]]; [..|exfalso; lia]; destruct Hp as (A & B & _); exact (conj A B)). destruct P as [X Y]. assert (Ex : x = 1 / 2) by lra. assert (Ey : y = 1 / 2) by lra. subst x y. clear X Y Hp.
  split; [|split; [|intros D; discriminate D]].
  - unfold ddx. apply parabola_lim with (c := 0) (k := 0). intros h. cbv -[IZR Rplus Rminus Rmult Ropp Rinv Rdiv]. field.
  - unfold ddy. apply parabola_lim with (c := 0) (k := 0). intros h. cbv -[IZR Rplus Rminus Rmult Ropp Rinv Rdiv]. field.
Qed.
Print Assumptions C117_one_point_refuted.

(** The hypotheses are met by constant fields, and the rules have points. *)
Example C117_conduction_example : (forall p, on_rule "TRI6" p -> flat_at 1 "TRI6" (fun _ => 7) p) /\ on_rule "TRI6" (2 / 3, 1 / 6, 0) /\ on_rule "QUAD9" (1 / 2, 1 / 2, 0).
Proof.
  split; [|split; [right; left; reflexivity|split; [left; cbn; lra|split; [left; cbn; lra|intros D; discriminate D]]]]. intros [[x y] z] _. split; [|split; [|intros D; discriminate D]].
  - unfold ddx. apply parabola_lim with (c := 7) (k := 0). intros h. cbv -[IZR Rplus Rminus Rmult Ropp Rinv Rdiv]. field.
  - unfold ddy. apply parabola_lim with (c := 7) (k := 0). intros h. cbv -[IZR Rplus Rminus Rmult Ropp Rinv Rdiv]. field.
Qed.
