(** C68: the fibre-orientation design maps, over the real numbers of the standard library. *)
From Coq Require Import Reals List Lia Lra Psatz.
From Verif Require Import Orient_Model.
Import ListNotations.
Open Scope R_scope.

Definition in_box (x : R) : Prop := -1 <= x <= 1.
Definition ent (M : list (list R)) (i j : nat) : R := nth j (nth i M []) 0.
(** Positive semidefinite [n x n] matrix. *)
Definition quad (n : nat) (M : list (list R)) (q : nat -> R) : R :=
  suml (map (fun i => suml (map (fun j => q i * ent M i j * q j) (seq 0 n))) (seq 0 n)).
Definition psd (n : nat) (M : list (list R)) : Prop := forall q, 0 <= quad n M q.

Lemma triangle_closed z e :
  fst (box_to_triangle z e) = ((1 + z) * (3 - e) - 4 * (tol * (z * (1 - z)))) / 8 /\
  snd (box_to_triangle z e) = ((1 + e) * (3 - z) - 4 * (tol * (e * (1 - e)))) / 8.
Proof. unfold box_to_triangle, dotl, U_tab, V_tab, serendipity_8. cbn [combine map fst snd suml]. generalize tol. intros t. split; field. Qed.

Lemma tol_small : 0 < tol /\ tol < 1 / 8.
Proof. unfold tol. split; lra. Qed.

Lemma triangle_bounds t z e : 0 < t -> t < 1 / 8 -> in_box z -> in_box e ->
  let a := (1 + z) * (3 - e) - 4 * (t * (z * (1 - z))) in
  let b := (1 + e) * (3 - z) - 4 * (t * (e * (1 - e))) in
  0 < a /\ a <= 8 /\ a + b <= 8 + 8 * t.
Proof.
  intros T1 T2 [H1 H2] [H3 H4]. cbv zeta.
  assert (P1 : 0 <= (1 + z) * (1 - e)) by nra. assert (P2 : 0 <= (1 + z) * (1 + e)) by nra.
  assert (P3 : 0 <= (1 - z) * (1 - e)) by nra.
  split; [|split].
  - destruct (Rlt_le_dec z 0) as [H|H].
    + destruct (Rle_lt_or_eq_dec (-1) z H1) as [H'|<-]; [|nra].
      assert (Q1 : 0 <= - z * (1 - z)) by nra. assert (Q2 : 0 <= t * (- z * (1 - z))) by nra. nra.
    + assert (Q1 : 0 <= z * (1 - z)) by nra. assert (Q2 : z * (1 - z) <= 1) by nra.
      assert (Q3 : t * (z * (1 - z)) <= t) by nra. nra.
  - assert (Q1 : - (z * (1 - z)) <= 1 - z) by nra. assert (Q2 : - (t * (z * (1 - z))) <= 1 - z) by nra. nra.
  - assert (Q1 : 0 <= (1 - t) * ((1 - z) * (1 - e))) by (apply Rmult_le_pos; lra).
    assert (Q2 : 0 <= t * ((1 + z) * (1 + e))) by (apply Rmult_le_pos; lra).
    assert (Q3 : 0 <= t * ((1 - z) * (1 + z))) by (apply Rmult_le_pos; [lra|nra]).
    assert (Q4 : 0 <= t * ((1 - e) * (1 + e))) by (apply Rmult_le_pos; [lra|nra]).
    nra.
Qed.

(** Every design point of the square gives positive diagonal entries, at most one each, with a
    trace of at most [1 + 1e-6]. *)
Theorem C68_triangle z e : in_box z -> in_box e ->
  let a11 := fst (box_to_triangle z e) in let a22 := snd (box_to_triangle z e) in
  0 < a11 /\ a11 <= 1 /\ 0 < a22 /\ a22 <= 1 /\ a11 + a22 <= 1 + tol.
Proof.
  intros Hz He. cbv zeta. destruct (triangle_closed z e) as [E1 E2]. rewrite E1, E2.
  destruct tol_small as [T1 T2].
  destruct (triangle_bounds tol z e T1 T2 Hz He) as (A & B & C).
  destruct (triangle_bounds tol e z T1 T2 He Hz) as (A' & B' & _). cbv zeta in *.
  revert A B C A' B'.
  generalize ((1 + z) * (3 - e) - 4 * (tol * (z * (1 - z)))) ((1 + e) * (3 - z) - 4 * (tol * (e * (1 - e)))) tol.
  clear. intros a b t A B C A' B'. repeat split; lra.
Qed.
Print Assumptions C68_triangle.

(** The corners of the square: (almost) empty, fully aligned with axis 1, the hypotenuse midpoint,
    fully aligned with axis 2. *)
Theorem C68_triangle_corners :
  box_to_triangle (-1) (-1) = (tol, tol) /\ box_to_triangle 1 (-1) = (1, tol) /\
  box_to_triangle 1 1 = (1 / 2, 1 / 2) /\ box_to_triangle (-1) 1 = (tol, 1).
Proof.
  repeat split; unfold box_to_triangle, dotl, U_tab, V_tab, serendipity_8; cbn [combine map fst snd suml];
    generalize tol; intros t; f_equal; field.
Qed.
Print Assumptions C68_triangle_corners.

(** FINDING: the documented trace bound is exceeded. *)
Theorem C68_triangle_trace_refuted :
  ~ (forall z e, in_box z -> in_box e -> fst (box_to_triangle z e) + snd (box_to_triangle z e) <= 1).
Proof.
  intros H. destruct C68_triangle_corners as (_ & E & _). specialize (H 1 (-1)). rewrite E in H. cbn [fst snd] in H.
  assert (A : in_box 1 /\ in_box (-1)) by (unfold in_box; split; lra). destruct A as [A B]. specialize (H A B).
  destruct tol_small. lra.
Qed.
Print Assumptions C68_triangle_trace_refuted.

Lemma serendipity_unity z e : suml (serendipity_8 z e) = 1.
Proof. unfold serendipity_8. cbn [suml]. field. Qed.

(** FINDING: arrays are documented inputs ("same shape as inputs"). The result is a scalar; an array
    of eight design points gives the same number whatever the points are, every other length
    except one fails. *)
Theorem C68_array_inputs x1 x2 a b : length x1 = length x2 -> box_to_triangle_array x1 x2 = Some (a, b) ->
  (length x1 = 1%nat /\ (a, b) = box_to_triangle (nth 0 x1 0) (nth 0 x2 0)) \/
  (length x1 = 8%nat /\ a = suml U_tab /\ b = suml V_tab).
Proof.
  intros Hl H. unfold box_to_triangle_array, weigh_array in H.
  destruct x1 as [|z0 [|z1 [|z2 [|z3 [|z4 [|z5 [|z6 [|z7 [|? ?]]]]]]]]]; try discriminate H.
  - destruct x2 as [|e0 [|? ?]]; try discriminate Hl. left. split; [reflexivity|].
    cbn [length combine map seq fst snd nth hd] in H. cbn [nth].
    assert (Ha : a = dotl U_tab (map (fun i => nth i (serendipity_8 z0 e0) 0) (seq 0 8))) by (cbn [map seq]; congruence).
    assert (Hb : b = dotl V_tab (map (fun i => nth i (serendipity_8 z0 e0) 0) (seq 0 8))) by (cbn [map seq]; congruence).
    rewrite Ha, Hb. reflexivity.
  - destruct x2 as [|e0 [|e1 [|e2 [|e3 [|e4 [|e5 [|e6 [|e7 [|? ?]]]]]]]]]; try discriminate Hl. right. split; [reflexivity|].
    cbn [length combine map seq fst snd] in H.
    assert (L : forall T : list R, length T = 8%nat ->
      suml (map (fun row => dotl T row) (map (fun i => map (fun c => nth i c 0)
        [serendipity_8 z0 e0; serendipity_8 z1 e1; serendipity_8 z2 e2; serendipity_8 z3 e3;
         serendipity_8 z4 e4; serendipity_8 z5 e5; serendipity_8 z6 e6; serendipity_8 z7 e7]) (seq 0 8))) = suml T).
    { intros T HT. destruct T as [|t0 [|t1 [|t2 [|t3 [|t4 [|t5 [|t6 [|t7 [|? ?]]]]]]]]]; try discriminate HT.
      transitivity (t0 * suml (serendipity_8 z0 e0) + (t1 * suml (serendipity_8 z1 e1) + (t2 * suml (serendipity_8 z2 e2)
        + (t3 * suml (serendipity_8 z3 e3) + (t4 * suml (serendipity_8 z4 e4) + (t5 * suml (serendipity_8 z5 e5)
        + (t6 * suml (serendipity_8 z6 e6) + (t7 * suml (serendipity_8 z7 e7) + 0)))))))).
      2:{ rewrite !serendipity_unity. cbn [suml]. ring. }
      unfold dotl, serendipity_8. cbn [seq map combine nth fst snd suml].
      repeat match goal with |- context [?x / ?y] => let w := fresh "w" in set (w := x / y); clearbody w end. ring. }
    cbn [seq map] in L.
    assert (Ha : a = suml (map (fun row => dotl U_tab row) (map (fun i => map (fun c => nth i c 0)
        [serendipity_8 z0 e0; serendipity_8 z1 e1; serendipity_8 z2 e2; serendipity_8 z3 e3;
         serendipity_8 z4 e4; serendipity_8 z5 e5; serendipity_8 z6 e6; serendipity_8 z7 e7]) (seq 0 8)))) by (cbn [map seq]; congruence).
    assert (Hb : b = suml (map (fun row => dotl V_tab row) (map (fun i => map (fun c => nth i c 0)
        [serendipity_8 z0 e0; serendipity_8 z1 e1; serendipity_8 z2 e2; serendipity_8 z3 e3;
         serendipity_8 z4 e4; serendipity_8 z5 e5; serendipity_8 z6 e6; serendipity_8 z7 e7]) (seq 0 8)))) by (cbn [map seq]; congruence).
    rewrite Ha, Hb. split; apply L; reflexivity.
Qed.
Print Assumptions C68_array_inputs.

Lemma hex_weights x1 x2 x3 : in_box x1 -> in_box x2 -> in_box x3 ->
  Forall (fun w => 0 <= w) (trilinear_hex_8 x1 x2 x3) /\ suml (trilinear_hex_8 x1 x2 x3) = 1.
Proof.
  intros [A1 A2] [B1 B2] [C1 C2]. split; [|unfold trilinear_hex_8; cbn [suml]; field].
  unfold trilinear_hex_8. repeat (apply Forall_cons; [repeat (apply Rmult_le_pos); lra|]). apply Forall_nil.
Qed.
Lemma dot_bounds (T N : list R) lo hi : length T = length N -> Forall (fun w => 0 <= w) N ->
  Forall (fun v => lo <= v <= hi) T -> lo * suml N <= dotl T N <= hi * suml N.
Proof.
  revert N. induction T as [|v T IH]; intros [|w N] Hl HN HT; try discriminate Hl.
  - cbn. split; lra.
  - inversion HN as [|? ? W HN']. inversion HT as [|? ? [V1 V2] HT']. subst.
    destruct (IH N) as [I1 I2]; [cbn in Hl; injection Hl; auto|exact HN'|exact HT'|].
    unfold dotl in *. cbn [combine map suml fst snd].
    assert (lo * w <= v * w) by (apply Rmult_le_compat_r; assumption).
    assert (v * w <= hi * w) by (apply Rmult_le_compat_r; assumption).
    rewrite !Rmult_plus_distr_l. split; lra.
Qed.
Lemma dot_add (S T N : list R) : length S = length N -> length T = length N ->
  dotl S N + dotl T N = dotl (map (fun st => fst st + snd st) (combine S T)) N.
Proof.
  revert T N. induction S as [|s S IH]; intros [|t T] [|w N] H1 H2; try discriminate H1; try discriminate H2; [cbn; ring|].
  unfold dotl in *. cbn [combine map suml fst snd]. rewrite <- IH by (cbn in H1, H2; congruence). ring.
Qed.

(** Every design point of the cube gives positive diagonal entries, between [1e-6] and one, with a
    trace of at most [1 + 2e-6]. *)
Theorem C68_tetrahedron x1 x2 x3 : in_box x1 -> in_box x2 -> in_box x3 ->
  forall a11 a22 a33, box_to_tetrahedron x1 x2 x3 = (a11, a22, a33) ->
  tol <= a11 <= 1 /\ tol <= a22 <= 1 /\ tol <= a33 <= 1 /\ a11 + a22 + a33 <= 1 + 2 * tol.
Proof.
  intros H1 H2 H3 a11 a22 a33 E. destruct (hex_weights x1 x2 x3 H1 H2 H3) as [W S].
  unfold box_to_tetrahedron in E. set (N := trilinear_hex_8 x1 x2 x3) in *.
  set (T1 := map (fun v => fst (fst v)) tet_vertices) in *. set (T2 := map (fun v => snd (fst v)) tet_vertices) in *.
  set (T3 := map snd tet_vertices) in *.
  assert (a11 = dotl T1 N /\ a22 = dotl T2 N /\ a33 = dotl T3 N) as (-> & -> & ->) by (repeat split; congruence).
  assert (B : forall T lo hi, length T = 8%nat -> Forall (fun v => lo <= v <= hi) T -> lo <= dotl T N <= hi).
  { intros T lo hi HT HF. destruct (dot_bounds T N lo hi HT W HF) as [L R]. rewrite S, Rmult_1_r in L, R. split; assumption. }
  destruct tol_small as [P1 P2].
  split; [apply B; [reflexivity|unfold T1, T2, T3, tet_vertices; cbn [map combine fst snd]; repeat (apply Forall_cons; [lra|]); apply Forall_nil]|].
  split; [apply B; [reflexivity|unfold T1, T2, T3, tet_vertices; cbn [map combine fst snd]; repeat (apply Forall_cons; [lra|]); apply Forall_nil]|].
  split; [apply B; [reflexivity|unfold T1, T2, T3, tet_vertices; cbn [map combine fst snd]; repeat (apply Forall_cons; [lra|]); apply Forall_nil]|].
  rewrite dot_add by reflexivity. rewrite dot_add by reflexivity.
  apply (B _ 0); [reflexivity|unfold T1, T2, T3, tet_vertices; cbn [map combine fst snd]; repeat (apply Forall_cons; [lra|]); apply Forall_nil].
Qed.
Print Assumptions C68_tetrahedron.

(** FINDING: the trace bound is exceeded, and the map is not onto the closed tetrahedron (the
    vertices with a zero entry are not reached). *)
Theorem C68_tetrahedron_documented_refuted :
  ~ (forall x1 x2 x3, in_box x1 -> in_box x2 -> in_box x3 ->
       match box_to_tetrahedron x1 x2 x3 with (a11, a22, a33) => a11 + a22 + a33 <= 1 end) /\
  ~ (exists x1 x2 x3, in_box x1 /\ in_box x2 /\ in_box x3 /\ box_to_tetrahedron x1 x2 x3 = (1, 0, 0)).
Proof.
  destruct tol_small as [P1 P2]. split.
  - intros H. specialize (H 1 (-1) (-1)). assert (A : in_box 1 /\ in_box (-1)) by (unfold in_box; split; lra).
    destruct A as [A B]. specialize (H A B B).
    unfold box_to_tetrahedron, dotl, tet_vertices, trilinear_hex_8 in H. cbn [combine map fst snd suml] in H. lra.
  - intros (x1 & x2 & x3 & H1 & H2 & H3 & E).
    destruct (C68_tetrahedron x1 x2 x3 H1 H2 H3 _ _ _ E) as (_ & [L _] & _). lra.
Qed.
Print Assumptions C68_tetrahedron_documented_refuted.

(** ** The smoothed sign *)
Lemma tanh_form x : tanh x = 1 - 2 / (exp (2 * x) + 1).
Proof.
  unfold tanh, sinh, cosh. pose proof (exp_pos x). pose proof (exp_pos (- x)). pose proof (exp_pos (2 * x)).
  assert (E : exp (2 * x) = exp x * exp x) by (rewrite <- exp_plus; f_equal; ring).
  assert (I : exp x * exp (- x) = 1) by (rewrite <- exp_plus, Rplus_opp_r; apply exp_0).
  rewrite E. assert (N : exp (- x) = / exp x) by (apply (Rmult_eq_reg_l (exp x)); [rewrite I; field; lra|lra]).
  rewrite N. field. repeat split; nra.
Qed.
Lemma tanh_le x y : x <= y -> tanh x <= tanh y.
Proof.
  intros H. rewrite !tanh_form.
  assert (E : exp (2 * x) <= exp (2 * y)).
  { destruct H as [H| ->]; [left; apply exp_increasing; lra|right; reflexivity]. }
  pose proof (exp_pos (2 * x)).
  assert (2 / (exp (2 * y) + 1) <= 2 / (exp (2 * x) + 1)); [|lra].
  unfold Rdiv. apply Rmult_le_compat_l; [lra|]. apply Rinv_le_contravar; lra.
Qed.
Lemma tanh_pos x : 0 < x -> 0 < tanh x.
Proof.
  intros H. rewrite tanh_form. pose proof (exp_increasing 0 (2 * x) ltac:(lra)) as E. rewrite exp_0 in E.
  assert (/ (exp (2 * x) + 1) < / 2) by (apply Rinv_lt_contravar; lra). lra.
Qed.
Lemma tanh_odd x : tanh (- x) = - tanh x.
Proof.
  unfold tanh, sinh, cosh. rewrite Ropp_involutive. pose proof (exp_pos x). pose proof (exp_pos (- x)). field. lra.
Qed.

(** Between -1 and 1 on the box, odd, monotone, exact at the ends; for every positive sharpness. *)
Theorem C68_smooth_sgn beta : 0 < beta ->
  (forall x, in_box x -> in_box (smooth_sgn x beta)) /\
  (forall x y, x <= y -> smooth_sgn x beta <= smooth_sgn y beta) /\
  (forall x, smooth_sgn (- x) beta = - smooth_sgn x beta) /\
  smooth_sgn 1 beta = 1 /\ smooth_sgn (-1) beta = -1.
Proof.
  intros Hb. pose proof (tanh_pos beta Hb) as Hp.
  assert (M : forall x y, x <= y -> smooth_sgn x beta <= smooth_sgn y beta).
  { intros x y H. unfold smooth_sgn, Rdiv. apply Rmult_le_compat_r; [left; apply Rinv_0_lt_compat; exact Hp|].
    apply tanh_le. apply Rmult_le_compat_l; lra. }
  assert (O : forall x, smooth_sgn (- x) beta = - smooth_sgn x beta).
  { intros x. unfold smooth_sgn. rewrite <- Ropp_mult_distr_r, tanh_odd. field. lra. }
  assert (E : smooth_sgn 1 beta = 1) by (unfold smooth_sgn; rewrite Rmult_1_r; field; lra).
  assert (E' : smooth_sgn (-1) beta = -1) by (change (-1) with (- (1)); rewrite O, E; reflexivity).
  split; [|split; [exact M|split; [exact O|split; assumption]]].
  intros x [L U]. split; [rewrite <- E'|rewrite <- E]; apply M; assumption.
Qed.
Print Assumptions C68_smooth_sgn.

(** ** Orientation tensors *)
Lemma sqR (x : R) : 0 <= x * x. Proof. nra. Qed.

(** The two-dimensional tensor is symmetric, positive semidefinite and has the trace of the
    triangle map. *)
Theorem C68_tensor_2d x1 x2 x3 beta : in_box x1 -> in_box x2 -> in_box x3 -> 0 < beta ->
  let M := orientation_tensor_2d x1 x2 x3 beta in
  ent M 0 1 = ent M 1 0 /\ psd 2 M /\ 0 < ent M 0 0 + ent M 1 1 <= 1 + tol.
Proof.
  intros H1 H2 H3 Hb. cbv zeta. unfold orientation_tensor_2d.
  pose proof (C68_triangle x1 x2 H1 H2) as T. cbv zeta in T.
  destruct (C68_smooth_sgn beta Hb) as (Hs & _). specialize (Hs x3 H3). destruct Hs as [G1 G2].
  destruct (box_to_triangle x1 x2) as [a b]. cbn [fst snd] in T. destruct T as (A1 & A2 & B1 & B2 & AB).
  assert (P : 0 <= a * b) by (apply Rmult_le_pos; lra).
  rewrite (Rmax_left _ _ P). pose proof (sqrt_sqrt (a * b) P) as R.
  set (r := sqrt (a * b)) in *. clearbody r. set (s := smooth_sgn x3 beta) in *. clearbody s.
  unfold ent. cbn [nth]. split; [reflexivity|]. split; [|split; lra].
  intros q. unfold quad. cbn [seq map suml]. unfold ent. cbn [nth].
  generalize (q 0%nat) (q 1%nat). intros x y.
  replace (x * a * x + (x * (r * s) * y + 0) + (y * (r * s) * x + (y * b * y + 0) + 0))
    with (a * (x * x) + 2 * (r * s * (x * y)) + b * (y * y)) by ring.
  assert (Q1 : 0 <= a * (a * (x * x) + 2 * (r * s * (x * y)) + b * (y * y))).
  { replace (a * (a * (x * x) + 2 * (r * s * (x * y)) + b * (y * y)))
      with ((a * x + r * s * y) * (a * x + r * s * y) + (a * b - (r * r) * (s * s)) * (y * y)) by ring.
    rewrite R. replace (a * b - a * b * (s * s)) with (a * b * ((1 - s) * (1 + s))) by ring.
    assert (0 <= (1 - s) * (1 + s)) by (apply Rmult_le_pos; lra).
    pose proof (sqR (a * x + r * s * y)). pose proof (sqR y).
    assert (0 <= a * b * ((1 - s) * (1 + s)) * (y * y)) by (apply Rmult_le_pos; [apply Rmult_le_pos|]; assumption). lra. }
  revert Q1. generalize (a * (x * x) + 2 * (r * s * (x * y)) + b * (y * y)). intros w Q1.
  destruct (Rlt_le_dec w 0) as [N|N]; [|exact N]. exfalso. nra.
Qed.
Print Assumptions C68_tensor_2d.

(** Positive semidefiniteness of [[1, u, v], [u, 1, w], [v, w, 1]]. *)
Lemma corr_psd u v w x y z : -1 <= u <= 1 -> -1 <= v <= 1 -> 0 <= 1 + 2 * (u * v * w) - u * u - v * v - w * w ->
  0 <= x * x + y * y + z * z + 2 * (u * (x * y)) + 2 * (v * (x * z)) + 2 * (w * (y * z)).
Proof.
  intros [U1 U2] [V1 V2] D.
  assert (Pu : 0 <= (1 - u) * (1 + u)) by (apply Rmult_le_pos; lra).
  assert (Pv : 0 <= (1 - v) * (1 + v)) by (apply Rmult_le_pos; lra).
  set (g := (1 - u) * (1 + u) * (y * y) + (1 - v) * (1 + v) * (z * z) + 2 * ((w - u * v) * (y * z))).
  assert (G : 0 <= g).
  { destruct (Req_dec ((1 - u) * (1 + u)) 0) as [E|E].
    - assert (W : (w - u * v) * (w - u * v) <= 0).
      { replace ((w - u * v) * (w - u * v)) with ((1 - u) * (1 + u) * ((1 - v) * (1 + v)) - (1 + 2 * (u * v * w) - u * u - v * v - w * w)) by ring.
        rewrite E. lra. }
      assert (W0 : w - u * v = 0).
      { pose proof (sqR (w - u * v)). assert (Z : (w - u * v) * (w - u * v) = 0) by lra.
        destruct (Rmult_integral _ _ Z); assumption. }
      unfold g. rewrite E, W0. replace (0 * (y * y) + (1 - v) * (1 + v) * (z * z) + 2 * (0 * (y * z))) with ((1 - v) * (1 + v) * (z * z)) by ring.
      apply Rmult_le_pos; [exact Pv|apply sqR].
    - assert (A : 0 < (1 - u) * (1 + u)) by lra.
      assert (Q1 : 0 <= (1 - u) * (1 + u) * g).
      { unfold g. replace ((1 - u) * (1 + u) * ((1 - u) * (1 + u) * (y * y) + (1 - v) * (1 + v) * (z * z) + 2 * ((w - u * v) * (y * z))))
          with (((1 - u) * (1 + u) * y + (w - u * v) * z) * ((1 - u) * (1 + u) * y + (w - u * v) * z)
                + (1 + 2 * (u * v * w) - u * u - v * v - w * w) * (z * z)) by ring.
        pose proof (sqR ((1 - u) * (1 + u) * y + (w - u * v) * z)).
        assert (0 <= (1 + 2 * (u * v * w) - u * u - v * v - w * w) * (z * z)) by (apply Rmult_le_pos; [exact D|apply sqR]). lra. }
      clearbody g. revert A Q1. generalize ((1 - u) * (1 + u)). intros a A Q1.
      destruct (Rlt_le_dec g 0) as [N|N]; [|exact N]. exfalso. nra. }
  replace (x * x + y * y + z * z + 2 * (u * (x * y)) + 2 * (v * (x * z)) + 2 * (w * (y * z)))
    with ((x + u * y + v * z) * (x + u * y + v * z) + g) by (unfold g; ring).
  pose proof (sqR (x + u * y + v * z)). lra.
Qed.

Definition det3 (M : list (list R)) : R :=
  ent M 0 0 * (ent M 1 1 * ent M 2 2 - ent M 1 2 * ent M 2 1)
  - ent M 0 1 * (ent M 1 0 * ent M 2 2 - ent M 1 2 * ent M 2 0)
  + ent M 0 2 * (ent M 1 0 * ent M 2 1 - ent M 1 1 * ent M 2 0).

(** The converse. *)
Lemma corr_psd_conv u v w : -1 <= u <= 1 -> -1 <= v <= 1 -> -1 <= w <= 1 ->
  (forall x y z, 0 <= x * x + y * y + z * z + 2 * (u * (x * y)) + 2 * (v * (x * z)) + 2 * (w * (y * z))) ->
  0 <= 1 + 2 * (u * v * w) - u * u - v * v - w * w.
Proof.
  intros [U1 U2] [V1 V2] [W1 W2] H. set (D := 1 + 2 * (u * v * w) - u * u - v * v - w * w).
  assert (K : forall p, 0 < p -> 0 <= p * D -> 0 <= D).
  { intros p P Q. destruct (Rlt_le_dec D 0) as [N|N]; [|exact N]. exfalso. nra. }
  destruct (Req_dec ((1 - w) * (1 + w)) 0) as [Ew|Ew].
  2:{ apply (K ((1 - w) * (1 + w))); [nra|].
      replace ((1 - w) * (1 + w) * D) with
        ((1 - w * w) * (1 - w * w) + (v * w - u) * (v * w - u) + (u * w - v) * (u * w - v)
         + 2 * (u * ((1 - w * w) * (v * w - u))) + 2 * (v * ((1 - w * w) * (u * w - v))) + 2 * (w * ((v * w - u) * (u * w - v)))) by (unfold D; ring).
      apply H. }
  destruct (Req_dec ((1 - v) * (1 + v)) 0) as [Ev|Ev].
  2:{ apply (K ((1 - v) * (1 + v))); [nra|].
      replace ((1 - v) * (1 + v) * D) with
        ((v * w - u) * (v * w - u) + (1 - v * v) * (1 - v * v) + (u * v - w) * (u * v - w)
         + 2 * (u * ((v * w - u) * (1 - v * v))) + 2 * (v * ((v * w - u) * (u * v - w))) + 2 * (w * ((1 - v * v) * (u * v - w)))) by (unfold D; ring).
      apply H. }
  pose proof (H 1 (v * w) (- 2 * v)) as P.
  assert (W : w = 1 \/ w = -1) by (destruct (Rmult_integral _ _ Ew); [left|right]; lra).
  assert (V : v = 1 \/ v = -1) by (destruct (Rmult_integral _ _ Ev); [left|right]; lra).
  unfold D. destruct W as [-> | ->]; destruct V as [-> | ->]; nra.
Qed.

(** The three-dimensional tensor is symmetric with the diagonal of the tetrahedron map and
    non-negative 2x2 minors; it is positive semidefinite exactly when the three sign controls are
    compatible ([1 + 2 s12 s13 s23 >= s12^2 + s13^2 + s23^2]). *)
Theorem C68_tensor_3d x1 x2 x3 x12 x13 x23 beta : in_box x1 -> in_box x2 -> in_box x3 ->
  in_box x12 -> in_box x13 -> in_box x23 -> 0 < beta ->
  let M := orientation_tensor_3d x1 x2 x3 x12 x13 x23 beta in
  let s12 := smooth_sgn x12 beta in let s13 := smooth_sgn x13 beta in let s23 := smooth_sgn x23 beta in
  let Delta := 1 + 2 * (s12 * s13 * s23) - s12 * s12 - s13 * s13 - s23 * s23 in
  (forall i j, (i < 3)%nat -> (j < 3)%nat -> ent M i j = ent M j i /\ ent M i j * ent M j i <= ent M i i * ent M j j) /\
  det3 M = ent M 0 0 * ent M 1 1 * ent M 2 2 * Delta /\
  (psd 3 M <-> 0 <= Delta) /\
  0 < ent M 0 0 + ent M 1 1 + ent M 2 2 <= 1 + 2 * tol.
Proof.
  intros H1 H2 H3 S12 S13 S23 Hb. cbv zeta. unfold orientation_tensor_3d.
  destruct (C68_smooth_sgn beta Hb) as (Hs & _). apply Hs in S12, S13, S23. clear Hs.
  destruct (box_to_tetrahedron x1 x2 x3) as [[a b] c] eqn:Eb.
  destruct (C68_tetrahedron x1 x2 x3 H1 H2 H3 _ _ _ Eb) as ([A1 A2] & [B1 B2] & [C1 C2] & T). clear Eb.
  destruct tol_small as [T1 _].
  assert (A : 0 < a) by lra. assert (B : 0 < b) by lra. assert (C : 0 < c) by lra.
  assert (R : forall p q, 0 < p -> 0 < q -> sqrt (Rmax (p * q) 0) = sqrt p * sqrt q).
  { intros p q P Q. rewrite Rmax_left by nra. apply sqrt_mult; lra. }
  pose proof (R a b A B) as R12. pose proof (R a c A C) as R13. pose proof (R b c B C) as R23.
  rewrite R12, R13, R23. clear R R12 R13 R23.
  pose proof (sqrt_sqrt a (Rlt_le _ _ A)) as Ra. pose proof (sqrt_sqrt b (Rlt_le _ _ B)) as Rb. pose proof (sqrt_sqrt c (Rlt_le _ _ C)) as Rc.
  pose proof (sqrt_lt_R0 a A) as Pa. pose proof (sqrt_lt_R0 b B) as Pb. pose proof (sqrt_lt_R0 c C) as Pc.
  set (ra := sqrt a) in *. set (rb := sqrt b) in *. set (rc := sqrt c) in *. clearbody ra rb rc.
  set (u := smooth_sgn x12 beta) in *. set (v := smooth_sgn x13 beta) in *. set (w := smooth_sgn x23 beta) in *. clearbody u v w.
  assert (Minor : forall p q rp rq s, rp * rp = p -> rq * rq = q -> 0 < p -> 0 < q -> -1 <= s <= 1 -> rp * rq * s * (rp * rq * s) <= p * q).
  { intros p q rp rq s Ep Eq P Q [L U].
    replace (rp * rq * s * (rp * rq * s)) with ((rp * rp) * (rq * rq) * (s * s)) by ring. rewrite Ep, Eq.
    assert (0 < p * q) by (apply Rmult_lt_0_compat; assumption).
    assert (0 <= p * q * ((1 - s) * (1 + s))) by (apply Rmult_le_pos; [lra|apply Rmult_le_pos; lra]).
    replace (p * q * (s * s)) with (p * q - p * q * ((1 - s) * (1 + s))) by ring. lra. }
  split; [|split; [|split]].
  - intros i j Hi Hj. destruct i as [|[|[|i]]]; [| | |exfalso; lia]; (destruct j as [|[|[|j]]]; [| | |exfalso; lia]);
      unfold ent; cbn [nth]; (split; [reflexivity|]); try apply Rle_refl.
    + apply Minor; assumption.
    + apply Minor; assumption.
    + rewrite (Rmult_comm b a). apply Minor; assumption.
    + apply Minor; assumption.
    + rewrite (Rmult_comm c a). apply Minor; assumption.
    + rewrite (Rmult_comm c b). apply Minor; assumption.
  - unfold det3, ent. cbn [nth]. rewrite <- Ra, <- Rb, <- Rc. ring.
  - assert (QF : forall q, quad 3 [[a; ra * rb * u; ra * rc * v]; [ra * rb * u; b; rb * rc * w]; [ra * rc * v; rb * rc * w; c]] q
      = let x := ra * q 0%nat in let y := rb * q 1%nat in let z := rc * q 2%nat in
        x * x + y * y + z * z + 2 * (u * (x * y)) + 2 * (v * (x * z)) + 2 * (w * (y * z))).
    { intros q. cbv zeta. unfold quad. cbn [seq map suml]. unfold ent. cbn [nth]. rewrite <- Ra, <- Rb, <- Rc. ring. }
    split.
    + intros H. apply corr_psd_conv; try assumption. intros x y z.
      specialize (H (fun i => match i with O => x / ra | S O => y / rb | _ => z / rc end)).
      rewrite QF in H. cbv zeta in H.
      replace (ra * (x / ra)) with x in H by (field; lra). replace (rb * (y / rb)) with y in H by (field; lra).
      replace (rc * (z / rc)) with z in H by (field; lra). exact H.
    + intros D q. rewrite QF. cbv zeta. apply corr_psd; assumption.
  - unfold ent. cbn [nth]. split; [lra|exact T].
Qed.
Print Assumptions C68_tensor_3d.

(** FINDING: incompatible sign controls are not excluded: for every design point of the cube and
    every sharpness the sign controls [+1, +1, -1] give a matrix with a negative eigenvalue. *)
Theorem C68_tensor_3d_not_admissible x1 x2 x3 beta : in_box x1 -> in_box x2 -> in_box x3 -> 0 < beta ->
  let M := orientation_tensor_3d x1 x2 x3 1 1 (-1) beta in
  det3 M < 0 /\ exists q, quad 3 M q < 0.
Proof.
  intros H1 H2 H3 Hb. cbv zeta.
  assert (I1 : in_box 1) by (unfold in_box; lra). assert (I2 : in_box (-1)) by (unfold in_box; lra).
  destruct (C68_tensor_3d x1 x2 x3 1 1 (-1) beta H1 H2 H3 I1 I1 I2 Hb) as (_ & Hd & _).
  destruct (C68_smooth_sgn beta Hb) as (_ & _ & _ & E1 & E2). rewrite E1, E2 in Hd.
  assert (P : let M := orientation_tensor_3d x1 x2 x3 1 1 (-1) beta in 0 < ent M 0 0 /\ 0 < ent M 1 1 /\ 0 < ent M 2 2).
  { cbv zeta. unfold orientation_tensor_3d. destruct (box_to_tetrahedron x1 x2 x3) as [[a b] c] eqn:Eb.
    destruct (C68_tetrahedron x1 x2 x3 H1 H2 H3 _ _ _ Eb) as ([A1 A2] & [B1 B2] & [C1 C2] & T).
    destruct tol_small. unfold ent. cbn [nth]. repeat split; lra. }
  cbv zeta in P. destruct P as (P0 & P1 & P2). split.
  - rewrite Hd. assert (0 < ent (orientation_tensor_3d x1 x2 x3 1 1 (-1) beta) 0 0 * ent (orientation_tensor_3d x1 x2 x3 1 1 (-1) beta) 1 1
      * ent (orientation_tensor_3d x1 x2 x3 1 1 (-1) beta) 2 2) by (apply Rmult_lt_0_compat; [apply Rmult_lt_0_compat|]; assumption). lra.
  - clear Hd P0 P1 P2. unfold orientation_tensor_3d. destruct (box_to_tetrahedron x1 x2 x3) as [[a b] c] eqn:Eb.
    destruct (C68_tetrahedron x1 x2 x3 H1 H2 H3 _ _ _ Eb) as ([A1 A2] & [B1 B2] & [C1 C2] & T).
    destruct tol_small. rewrite E1, E2. rewrite !Rmax_left by (apply Rmult_le_pos; lra). rewrite !sqrt_mult by lra.
    assert (A : 0 < a) by lra. assert (B : 0 < b) by lra. assert (C : 0 < c) by lra.
    pose proof (sqrt_lt_R0 a A). pose proof (sqrt_lt_R0 b B). pose proof (sqrt_lt_R0 c C).
    exists (fun i => match i with O => / sqrt a | S O => - / sqrt b | _ => - / sqrt c end).
    unfold quad, ent. cbn [seq map suml nth].
    match goal with |- ?e < 0 => assert (E : e = -3) end; [|rewrite E; lra].
    pose proof (sqrt_sqrt a (Rlt_le _ _ A)) as Ra. pose proof (sqrt_sqrt b (Rlt_le _ _ B)) as Rb. pose proof (sqrt_sqrt c (Rlt_le _ _ C)) as Rc.
    set (ra := sqrt a) in *. set (rb := sqrt b) in *. set (rc := sqrt c) in *. clearbody ra rb rc. subst a b c.
    field. repeat split; lra.
Qed.
Print Assumptions C68_tensor_3d_not_admissible.

Example C68_example :
  in_box (1 / 2) /\ in_box (-1 / 3) /\
  fst (box_to_triangle (1 / 2) (-1 / 3)) = 4999999 / 8000000 /\
  (let M := orientation_tensor_2d 1 1 1 8 in ent M 0 0 = 1 / 2 /\ ent M 0 1 = 1 / 2 /\ ent M 1 1 = 1 / 2) /\
  box_to_triangle_array (repeat 0 8) (repeat 1 8) <> None.
Proof.
  split; [unfold in_box; lra|]. split; [unfold in_box; lra|]. split; [|split].
  - destruct (triangle_closed (1 / 2) (-1 / 3)) as [-> _]. unfold tol. field.
  - cbv zeta. unfold orientation_tensor_2d. destruct C68_triangle_corners as (_ & _ & -> & _).
    unfold ent. cbn [nth]. destruct (C68_smooth_sgn 8 ltac:(lra)) as (_ & _ & _ & -> & _).
    rewrite Rmax_left by lra. rewrite sqrt_square by lra. repeat split; field.
  - discriminate.
Qed.
