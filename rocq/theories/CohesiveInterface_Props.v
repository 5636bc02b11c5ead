(** C72: interface weights, jump, effective opening and interface energy. *)
From Coq Require Import Reals List Lia Lra Psatz Arith.
From Verif Require Import Cohesive_Model Cohesive_Props.
Import ListNotations.
Open Scope R_scope.

(** ** Sums *)
Lemma vsum_cons x l : vsum (x :: l) = x + vsum l.
Proof. reflexivity. Qed.
Lemma vsum_nil : vsum [] = 0.
Proof. reflexivity. Qed.
Lemma vsum_app a b : vsum (a ++ b) = vsum a + vsum b.
Proof. induction a as [|x a IH]; cbn [app]; rewrite ?vsum_nil, ?vsum_cons, ?IH; ring. Qed.
Lemma vsum_ext {A} (f g : A -> R) l : (forall x, In x l -> f x = g x) -> vsum (map f l) = vsum (map g l).
Proof. intros H. f_equal. apply map_ext_in. exact H. Qed.
Lemma vsum_plus {A} (f g : A -> R) l : vsum (map (fun x => f x + g x) l) = vsum (map f l) + vsum (map g l).
Proof. induction l as [|x l IH]; cbn [map]; rewrite ?vsum_nil, ?vsum_cons, ?IH; ring. Qed.
Lemma vsum_scale {A} c (f : A -> R) l : vsum (map (fun x => c * f x) l) = c * vsum (map f l).
Proof. induction l as [|x l IH]; cbn [map]; rewrite ?vsum_nil, ?vsum_cons, ?IH; ring. Qed.
Lemma vsum_zero {A} (f : A -> R) l : (forall x, In x l -> f x = 0) -> vsum (map f l) = 0.
Proof. induction l as [|x l IH]; intros H; [reflexivity|]. cbn [map]. rewrite vsum_cons, (H x (or_introl eq_refl)), IH; [ring|]. intros y Hy. apply H. right. exact Hy. Qed.
Lemma vsum_nonneg {A} (f : A -> R) l : (forall x, In x l -> 0 <= f x) -> 0 <= vsum (map f l).
Proof. induction l as [|x l IH]; intros H; cbn [map]; rewrite ?vsum_nil, ?vsum_cons; [lra|]. pose proof (H x (or_introl eq_refl)). assert (0 <= vsum (map f l)) by (apply IH; intros y Hy; apply H; right; exact Hy). lra. Qed.
Lemma vsum_le {A} (f g : A -> R) l : (forall x, In x l -> f x <= g x) -> vsum (map f l) <= vsum (map g l).
Proof. induction l as [|x l IH]; intros H; cbn [map]; rewrite ?vsum_nil, ?vsum_cons; [lra|]. pose proof (H x (or_introl eq_refl)). assert (vsum (map f l) <= vsum (map g l)) by (apply IH; intros y Hy; apply H; right; exact Hy). lra. Qed.
Lemma map_seq_S {A} (f : nat -> A) n : map f (seq 0 (S n)) = f 0%nat :: map (fun i => f (S i)) (seq 0 n).
Proof. cbn. f_equal. rewrite <- seq_shift, map_map. reflexivity. Qed.
Lemma nth_map_seq {A} (f : nat -> A) n i d : (i < n)%nat -> nth i (map f (seq 0 n)) d = f i.
Proof. intros H. rewrite (nth_indep _ d (f 0%nat)) by (rewrite map_length, seq_length; exact H). rewrite map_nth, seq_nth by exact H. reflexivity. Qed.

(** ** Trapezoidal weights *)
(** Specification: the trapezoidal rule for values [f] at the points [x]. *)
Fixpoint trapezoid (x f : list R) : R :=
  match x, f with
  | a :: ((b :: _) as xs), fa :: ((fb :: _) as fs) => (b - a) * (fa + fb) / 2 + trapezoid xs fs
  | _, _ => 0
  end.

Lemma tw_length x : length (trapezoidal_weights x) = length x.
Proof. unfold trapezoidal_weights. rewrite map_length, seq_length. reflexivity. Qed.
Lemma tw_cons a b x : trapezoidal_weights (a :: b :: x) =
  (b - a) / 2 :: match trapezoidal_weights (b :: x) with [] => [] | w :: ws => (b - a) / 2 + w :: ws end.
Proof.
  unfold trapezoidal_weights. cbn [length]. rewrite (map_seq_S _ (S (length x))), (map_seq_S _ (length x)). f_equal.
  - cbn [Nat.ltb Nat.leb]. replace (S (S (length x)) - 1)%nat with (S (length x)) by lia. cbn [Nat.leb Nat.add nth]. lra.
  - rewrite map_seq_S. f_equal.
    + replace (S (S (length x)) - 1)%nat with (S (length x)) by lia. replace (S (length x) - 1)%nat with (length x) by lia.
      cbn [Nat.ltb Nat.leb Nat.sub Nat.add nth]. destruct (length x); cbn [Nat.leb nth]; lra.
    + apply map_ext_in. intros i Hi. apply in_seq in Hi.
      replace (S (S (length x)) - 1)%nat with (S (length x)) by lia. replace (S (length x) - 1)%nat with (length x) by lia.
      replace (Nat.ltb 0 (S (S i))) with true by reflexivity. replace (Nat.ltb 0 (S i)) with true by reflexivity.
      replace (Nat.ltb (S (S i)) (S (length x))) with (Nat.ltb (S i) (length x)) by reflexivity.
      replace (S (S i) - 1)%nat with (S i) by lia. replace (S i - 1)%nat with i by lia.
      replace (S (S i) + 1)%nat with (S (S (i + 1))) by lia. replace (S i + 1)%nat with (S (i + 1)) by lia. reflexivity.
Qed.

(** The weighted sum of nodal values is the trapezoidal rule; so the weights sum to the length of
    the line, integrate affine functions exactly, and are non-negative for sorted coordinates. *)
Theorem C72_trapezoidal_weights (x f : list R) : length f = length x ->
  length (trapezoidal_weights x) = length x /\ vdot (trapezoidal_weights x) f = trapezoid x f.
Proof.
  intros L. split; [apply tw_length|]. revert f L. induction x as [|a x IH]; intros f L.
  - reflexivity.
  - destruct x as [|b x].
    + destruct f as [|fa [|]]; cbn in L; try lia. cbn. unfold vdot, vsum. cbn. ring.
    + destruct f as [|fa [|fb f]]; cbn [length] in L; try lia.
      rewrite tw_cons. specialize (IH (fb :: f) ltac:(cbn [length]; lia)).
      cbn [trapezoid]. cbn [trapezoid] in IH. rewrite <- IH.
      pose proof (tw_length (b :: x)) as TL. destruct (trapezoidal_weights (b :: x)) as [|w ws]; [cbn in TL; lia|].
      unfold vdot, vsum. cbn [combine map fst snd fold_right]. field.
Qed.
Print Assumptions C72_trapezoidal_weights.

Lemma last_indep (x : list R) : forall b d e, last (b :: x) d = last (b :: x) e.
Proof. induction x as [|c x IH]; intros b d e; [reflexivity|]. change (last (c :: x) d = last (c :: x) e). apply IH. Qed.
Lemma trapezoid_affine x c0 c1 a : x <> [] -> hd a x = a ->
  let z := last x a in
  trapezoid x (map (fun t => c0 + c1 * t) x) = c0 * (z - a) + c1 * (z * z - a * a) / 2.
Proof.
  revert a. induction x as [|b x IH]; intros a Hne Hh; [contradiction|]. cbn in Hh. subst b.
  destruct x as [|b x]; [cbn; field|]. cbv zeta. specialize (IH b ltac:(discriminate) eq_refl). cbv zeta in IH.
  change (trapezoid (a :: b :: x) (map (fun t => c0 + c1 * t) (a :: b :: x))) with
    ((b - a) * (c0 + c1 * a + (c0 + c1 * b)) / 2 + trapezoid (b :: x) (map (fun t => c0 + c1 * t) (b :: x))).
  rewrite IH. replace (last (a :: b :: x) a) with (last (b :: x) b).
  2:{ change (last (a :: b :: x) a) with (last (b :: x) a). apply last_indep. }
  field.
Qed.
Theorem C72_trapezoidal_exact (a : R) (x : list R) c0 c1 :
  let xs := a :: x in let z := last xs a in
  vdot (trapezoidal_weights xs) (map (fun t => c0 + c1 * t) xs) = c0 * (z - a) + c1 * (z * z - a * a) / 2 /\
  vsum (trapezoidal_weights xs) = z - a.
Proof.
  cbv zeta. set (xs := a :: x). assert (Hne : xs <> []) by discriminate.
  assert (A : forall c0 c1, vdot (trapezoidal_weights xs) (map (fun t => c0 + c1 * t) xs) = c0 * (last xs a - a) + c1 * (last xs a * last xs a - a * a) / 2).
  { intros d0 d1. destruct (C72_trapezoidal_weights xs (map (fun t => d0 + d1 * t) xs)) as [_ E]; [apply map_length|]. rewrite E. apply (trapezoid_affine xs d0 d1 a Hne eq_refl). }
  split; [apply A|]. specialize (A 1 0). replace (last xs a - a) with (1 * (last xs a - a) + 0 * (last xs a * last xs a - a * a) / 2) by field.
  rewrite <- A. unfold vdot. f_equal. symmetry.
  assert (G : forall (w l : list R), length w = length l -> map (fun xy => fst xy * snd xy) (combine w (map (fun t => 1 + 0 * t) l)) = w).
  { induction w as [|v w IH]; intros [|t l] L; cbn in L; try lia; [reflexivity|]. cbn. rewrite IH by lia. f_equal. ring. }
  apply G. apply tw_length.
Qed.
Print Assumptions C72_trapezoidal_exact.
Theorem C72_trapezoidal_nonneg (x : list R) : (forall i, (S i < length x)%nat -> nth i x 0 <= nth (S i) x 0) ->
  forall i, 0 <= nth i (trapezoidal_weights x) 0.
Proof.
  intros H i. destruct (lt_dec i (length x)) as [L|L].
  2:{ rewrite nth_overflow by (rewrite tw_length; lia). lra. }
  unfold trapezoidal_weights. rewrite nth_map_seq by exact L.
  destruct (Nat.ltb 0 i) eqn:A; destruct (Nat.ltb i (length x - 1)) eqn:B; try apply Nat.ltb_lt in A; try apply Nat.ltb_lt in B.
  - pose proof (H (i - 1)%nat ltac:(lia)) as P. replace (S (i - 1)) with i in P by lia.
    pose proof (H i ltac:(lia)) as Q. replace (S i) with (i + 1)%nat in Q by lia. lra.
  - pose proof (H (i - 1)%nat ltac:(lia)) as P. replace (S (i - 1)) with i in P by lia. lra.
  - pose proof (H i ltac:(lia)) as Q. replace (S i) with (i + 1)%nat in Q by lia. lra.
  - lra.
Qed.
Print Assumptions C72_trapezoidal_nonneg.

(** ** Lumped areas *)
Lemma ntl_some ids : forall i key j, node_to_local ids i key = Some j -> (i <= j < i + length ids)%nat /\ nth (j - i) ids 0%nat = key.
Proof.
  induction ids as [|n ids IH]; intros i key j H; [discriminate|]. cbn in H.
  destruct (node_to_local ids (S i) key) as [j'|] eqn:E.
  - assert (j' = j) by congruence. subst j'. destruct (IH _ _ _ E) as [B N]. cbn [length]. split; [lia|].
    replace (j - i)%nat with (S (j - S i)) by lia. exact N.
  - destruct (Nat.eqb n key) eqn:K; [|discriminate]. assert (i = j) by congruence. subst j. apply Nat.eqb_eq in K. cbn [length]. split; [lia|]. rewrite Nat.sub_diag. exact K.
Qed.
Lemma ntl_none ids : forall i key, node_to_local ids i key = None <-> ~ In key ids.
Proof.
  induction ids as [|n ids IH]; intros i key; cbn; [split; auto|].
  destruct (node_to_local ids (S i) key) as [j|] eqn:E.
  - split; [discriminate|]. intros H. exfalso. apply H. right. destruct (ntl_some _ _ _ _ E) as [B N]. rewrite <- N. apply nth_In. lia.
  - apply IH in E. destruct (Nat.eqb n key) eqn:K; [apply Nat.eqb_eq in K|apply Nat.eqb_neq in K]; split; try discriminate; intros H; try tauto.
Qed.
Lemma add_at_length w i v : length (add_at w i v) = length w.
Proof. unfold add_at. rewrite map_length, seq_length. reflexivity. Qed.
Lemma add_at_nth w i v k : (i < length w)%nat -> nth k (add_at w i v) 0 = nth k w 0 + (if Nat.eqb k i then v else 0).
Proof.
  intros H. destruct (lt_dec k (length w)) as [L|L].
  - unfold add_at. rewrite nth_map_seq by exact L. destruct (Nat.eqb k i); lra.
  - rewrite !nth_overflow by (rewrite ?add_at_length; lia). destruct (Nat.eqb_spec k i); [lia|lra].
Qed.
(** How often a node occurs in a quad. *)
Definition occ (k : nat) (q : list nat) : R := INR (count_occ Nat.eq_dec q k).

(** Specification: at a position [k] whose node id is [n] (ids distinct), the weight is a quarter of the
    area of every quad, once per occurrence of [n] in it. *)
Theorem C72_lumped_areas ids coords quads k : NoDup ids -> (k < length ids)%nat ->
  nth k (lumped_area_weights ids coords quads) 0 =
  vsum (map (fun q => quad_area coords q / 4 * occ (nth k ids 0%nat) q) quads).
Proof.
  intros ND Hk. unfold lumped_area_weights.
  assert (Lt : forall n j, node_to_local ids 0 n = Some j -> (j < length ids)%nat /\ (Nat.eqb k j = true <-> n = nth k ids 0%nat)).
  { intros n j E. destruct (ntl_some _ _ _ _ E) as [B N]. rewrite Nat.sub_0_r in N. split; [lia|]. rewrite Nat.eqb_eq. split; [intros ->; auto|].
    intros E2. apply (proj1 (NoDup_nth ids 0%nat) ND); [exact Hk|lia|]. congruence. }
  assert (Q : forall q w a, length w = length ids ->
    let w' := fold_left (fun w nid => match node_to_local ids 0 nid with Some idx => add_at w idx a | None => w end) q w in
    length w' = length ids /\ nth k w' 0 = nth k w 0 + a * occ (nth k ids 0%nat) q).
  { induction q as [|n q IH]; intros w a Hw; cbv zeta; [cbn; split; [exact Hw|unfold occ; cbn; ring]|]. cbn [fold_left].
    destruct (node_to_local ids 0 n) as [j|] eqn:E.
    - destruct (Lt n j E) as [J1 J2]. destruct (IH (add_at w j a) a) as [I1 I2]; [rewrite add_at_length; exact Hw|]. cbv zeta in *.
      split; [exact I1|]. rewrite I2, add_at_nth by lia. unfold occ. cbn [count_occ].
      destruct (Nat.eq_dec n (nth k ids 0%nat)) as [En|En].
      + apply J2 in En. rewrite En, S_INR. ring.
      + destruct (Nat.eqb k j); [exfalso; apply En; apply J2; reflexivity|]. ring.
    - destruct (IH w a Hw) as [I1 I2]. cbv zeta in *. split; [exact I1|]. rewrite I2. unfold occ. cbn [count_occ].
      destruct (Nat.eq_dec n (nth k ids 0%nat)) as [En|En]; [|reflexivity].
      exfalso. apply (proj1 (ntl_none ids 0%nat n)); [exact E|]. rewrite En. apply nth_In. exact Hk. }
  assert (G : forall qs w, length w = length ids ->
    nth k (fold_left (add_quad ids coords) qs w) 0 = nth k w 0 + vsum (map (fun q => quad_area coords q / 4 * occ (nth k ids 0%nat) q) qs)).
  { induction qs as [|q qs IH]; intros w Hw; [cbn; ring|]. cbn [fold_left map].
    destruct (Q q w (quad_area coords q / 4) Hw) as [Q1 Q2]. cbv zeta in *. rewrite IH by (unfold add_quad; exact Q1).
    unfold add_quad at 1. rewrite Q2. unfold vsum. cbn [fold_right]. ring. }
  rewrite G by apply repeat_length. rewrite nth_repeat. ring.
Qed.
Print Assumptions C72_lumped_areas.

Lemma lumped_length ids coords quads : length (lumped_area_weights ids coords quads) = length ids.
Proof.
  unfold lumped_area_weights. assert (G : forall qs w, length (fold_left (add_quad ids coords) qs w) = length w).
  { induction qs as [|q qs IH]; intros w; [reflexivity|]. cbn [fold_left]. rewrite IH. unfold add_quad. clear IH.
    generalize (quad_area coords q / 4). intros a. revert w. induction q as [|n q IH]; intros w; [reflexivity|]. cbn [fold_left]. rewrite IH.
    destruct (node_to_local ids 0 n); [apply add_at_length|reflexivity]. }
  rewrite G. apply repeat_length.
Qed.
Lemma vsum_nth (l : list R) : vsum l = vsum (map (fun k => nth k l 0) (seq 0 (length l))).
Proof. f_equal. apply nth_ext with 0 0; [rewrite map_length, seq_length; reflexivity|]. intros i Hi. rewrite nth_map_seq by exact Hi. reflexivity. Qed.
Lemma vsum_swap {A B} (f : A -> B -> R) la lb :
  vsum (map (fun a => vsum (map (fun b => f a b) lb)) la) = vsum (map (fun b => vsum (map (fun a => f a b) la)) lb).
Proof.
  induction la as [|a la IH]; [cbn; symmetry; apply vsum_zero; reflexivity|]. cbn [map]. unfold vsum at 1. cbn [fold_right]. fold (vsum (map (fun a0 => vsum (map (fun b => f a0 b) lb)) la)).
  rewrite IH, <- vsum_plus. apply vsum_ext. intros b _. reflexivity.
Qed.
Lemma occ_total ids q : NoDup ids -> (forall n, In n q -> In n ids) ->
  vsum (map (fun k => occ (nth k ids 0%nat) q) (seq 0 (length ids))) = INR (length q).
Proof.
  intros ND. induction q as [|n q IH]; intros H; [apply vsum_zero; reflexivity|].
  assert (E : vsum (map (fun k => occ (nth k ids 0%nat) (n :: q)) (seq 0 (length ids))) =
    vsum (map (fun k => if Nat.eqb (nth k ids 0%nat) n then 1 else 0) (seq 0 (length ids))) + vsum (map (fun k => occ (nth k ids 0%nat) q) (seq 0 (length ids)))).
  { rewrite <- vsum_plus. apply vsum_ext. intros k _. unfold occ. cbn [count_occ]. destruct (Nat.eq_dec n (nth k ids 0%nat)) as [D|D]; destruct (Nat.eqb_spec (nth k ids 0%nat) n) as [D2|D2]; try congruence; [rewrite S_INR; ring|ring]. }
  rewrite E, IH by (intros m Hm; apply H; right; exact Hm). cbn [length]. rewrite S_INR.
  assert (One : vsum (map (fun k => if Nat.eqb (nth k ids 0%nat) n then 1 else 0) (seq 0 (length ids))) = 1); [|lra].
  destruct (In_nth ids n 0%nat (H n (or_introl eq_refl))) as (j & Hj & Ej).
  assert (Ex : vsum (map (fun k => if Nat.eqb (nth k ids 0%nat) n then 1 else 0) (seq 0 (length ids))) = vsum (map (fun k => if Nat.eqb k j then 1 else 0) (seq 0 (length ids)))).
  { apply vsum_ext. intros k Hk. apply in_seq in Hk. destruct (Nat.eqb_spec (nth k ids 0%nat) n) as [D|D]; destruct (Nat.eqb_spec k j) as [D2|D2]; try reflexivity.
    - exfalso. apply D2. apply (proj1 (NoDup_nth ids 0%nat) ND); [lia|lia|congruence].
    - exfalso. subst. congruence. }
  rewrite Ex. replace (length ids) with (j + (1 + (length ids - j - 1)))%nat by lia. rewrite seq_app, map_app, vsum_app. cbn [Nat.add].
  rewrite (vsum_zero _ (seq 0 j)).
  2:{ intros k Hk. apply in_seq in Hk. destruct (Nat.eqb_spec k j); [lia|reflexivity]. }
  cbn [seq map]. unfold vsum at 1. cbn [fold_right]. rewrite Nat.eqb_refl.
  change (fold_right Rplus 0 ?l) with (vsum l).
  rewrite (vsum_zero _ (seq (S j) _)); [ring|]. intros k Hk. apply in_seq in Hk. destruct (Nat.eqb_spec k j); [lia|reflexivity].
Qed.
(** If every quad has four nodes, all listed, the weights sum to the total area. *)
Theorem C72_lumped_total ids coords quads : NoDup ids ->
  (forall q, In q quads -> length q = 4%nat /\ (forall n, In n q -> In n ids)) ->
  vsum (lumped_area_weights ids coords quads) = vsum (map (quad_area coords) quads).
Proof.
  intros ND HQ. rewrite vsum_nth, lumped_length.
  rewrite (vsum_ext _ (fun k => vsum (map (fun q => quad_area coords q / 4 * occ (nth k ids 0%nat) q) quads))).
  2:{ intros k Hk. apply in_seq in Hk. apply C72_lumped_areas; [exact ND|lia]. }
  rewrite vsum_swap. apply vsum_ext. intros q Hq. rewrite vsum_scale, occ_total; [|exact ND|apply HQ; exact Hq].
  destruct (HQ q Hq) as [L _]. rewrite L. cbn. field.
Qed.
Print Assumptions C72_lumped_total.
Theorem C72_lumped_nonneg ids coords quads k : NoDup ids -> 0 <= nth k (lumped_area_weights ids coords quads) 0.
Proof.
  intros ND. destruct (lt_dec k (length ids)) as [L|L].
  - rewrite C72_lumped_areas by assumption. apply vsum_nonneg. intros q _. apply Rmult_le_pos; [|apply pos_INR].
    unfold quad_area. set (x := cross _ _). destruct x as [[x0 x1] x2]. cbn. pose proof (sqrt_pos (x0 * x0 + x1 * x1 + x2 * x2)). lra.
  - rewrite nth_overflow by (rewrite lumped_length; lia). lra.
Qed.
Print Assumptions C72_lumped_nonneg.
(** For a quad in a coordinate plane the area is the absolute value of the shoelace formula. *)
Definition shoelace (x0 y0 x1 y1 x2 y2 x3 y3 : R) : R :=
  1 / 2 * ((x0 * y1 - x1 * y0) + (x1 * y2 - x2 * y1) + (x2 * y3 - x3 * y2) + (x3 * y0 - x0 * y3)).
Theorem C72_quad_area x0 y0 x1 y1 x2 y2 x3 y3 z :
  quad_area [(x0, y0, z); (x1, y1, z); (x2, y2, z); (x3, y3, z)] [0; 1; 2; 3]%nat = Rabs (shoelace x0 y0 x1 y1 x2 y2 x3 y3).
Proof.
  unfold quad_area. cbn [map nth psub cross norm3].
  set (c := (x2 - x0) * (y3 - y1) - (y2 - y0) * (x3 - x1)).
  replace (((y2 - y0) * (z - z) - (z - z) * (y3 - y1)) * ((y2 - y0) * (z - z) - (z - z) * (y3 - y1)) +
    ((z - z) * (x3 - x1) - (x2 - x0) * (z - z)) * ((z - z) * (x3 - x1) - (x2 - x0) * (z - z)) + c * c) with (Rsqr c) by (unfold Rsqr; ring).
  rewrite sqrt_Rsqr_abs. replace (shoelace x0 y0 x1 y1 x2 y2 x3 y3) with (1 / 2 * c) by (unfold shoelace, c; field).
  rewrite Rabs_mult. rewrite (Rabs_right (1 / 2)) by lra. reflexivity.
Qed.
Print Assumptions C72_quad_area.

(** ** Jump, opening and energy *)
Lemma vdot_nil_l b : vdot [] b = 0. Proof. reflexivity. Qed.
Lemma vdot_cons x a y b : vdot (x :: a) (y :: b) = x * y + vdot a b. Proof. reflexivity. Qed.
Lemma vdot_nonneg a : 0 <= vdot a a.
Proof. induction a as [|x a IH]; [rewrite vdot_nil_l; lra|]. rewrite vdot_cons. nra. Qed.
(** [vdot] against the residue [j - t n]. *)
Definition resid (t : R) (n j : list R) : list R := map (fun xy => fst xy - t * snd xy) (combine j n).
Lemma resid_cons t x n y j : resid t (x :: n) (y :: j) = (y - t * x) :: resid t n j.
Proof. reflexivity. Qed.
Lemma resid_sq t n : forall j, length j = length n ->
  vdot (resid t n j) (resid t n j) = vdot j j - 2 * t * vdot j n + t * t * vdot n n.
Proof.
  induction n as [|x n IH]; intros [|y j] L; cbn [length] in L; try lia; [cbn; unfold vdot, vsum; cbn; ring|].
  rewrite resid_cons, !vdot_cons, IH by lia. ring.
Qed.
Lemma resid_dot t n : forall j, length j = length n -> vdot (resid t n j) n = vdot j n - t * vdot n n.
Proof.
  induction n as [|x n IH]; intros [|y j] L; cbn [length] in L; try lia; [unfold resid, vdot, vsum; cbn; ring|].
  rewrite resid_cons, !vdot_cons, IH by lia. ring.
Qed.
Lemma tangential_resid n j : tangential n j = resid (vdot j n) n j.
Proof. reflexivity. Qed.

Definition well_formed (I : interface) : Prop :=
  length (normals I) = length (top_nodes I) /\ Forall (fun r => length r = vec I) (normals I).
Theorem C72_create top bottom w nrm v b :
  (forall I, create_interface top bottom w nrm v b = Some I -> I = mk_interface top bottom w nrm v b /\ well_formed I) /\
  ((exists I, create_interface top bottom w nrm v b = Some I) <-> length nrm = length top /\ Forall (fun r => length r = v) nrm).
Proof.
  unfold create_interface.
  destruct (Nat.eqb_spec (length nrm) (length top)) as [L|L]; cbn [andb].
  - destruct (forallb (fun r => Nat.eqb (length r) v) nrm) eqn:F.
    + assert (A : Forall (fun r => length r = v) nrm).
      { apply Forall_forall. intros r Hr. rewrite forallb_forall in F. apply Nat.eqb_eq. apply F. exact Hr. }
      split; [intros I E; assert (E' : mk_interface top bottom w nrm v b = I) by congruence; subst I; split; [reflexivity|split; [exact L|exact A]]|].
      split; [intros _; split; assumption|intros _; eexists; reflexivity].
    + split; [discriminate|]. split; [intros [I E]; discriminate|]. intros [_ A]. exfalso.
      assert (T : forallb (fun r => Nat.eqb (length r) v) nrm = true); [|congruence].
      apply forallb_forall. intros r Hr. rewrite Forall_forall in A. apply Nat.eqb_eq. apply A. exact Hr.
  - split; [discriminate|]. split; [intros [I E]; discriminate|]. intros [A _]. contradiction.
Qed.
Print Assumptions C72_create.

Lemma jump_length I u i : length (jump I u i) = vec I.
Proof. unfold jump. rewrite map_length, seq_length. reflexivity. Qed.
Lemma normal_length I i : well_formed I -> (i < length (top_nodes I))%nat -> length (nth i (normals I) []) = vec I.
Proof. intros [L F] H. rewrite Forall_forall in F. apply F. apply nth_In. lia. Qed.

(** The effective opening is the documented combination of the two reported components, up to the
    regularization [1e-30] under the root, which makes it at least [1e-15]. *)
Theorem C72_opening I u i : (i < length (top_nodes I))%nat ->
  let d := nth i (get_opening I u) 0 in
  let (dn, dt) := opening_components I u i in
  0 <= dt /\ tol15 <= d /\ d * d = Rmax dn 0 * Rmax dn 0 + beta I * beta I * (dt * dt) + tol30.
Proof.
  intros Hi. unfold get_opening, opening_components. rewrite nth_map_seq by exact Hi. cbv zeta beta iota.
  unfold effective_opening. set (n := nth i (normals I) []). set (j := jump I u i).
  pose proof (vdot_nonneg (tangential n j)) as P. destruct tols as [T1 [T2 T3]].
  split; [apply sqrt_pos|]. rewrite (sqrt_sqrt (vdot _ _)) by exact P.
  set (m := Rmax (normal_opening n j) 0). set (q := vdot (tangential n j) (tangential n j)) in *.
  assert (Q : 0 <= m * m + beta I * beta I * q) by (assert (0 <= beta I * beta I * q) by (apply Rmult_le_pos; [nra|exact P]); nra).
  rewrite sqrt_sqrt by lra. split; [|reflexivity].
  replace tol15 with (sqrt (tol15 * tol15)) by (apply sqrt_square; lra). apply sqrt_le_1_alt. lra.
Qed.
Print Assumptions C72_opening.

(** With unit normals the components are the orthogonal decomposition of the jump; with [beta = 1] an
    interface that does not interpenetrate has the length of the jump as its opening. *)
Theorem C72_unit_normals I u i : well_formed I -> (i < length (top_nodes I))%nat ->
  vdot (nth i (normals I) []) (nth i (normals I) []) = 1 ->
  let (dn, dt) := opening_components I u i in
  let j := jump I u i in
  dn * dn + dt * dt = vdot j j /\
  vdot (tangential (nth i (normals I) []) j) (nth i (normals I) []) = 0 /\
  (beta I = 1 -> 0 <= dn -> nth i (get_opening I u) 0 * nth i (get_opening I u) 0 = vdot j j + tol30).
Proof.
  intros W Hi U. pose proof (C72_opening I u i Hi) as O. cbv zeta in O. unfold opening_components in *. cbv beta iota zeta in *.
  set (n := nth i (normals I) []) in *. set (j := jump I u i) in *.
  assert (L : length j = length n) by (unfold j, n; rewrite jump_length, normal_length by assumption; reflexivity).
  destruct O as (_ & _ & O). rewrite (sqrt_sqrt (vdot _ _)) in * by apply vdot_nonneg.
  assert (S : vdot (tangential n j) (tangential n j) = vdot j j - normal_opening n j * normal_opening n j).
  { rewrite tangential_resid, resid_sq by exact L. rewrite U. unfold normal_opening. ring. }
  split; [rewrite S; ring|]. split.
  - rewrite tangential_resid, resid_dot by exact L. rewrite U. ring.
  - intros B H. rewrite O, B, S, Rmax_left by exact H. ring.
Qed.
Print Assumptions C72_unit_normals.

(** FINDING: unit length is not checked: a normal of length 2 is accepted and counts a pure opening of 1 as 2. *)
Theorem C72_normals_not_checked : exists I u,
  create_interface [1%nat] [0%nat] [1] [[0; 2]] 2 0 = Some I /\
  jump I u 0 = [0; 1] /\ opening_components I u 0 = (2, sqrt (9)) .
Proof.
  exists (mk_interface [1%nat] [0%nat] [1] [[0; 2]] 2 0), [0; 0; 0; 1]. split; [reflexivity|].
  assert (J : jump (mk_interface [1%nat] [0%nat] [1] [[0; 2]] 2 0) [0; 0; 0; 1] 0 = [0; 1]).
  { unfold jump. cbn. f_equal; [ring|]. f_equal. ring. }
  split; [exact J|]. unfold opening_components. rewrite J. cbn [nth normals].
  unfold tangential, normal_opening, vdot, vsum. cbn. f_equal; [ring|]. f_equal. ring.
Qed.
Print Assumptions C72_normals_not_checked.

(** Rigid translations do not open the interface. *)
Definition translate (v : nat) (t u : list R) : list R :=
  map (fun k => nth k u 0 + nth (Nat.modulo k v) t 0) (seq 0 (length u)).
Theorem C72_translation I t u i : (0 < vec I)%nat -> (i < length (top_nodes I))%nat ->
  ((nth i (top_nodes I) 0 + 1) * vec I <= length u)%nat -> ((nth i (bottom_nodes I) 0 + 1) * vec I <= length u)%nat ->
  jump I (translate (vec I) t u) i = jump I u i /\
  nth i (get_opening I (translate (vec I) t u)) 0 = nth i (get_opening I u) 0.
Proof.
  intros Hv Hi Ht Hb.
  assert (J : jump I (translate (vec I) t u) i = jump I u i).
  { unfold jump. apply map_ext_in. intros c Hc. apply in_seq in Hc. unfold translate.
    rewrite !nth_map_seq by nia.
    rewrite !(Nat.add_comm (_ * vec I)%nat c), !Nat.mod_add by lia. ring. }
  split; [exact J|]. unfold get_opening. rewrite !nth_map_seq by exact Hi. rewrite J. reflexivity.
Qed.
Print Assumptions C72_translation.

(** With [beta = 0] only the positive part of the normal component counts. *)
Theorem C72_mode_one I u i : (i < length (top_nodes I))%nat -> beta I = 0 ->
  let dn := fst (opening_components I u i) in
  nth i (get_opening I u) 0 = sqrt (Rmax dn 0 * Rmax dn 0 + tol30).
Proof.
  intros Hi B. cbv zeta. unfold get_opening, opening_components. rewrite nth_map_seq by exact Hi. cbv zeta. cbn [fst].
  unfold effective_opening. rewrite B. f_equal. ring.
Qed.
Print Assumptions C72_mode_one.
(** Compression along the normal is reported as the regularization [1e-15], whatever its size. *)
Theorem C72_compression I u i : (i < length (top_nodes I))%nat ->
  fst (opening_components I u i) <= 0 -> snd (opening_components I u i) = 0 ->
  nth i (get_opening I u) 0 = tol15.
Proof.
  intros Hi N T. pose proof (C72_opening I u i Hi) as O. cbv zeta in O.
  destruct (opening_components I u i) as [dn dt]. cbn [fst snd] in *. destruct O as (_ & O1 & O2).
  rewrite T, Rmax_right in O2 by exact N. destruct tols as [T1 [T2 T3]].
  set (d := nth i (get_opening I u) 0) in *. assert (E : (d - tol15) * (d + tol15) = 0) by lra.
  apply Rmult_integral in E. lra.
Qed.
Print Assumptions C72_compression.

(** Exchanging the sides and reversing the normals changes nothing. *)
Definition flip (I : interface) : interface :=
  mk_interface (bottom_nodes I) (top_nodes I) (weights I) (map (map Ropp) (normals I)) (vec I) (beta I).
Theorem C72_flip I u i : length (bottom_nodes I) = length (top_nodes I) -> (i < length (top_nodes I))%nat ->
  nth i (get_opening (flip I) u) 0 = nth i (get_opening I u) 0.
Proof.
  intros L Hi. unfold get_opening. cbn [top_nodes flip]. rewrite L, !nth_map_seq by exact Hi.
  assert (J : jump (flip I) u i = map Ropp (jump I u i)).
  { unfold jump. rewrite map_map. apply map_ext. intros c. cbn. ring. }
  assert (N : nth i (normals (flip I)) [] = map Ropp (nth i (normals I) [])).
  { cbn [normals flip]. change (@nil R) with (map Ropp []) at 1. apply map_nth. }
  unfold effective_opening. rewrite J, N. change (beta (flip I)) with (beta I).
  set (n := nth i (normals I) []). set (j := jump I u i).
  assert (D : forall a b, vdot (map Ropp a) (map Ropp b) = vdot a b).
  { induction a as [|x a IH]; intros [|y b]; try reflexivity. cbn [map]. rewrite !vdot_cons, IH. ring. }
  assert (Tn : tangential (map Ropp n) (map Ropp j) = map Ropp (tangential n j)).
  { unfold tangential, normal_opening. rewrite D. generalize (vdot j n). intros t. clearbody n j. clear. revert j.
    induction n as [|x n IH]; intros [|y j]; try reflexivity. cbn. rewrite IH. f_equal. ring. }
  unfold normal_opening. rewrite Tn, !D. reflexivity.
Qed.
Print Assumptions C72_flip.

(** Axis-aligned interfaces have unit normals and pick one component of the jump. *)
Theorem C72_from_axis top bottom w a v b : (a < v)%nat -> exists I,
  from_axis top bottom w a v b = Some I /\ well_formed I /\
  top_nodes I = top /\ bottom_nodes I = bottom /\ weights I = w /\ vec I = v /\ beta I = b /\
  forall u i, (i < length top)%nat ->
    vdot (nth i (normals I) []) (nth i (normals I) []) = 1 /\
    fst (opening_components I u i) = nth (nth i top 0%nat * v + a) u 0 - nth (nth i bottom 0%nat * v + a) u 0.
Proof.
  intros Ha. set (e := map (fun c => if Nat.eqb c a then 1 else 0) (seq 0 v)).
  set (I := mk_interface top bottom w (map (fun _ => e) top) v b).
  assert (Le : length e = v) by (unfold e; rewrite map_length, seq_length; reflexivity).
  assert (W : well_formed I).
  { split; cbn; [apply map_length|]. apply Forall_forall. intros r Hr. apply in_map_iff in Hr. destruct Hr as (x & <- & _). exact Le. }
  exists I. split.
  { unfold from_axis. replace (Nat.ltb a v) with true by (symmetry; apply Nat.ltb_lt; exact Ha). fold e.
    destruct (C72_create top bottom w (map (fun _ => e) top) v b) as (E & X).
    destruct (proj2 X) as [I' HI']; [destruct W as [W1 W2]; split; [exact W1|exact W2]|].
    destruct (E I' HI') as [-> _]. exact HI'. }
  split; [exact W|]. split; [reflexivity|]. split; [reflexivity|]. split; [reflexivity|]. split; [reflexivity|]. split; [reflexivity|].
  intros u i Hi.
  assert (N : nth i (normals I) [] = e).
  { cbn [normals I]. rewrite (nth_indep _ [] e) by (rewrite map_length; exact Hi). clear. revert i. induction top as [|x l IH]; intros [|i]; try reflexivity. apply IH. }
  (* picking by the unit vector *)
  assert (Pick : forall f : nat -> R, vdot (map f (seq 0 v)) e = f a).
  { intros f. unfold e, vdot.
    assert (C : combine (map f (seq 0 v)) (map (fun c => if Nat.eqb c a then 1 else 0) (seq 0 v)) = map (fun c => (f c, if Nat.eqb c a then 1 else 0)) (seq 0 v)).
    { generalize (seq 0 v). induction l as [|x l IH]; [reflexivity|]. cbn. rewrite IH. reflexivity. }
    rewrite C, map_map. cbn [fst snd]. replace v with (a + (1 + (v - a - 1)))%nat by lia.
    rewrite seq_app, map_app, vsum_app. cbn [Nat.add]. rewrite (vsum_zero _ (seq 0 a)).
    2:{ intros k Hk. apply in_seq in Hk. destruct (Nat.eqb_spec k a); [lia|ring]. }
    cbn [seq map]. rewrite vsum_cons, Nat.eqb_refl. rewrite (vsum_zero _ (seq (S a) _)); [ring|].
    intros k Hk. apply in_seq in Hk. destruct (Nat.eqb_spec k a); [lia|ring]. }
  rewrite N. split.
  - unfold e at 1. rewrite Pick, Nat.eqb_refl. reflexivity.
  - unfold opening_components. rewrite N. cbn [fst]. unfold normal_opening, jump. cbn [vec top_nodes bottom_nodes I]. apply (Pick (fun c => nth (nth i top 0%nat * v + c) u 0 - nth (nth i bottom 0%nat * v + c) u 0)).
Qed.
Print Assumptions C72_from_axis.

(** The energy minimised is the weighted sum of the potential at the openings that [get_opening] reports,
    the quantity the history is updated with. *)
Theorem C72_energy_at_openings I phi u dmax :
  cohesive_energy I phi u dmax =
  vsum (map (fun i => phi (nth i (get_opening I u) 0) (nth i dmax 0) * nth i (weights I) 0) (seq 0 (length (top_nodes I)))).
Proof.
  unfold cohesive_energy. apply vsum_ext. intros i Hi. apply in_seq in Hi.
  unfold get_opening. rewrite nth_map_seq by lia. reflexivity.
Qed.
Print Assumptions C72_energy_at_openings.

Lemma exp_load_linear G s d : 0 < G -> 0 < s -> 0 <= d -> exp_load G (dc G s) d <= s * d.
Proof.
  intros HG Hs Hd. destruct (C71_exponential_loading G s HG Hs) as (_ & Z & _ & _ & _ & t & D & B & _).
  destruct (Req_dec d 0) as [->|N]; [rewrite Z; lra|].
  destruct (MVT_cor2 (exp_load G (dc G s)) t 0 d ltac:(lra)) as (c & E & C); [intros c _; apply D|].
  rewrite Z in E. specialize (B c ltac:(lra)). nra.
Qed.
(** With the exponential law and non-negative weights the interface energy is between 0 and the fracture
    energy of the whole area; and an interface under pure compression or at rest stores at most
    [sigma_c * 1e-15] per unit of area. *)
Theorem C72_exponential_energy I G s u dmax : 0 < G -> 0 < s -> (forall i, 0 <= nth i (weights I) 0) ->
  let E := cohesive_energy I (exponential_potential G s) u dmax in
  let area := vsum (map (fun i => nth i (weights I) 0) (seq 0 (length (top_nodes I)))) in
  0 <= E <= G * area /\
  ((forall i, (i < length (top_nodes I))%nat -> fst (opening_components I u i) <= 0 /\ snd (opening_components I u i) = 0) ->
   E <= s * tol15 * area).
Proof.
  intros HG Hs HW. cbv zeta. rewrite C72_energy_at_openings. destruct tols as [T1 [T2 T3]].
  assert (O : forall i, (i < length (top_nodes I))%nat -> tol15 <= nth i (get_opening I u) 0).
  { intros i Hi. pose proof (C72_opening I u i Hi) as O. cbv zeta in O. destruct (opening_components I u i). apply O. }
  split; [split|].
  - apply vsum_nonneg. intros i Hi. apply in_seq in Hi. apply Rmult_le_pos; [|apply HW]. apply C71_exponential_bounds; try assumption. specialize (O i ltac:(lia)). lra.
  - rewrite <- vsum_scale. apply vsum_le. intros i Hi. apply in_seq in Hi. apply Rmult_le_compat_r; [apply HW|].
    apply Rlt_le. apply C71_exponential_bounds; try assumption. specialize (O i ltac:(lia)). lra.
  - intros HC. rewrite <- vsum_scale. apply vsum_le. intros i Hi. apply in_seq in Hi. apply Rmult_le_compat_r; [apply HW|].
    destruct (HC i ltac:(lia)) as [N T]. rewrite (C72_compression I u i ltac:(lia) N T).
    set (m := nth i dmax 0). destruct (Rlt_dec tol15 (m - tol15)) as [L|L].
    + destruct (C71_exponential_unloading G s tol15 m HG Hs ltac:(lra) L) as [E _]. rewrite E.
      pose proof (exp_load_linear G s m HG Hs ltac:(lra)) as B. pose proof (exp_load_bounds G (dc G s) m HG (dc_pos G s HG Hs) ltac:(lra)) as [B0 _].
      assert (P : 0 < m * m + tol30) by nra. set (f := exp_load G (dc G s) m) in *.
      apply Rmult_le_reg_r with (m * m + tol30); [exact P|].
      replace (f / (m * m + tol30) * (tol15 * tol15) * (m * m + tol30)) with (f * (tol15 * tol15)) by (field; lra).
      assert (X : f * tol15 <= s * (m * m + tol30)).
      { apply Rle_trans with (s * m * tol15); [apply Rmult_le_compat_r; lra|]. assert (m * tol15 <= m * m) by nra. nra. }
      replace (f * (tol15 * tol15)) with (f * tol15 * tol15) by ring. replace (s * tol15 * (m * m + tol30)) with (s * (m * m + tol30) * tol15) by ring.
      apply Rmult_le_compat_r; lra.
    + assert (E : exponential_potential G s tol15 m = exp_load G (dc G s) tol15).
      { unfold exponential_potential. fold (dc G s). unfold where_ge. destruct (Rle_dec (m - tol15) tol15); [reflexivity|exfalso; lra]. }
      rewrite E. apply exp_load_linear; [exact HG|exact Hs|lra].
Qed.
Print Assumptions C72_exponential_energy.

(** A concrete interface: two node pairs, opening in the first, compression in the second. *)
Example C72_example :
  exists I, from_axis [2; 3]%nat [0; 1]%nat (trapezoidal_weights [0; 2]) 1 2 (1 / 2) = Some I /\
  weights I = [1; 1] /\
  let u := [0; 0; 0; 0; 0; 3; 0; - (1)] in
  opening_components I u 0 = (3, sqrt 0) /\ fst (opening_components I u 1) = - (1) /\
  lumped_area_weights [4; 7]%nat [p0] [] = [0; 0].
Proof.
  eexists. split; [reflexivity|]. cbn [weights]. split; [|split; [|split]].
  - unfold trapezoidal_weights. cbn. f_equal; [lra|]. f_equal. lra.
  - unfold opening_components, tangential, normal_opening, jump, vdot, vsum. cbn. f_equal; [ring|]. f_equal. ring.
  - unfold opening_components, tangential, normal_opening, jump, vdot, vsum. cbn. ring.
  - reflexivity.
Qed.
