(** C74: the volume fraction. *)
From Coq Require Import Reals List Arith Lia Lra Psatz.
From Verif Require Import Response_Model.
Import ListNotations.
Open Scope R_scope.

Lemma RSum_0 f : RSum 0 f = 0. Proof. reflexivity. Qed.
Lemma RSum_S n f : RSum (S n) f = RSum n f + f n.
Proof.
  unfold RSum. rewrite seq_S, map_app. cbn [map Nat.add]. generalize (map f (seq 0 n)). intros l.
  induction l as [|x l IH]; cbn [app fold_right]; [lra|]. rewrite IH. ring.
Qed.
Lemma RSum_ext n f g : (forall i, (i < n)%nat -> f i = g i) -> RSum n f = RSum n g.
Proof. induction n as [|n IH]; intros H; [reflexivity|]. rewrite !RSum_S, IH, H by auto. reflexivity. Qed.
Lemma RSum_plus n f g : RSum n (fun i => f i + g i) = RSum n f + RSum n g.
Proof. induction n as [|n IH]; [rewrite !RSum_0; ring|]. rewrite !RSum_S, IH. ring. Qed.
Lemma RSum_scale n c f : RSum n (fun i => c * f i) = c * RSum n f.
Proof. induction n as [|n IH]; [rewrite !RSum_0; ring|]. rewrite !RSum_S, IH. ring. Qed.
Lemma RSum_le n f g : (forall i, (i < n)%nat -> f i <= g i) -> RSum n f <= RSum n g.
Proof. induction n as [|n IH]; intros H; [rewrite !RSum_0; lra|]. rewrite !RSum_S. apply Rplus_le_compat; [apply IH; auto|apply H; lia]. Qed.

(** Partition of unity of the shape functions; in-range connectivity. *)
Definition unity_sv (d : vdata) : Prop := forall q, (q < vd_quads d)%nat -> RSum (vd_nn d) (fun n => vd_sv d q n) = 1.
Definition valid_cells (d : vdata) : Prop := forall c n, (c < vd_cells d)%nat -> (n < vd_nn d)%nat -> (vd_cell d c n < vd_nodes d)%nat.

(** The density at the quadrature points that a nodal, cell or quadrature array stands for. *)
Inductive stands_for (d : vdata) (rho : list R) : (nat -> nat -> R) -> Prop :=
| by_node : length rho = vd_nodes d -> stands_for d rho (fun c q => RSum (vd_nn d) (fun n => vd_sv d q n * nth (vd_cell d c n) rho 0))
| by_cell : length rho = vd_cells d -> stands_for d rho (fun c q => nth c rho 0)
| by_quad : length rho = (vd_cells d * vd_quads d)%nat -> stands_for d rho (fun c q => nth (c * vd_quads d + q) rho 0).
(** Its volume fraction. *)
Definition fraction (d : vdata) (r : nat -> nat -> R) : R :=
  RSum (vd_cells d) (fun c => RSum (vd_quads d) (fun q => r c q * vd_JxW d c q)) /
  RSum (vd_cells d) (fun c => RSum (vd_quads d) (fun q => vd_JxW d c q)).
(** The three array sizes differ. *)
Definition sizes_differ (d : vdata) : Prop :=
  vd_nodes d <> vd_cells d /\ vd_nodes d <> (vd_cells d * vd_quads d)%nat /\ (vd_cells d <> (vd_cells d * vd_quads d)%nat).

(** When the sizes are distinguishable the result is the volume fraction of the density the array stands
    for, and every other size is an error. With one quadrature point per cell the last two coincide, harmlessly. *)
Theorem C74_fraction d rho : vd_nodes d <> vd_cells d -> vd_nodes d <> (vd_cells d * vd_quads d)%nat ->
  (forall r, stands_for d rho r -> volume_fn d rho = Some (fraction d r)) /\
  (volume_fn d rho = None <-> ~ exists r, stands_for d rho r).
Proof.
  intros N1 N2. split.
  - intros r H. unfold volume_fn, fraction, integrate, domain_volume. destruct H as [L|L|L].
    + rewrite L, Nat.eqb_refl. reflexivity.
    + destruct (Nat.eqb_spec (length rho) (vd_nodes d)) as [E|_]; [exfalso; lia|]. rewrite L, Nat.eqb_refl. reflexivity.
    + destruct (Nat.eqb_spec (length rho) (vd_nodes d)) as [E|_]; [exfalso; lia|].
      destruct (Nat.eqb_spec (length rho) (vd_cells d)) as [E|_].
      * f_equal. f_equal. apply RSum_ext. intros c Hc. apply RSum_ext. intros q Hq. f_equal. f_equal. assert (vd_quads d = 1%nat) by nia. nia.
      * rewrite L, Nat.eqb_refl. reflexivity.
  - unfold volume_fn.
    destruct (Nat.eqb_spec (length rho) (vd_nodes d)) as [E|E1]; [split; [discriminate|intros H; exfalso; apply H; eexists; apply by_node; exact E]|].
    destruct (Nat.eqb_spec (length rho) (vd_cells d)) as [E|E2]; [split; [discriminate|intros H; exfalso; apply H; eexists; apply by_cell; exact E]|].
    destruct (Nat.eqb_spec (length rho) (vd_cells d * vd_quads d)) as [E|E3]; [split; [discriminate|intros H; exfalso; apply H; eexists; apply by_quad; exact E]|].
    split; [|reflexivity]. intros _ [r H]. destruct H; contradiction.
Qed.
Print Assumptions C74_fraction.

(** Every array of an accepted size is treated as standing for some density. *)
Lemma volume_some d rho v : volume_fn d rho = Some v -> exists r, stands_for d rho r /\ v = fraction d r.
Proof.
  unfold volume_fn, integrate, domain_volume. intros H.
  destruct (Nat.eqb_spec (length rho) (vd_nodes d)) as [E|_]; [eexists; split; [apply by_node; exact E|unfold fraction; injection H as <-; reflexivity]|].
  destruct (Nat.eqb_spec (length rho) (vd_cells d)) as [E|_]; [eexists; split; [apply by_cell; exact E|unfold fraction; injection H as <-; reflexivity]|].
  destruct (Nat.eqb_spec (length rho) (vd_cells d * vd_quads d)) as [E|_]; [eexists; split; [apply by_quad; exact E|unfold fraction; injection H as <-; reflexivity]|discriminate].
Qed.

(** Bounds of the density are bounds of the fraction (between 0 and 1 in particular), whatever the kind of
    array, provided the integration weights are non-negative with positive total; nodal arrays need
    non-negative shape functions too. *)
Theorem C74_bounds d rho v lo hi : unity_sv d -> valid_cells d ->
  (forall c q, (c < vd_cells d)%nat -> (q < vd_quads d)%nat -> 0 <= vd_JxW d c q) -> 0 < domain_volume d ->
  (forall q n, (q < vd_quads d)%nat -> (n < vd_nn d)%nat -> 0 <= vd_sv d q n) ->
  (forall x, In x rho -> lo <= x <= hi) -> volume_fn d rho = Some v -> lo <= v <= hi.
Proof.
  intros U VC HJ HV HS HB E. destruct (volume_some d rho v E) as (r & S & ->).
  assert (B : forall c q, (c < vd_cells d)%nat -> (q < vd_quads d)%nat -> lo <= r c q <= hi).
  { intros c q Hc Hq. destruct S as [L|L|L].
    - replace lo with (RSum (vd_nn d) (fun n => vd_sv d q n * lo)) by (rewrite (RSum_ext _ _ (fun n => lo * vd_sv d q n)) by (intros; ring); rewrite RSum_scale, U by exact Hq; ring).
      replace hi with (RSum (vd_nn d) (fun n => vd_sv d q n * hi)) by (rewrite (RSum_ext _ _ (fun n => hi * vd_sv d q n)) by (intros; ring); rewrite RSum_scale, U by exact Hq; ring).
      split; apply RSum_le; intros n Hn; (apply Rmult_le_compat_l; [apply HS; assumption|]); apply HB, nth_In; rewrite L; apply VC; assumption.
    - apply HB, nth_In. lia.
    - apply HB, nth_In. nia. }
  unfold fraction. fold (domain_volume d). set (I := RSum (vd_cells d) (fun c => RSum (vd_quads d) (fun q => r c q * vd_JxW d c q))).
  assert (A : lo * domain_volume d <= I <= hi * domain_volume d).
  { unfold domain_volume, I. rewrite <- !RSum_scale. split; apply RSum_le; intros c Hc; rewrite <- RSum_scale; apply RSum_le; intros q Hq; (apply Rmult_le_compat_r; [apply HJ; assumption|]); apply B; assumption. }
  split; apply Rmult_le_reg_r with (domain_volume d); try assumption; unfold Rdiv; rewrite Rmult_assoc, Rinv_l by lra; lra.
Qed.
Print Assumptions C74_bounds.

(** A constant density is its own volume fraction, also with negative shape functions or weights. *)
Theorem C74_constant d n c v : unity_sv d -> valid_cells d -> domain_volume d <> 0 ->
  volume_fn d (repeat c n) = Some v -> v = c.
Proof.
  intros U VC HV E. destruct (volume_some d _ v E) as (r & S & ->).
  assert (NR : forall k, (k < n)%nat -> nth k (repeat c n) 0 = c).
  { intros k Hk. rewrite (nth_indep _ 0 c) by (rewrite repeat_length; exact Hk). apply nth_repeat. }
  assert (B : forall i q, (i < vd_cells d)%nat -> (q < vd_quads d)%nat -> r i q = c).
  { intros i q Hi Hq. destruct S as [L|L|L]; rewrite repeat_length in L.
    - rewrite (RSum_ext _ _ (fun m => c * vd_sv d q m)).
      2:{ intros m Hm. rewrite NR by (rewrite L; apply VC; assumption). ring. }
      rewrite RSum_scale, U by exact Hq. ring.
    - apply NR. lia.
    - apply NR. nia. }
  unfold fraction. fold (domain_volume d).
  replace (RSum (vd_cells d) (fun c0 => RSum (vd_quads d) (fun q => r c0 q * vd_JxW d c0 q))) with (c * domain_volume d); [field; exact HV|].
  unfold domain_volume. rewrite <- RSum_scale. apply RSum_ext. intros i Hi. rewrite <- RSum_scale. apply RSum_ext. intros q Hq. rewrite B by assumption. reflexivity.
Qed.
Print Assumptions C74_constant.

(** The fraction is linear in the array. *)
Definition lincomb (a b : R) (x y : list R) : list R := map (fun p => a * fst p + b * snd p) (combine x y).
Lemma lincomb_nth a b x y k : length x = length y -> nth k (lincomb a b x y) 0 = a * nth k x 0 + b * nth k y 0.
Proof.
  intros L. unfold lincomb. revert y k L. induction x as [|u x IH]; intros [|w y] k L; cbn [length] in L; try lia.
  - destruct k; cbn; ring.
  - destruct k as [|k]; [cbn; ring|]. cbn [combine map nth]. apply IH. lia.
Qed.
Lemma lincomb_length a b x y : length x = length y -> length (lincomb a b x y) = length x.
Proof. intros L. unfold lincomb. rewrite map_length, combine_length. lia. Qed.
Theorem C74_linear d a b x y vx vy : length x = length y ->
  volume_fn d x = Some vx -> volume_fn d y = Some vy -> volume_fn d (lincomb a b x y) = Some (a * vx + b * vy).
Proof.
  intros L. unfold volume_fn. rewrite lincomb_length, <- L by exact L.
  assert (Lin : forall r1 r2 r3, (forall c q, r3 c q = a * r1 c q + b * r2 c q) ->
    integrate d r3 / domain_volume d = a * (integrate d r1 / domain_volume d) + b * (integrate d r2 / domain_volume d)).
  { intros r1 r2 r3 H. unfold integrate. unfold Rdiv. rewrite <- !Rmult_assoc, <- Rmult_plus_distr_r. f_equal.
    rewrite <- !RSum_scale, <- RSum_plus. apply RSum_ext. intros c _. rewrite <- !RSum_scale, <- RSum_plus. apply RSum_ext. intros q _. rewrite H. ring. }
  destruct (Nat.eqb (length x) (vd_nodes d)); [|destruct (Nat.eqb (length x) (vd_cells d)); [|destruct (Nat.eqb (length x) (vd_cells d * vd_quads d)); [|discriminate]]];
    intros E1 E2; match type of E1 with Some ?e = Some _ => assert (X1 : vx = e) by congruence end;
    match type of E2 with Some ?e = Some _ => assert (X2 : vy = e) by congruence end; rewrite X1, X2; f_equal; apply Lin; intros c q.
  - rewrite <- !RSum_scale, <- RSum_plus. apply RSum_ext. intros n _. rewrite lincomb_nth by exact L. ring.
  - apply lincomb_nth. exact L.
  - apply lincomb_nth. exact L.
Qed.
Print Assumptions C74_linear.

(** FINDING: with as many nodes as cells a cell array is read as a nodal one. A triangle split into five
    triangles by two interior nodes; the density 1 on the first cell has volume fraction 1/9. *)
Definition two_inner : vdata :=
  {| vd_nodes := 5; vd_cells := 5; vd_quads := 1; vd_nn := 3;
     vd_cell := fun c n => nth n (nth c [[0; 1; 4]; [1; 3; 4]; [3; 0; 4]; [1; 2; 3]; [2; 0; 3]]%nat []) 0%nat;
     vd_sv := fun _ _ => 1 / 3; vd_JxW := fun c _ => nth c [1 / 18; 1 / 18; 1 / 18; 1 / 6; 1 / 6] 0 |}.
Theorem C74_ambiguous_refuted : exists d rho r v,
  unity_sv d /\ valid_cells d /\ 0 < domain_volume d /\ length rho = vd_cells d /\
  (r = fun c q => nth c rho 0) /\ volume_fn d rho = Some v /\ fraction d r = 1 / 9 /\ v = 5 / 27.
Proof.
  exists two_inner, [1; 0; 0; 0; 0], (fun c q => nth c [1; 0; 0; 0; 0] 0). eexists.
  split; [intros q Hq; unfold RSum; cbn; lra|]. split.
  { intros c n Hc Hn. cbn in Hc, Hn |- *. do 5 (destruct c as [|c]; [do 3 (destruct n as [|n]; [cbn; lia|]); lia|]). lia. }
  split; [unfold domain_volume, RSum; cbn; lra|]. split; [reflexivity|]. split; [reflexivity|]. split; [reflexivity|].
  unfold fraction, integrate, domain_volume, RSum. cbn. split; field.
Qed.
Print Assumptions C74_ambiguous_refuted.

(** A mesh meeting the hypotheses: one linear element of length 2, two quadrature points. *)
Example C74_example :
  let d := {| vd_nodes := 3; vd_cells := 2; vd_quads := 2; vd_nn := 2; vd_cell := fun c n => (c + n)%nat;
              vd_sv := fun q n => if Nat.eqb q n then 3 / 4 else 1 / 4; vd_JxW := fun c q => 1 / 2 |} in
  sizes_differ d /\ unity_sv d /\ valid_cells d /\ domain_volume d = 2 /\
  volume_fn d [0; 1; 1] = Some (3 / 4) /\ volume_fn d [1; 0] = Some (1 / 2) /\ volume_fn d [1; 0; 0; 0] = Some (1 / 4).
Proof.
  cbv zeta. split; [unfold sizes_differ; cbn; lia|]. split.
  { intros q Hq. cbn in Hq. destruct q as [|[|q]]; [| |lia]; unfold RSum; cbn; lra. }
  split; [intros c n Hc Hn; cbn in *; lia|]. split; [unfold domain_volume, RSum; cbn; lra|].
  unfold volume_fn, integrate, domain_volume, RSum; cbn. repeat split; f_equal; field.
Qed.
