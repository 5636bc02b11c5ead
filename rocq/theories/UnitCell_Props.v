(** C61: the ready-made periodic pairings of a unit cell give exactly the periodic fields. *)
From Coq Require Import ZArith List Bool Lia Permutation ZifyBool ZifyNat.
From Verif Require Import Base Pbc_Model Pbc_Spec Pbc_Proofs Pbc_Props UnitCell_Model UnitCell_Spec UnitCell_Proofs.
Import ListNotations.
Local Open Scope list_scope. Local Open Scope Z_scope.

(** The prolongation [P] has one entry per row in a valid column, its range is exactly the
    periodic fields and different reduced vectors give different fields. *)
Definition periodic_prolongation (points : list (list Z)) (dim : nat) (lo hi : nat -> Z) (vec : nat) (P : prolongation) : Prop :=
  pm_rows P = (length points * vec)%nat /\ length (pm_col P) = pm_rows P /\
  (forall i, (i < pm_rows P)%nat -> 0 <= nth i (pm_col P) 0 < Z.of_nat (pm_cols P)) /\
  (forall (A : Type) (u : nat -> A),
     (exists x, forall i, (i < pm_rows P)%nat -> u i = prolong P x i) <-> periodic_field points dim lo hi vec u) /\
  (forall (A : Type) (x y : Z -> A), (forall i, (i < pm_rows P)%nat -> prolong P x i = prolong P y i) ->
     forall c, 0 <= c < Z.of_nat (pm_cols P) -> x c = y c).

(** ** Concatenated families *)
Lemma concat_opt_good points dim eps lo hi (l : list (option (list (pairing qpoint)))) (ds : list (list (list side * nat))) :
  Forall2 (fun o d => exists ps, o = Some ps /\ Forall2 (good points dim eps lo hi) ps d) l ds ->
  exists ps, concat_opt l = Some ps /\ Forall2 (good points dim eps lo hi) ps (concat ds).
Proof.
  intros H. unfold concat_opt.
  assert (X : exists ls, all_some l = Some ls /\ Forall2 (good points dim eps lo hi) (concat ls) (concat ds)).
  { induction H as [|o d l ds (ps & -> & G) H IH]; cbn.
    - exists []. split; [reflexivity|constructor].
    - destruct IH as (ls & -> & G'). exists (ps :: ls). split; [reflexivity|]. cbn. apply Forall2_app; assumption. }
  destruct X as (ls & -> & G). exists (concat ls). auto.
Qed.

Definition pats (vec : nat) (l : list (list side)) : list (list side * nat) :=
  concat (map (fun p => map (pair p) (seq 0 vec)) l).
Lemma pats_app vec l1 l2 : pats vec (l1 ++ l2) = pats vec l1 ++ pats vec l2.
Proof. unfold pats. now rewrite map_app, concat_app. Qed.
Lemma pats_in vec l p c : In (p, c) (pats vec l) <-> In p l /\ (c < vec)%nat.
Proof.
  unfold pats. rewrite in_concat. split.
  - intros (x & Hx & Hc). apply in_map_iff in Hx. destruct Hx as (q & <- & Hq). apply in_map_iff in Hc.
    destruct Hc as (i & E & Hi'). inversion E; subst. apply in_seq in Hi'. split; [exact Hq|lia].
  - intros [Hp Hc]. exists (map (pair p) (seq 0 vec)). split; [apply in_map_iff; exists p; auto|].
    apply in_map_iff. exists c. split; [reflexivity|apply in_seq; lia].
Qed.
Lemma pats_nodup vec l : NoDup l -> NoDup (pats vec l).
Proof.
  induction 1 as [|p l Hp ND IH]; [constructor|].
  change (NoDup (map (pair p) (seq 0 vec) ++ pats vec l)).
  assert (D : forall x, In x (map (pair p) (seq 0 vec)) -> ~ In x (pats vec l)).
  { intros [q c] Hx Hy. apply in_map_iff in Hx. destruct Hx as (i & E & _). inversion E; subst q c.
    apply pats_in in Hy. tauto. }
  assert (N1 : NoDup (map (pair p) (seq 0 vec))).
  { apply FinFun.Injective_map_NoDup; [intros a b E; congruence|apply seq_NoDup]. }
  revert D N1. generalize (map (pair p) (seq 0 vec)) as a. intros a D N1.
  induction N1 as [|x a Hx N1 IH1]; [exact IH|]. cbn. constructor.
  - rewrite in_app_iff. intros [H|H]; [tauto|]. apply (D x); [left; reflexivity|exact H].
  - apply IH1. intros y Hy. apply D. right. exact Hy.
Qed.

Section Masks.
  Variable points : list (list Z).
  Variable dim : nat.
  Variables atol atol0 eps : Z.
  Variables lo hi : nat -> Z.
  Hypothesis HC : cell_mesh points dim lo hi.
  Hypothesis HR : resolved points dim atol atol0 eps.
  Hypothesis H0 : 0 <= atol /\ 0 <= atol0.

  Lemma close_lo x k : In x points -> (k < dim)%nat -> isclose atol (coord x k) (lo k) = (coord x k =? lo k).
  Proof. intros. eapply isclose_eq; eauto; try lia. eapply lo_pt; eauto. Qed.
  Lemma close_hi x k : In x points -> (k < dim)%nat -> isclose atol (coord x k) (hi k) = (coord x k =? hi k).
  Proof. intros. eapply isclose_eq; eauto; try lia. eapply hi_pt; eauto. Qed.
  Lemma not_allclose k : (k < dim)%nat -> isclose atol0 (hi k) (lo k) = false.
  Proof.
    intros Hk. destruct (hi_pt points dim lo hi HC k Hk) as (p & Hp & E). rewrite <- E.
    rewrite (isclose_eq points dim atol atol0 eps HR atol0 p k (lo k)); [|lia|exact Hp|exact Hk|eapply lo_pt; eauto|lia].
    pose proof (lo_hi points dim lo hi HC k Hk). lia.
  Qed.
  Lemma allclose_lo k : isclose atol0 (lo k) (lo k) = true.
  Proof. unfold isclose. rewrite Z.sub_diag. apply Z.leb_le. change (Z.abs 0) with 0. lia. Qed.
End Masks.

(** Solves [mask x = true <-> sig x = pat] once the mask is a formula in the comparisons with
    the bounds. *)
Ltac sides :=
  repeat match goal with
  | |- context [?a =? ?b] => destruct (Z.eqb_spec a b)
  end; cbn; split; intros; try discriminate; try reflexivity; try lia.

Section Dim2.
  Variable points : list (list Z).
  Variables atol atol0 eps : Z.
  Variables lo hi : nat -> Z.
  Hypothesis HC : cell_mesh points 2 lo hi.
  Hypothesis HR : resolved points 2 atol atol0 eps.
  Hypothesis HP : periodic_mesh points 2 lo hi.
  Hypothesis H0 : 0 <= atol /\ 0 <= atol0.

  Lemma pt2 x : In x points -> exists a b, x = [a; b].
  Proof.
    intros Hx. apply (pts_len points 2 lo hi HC) in Hx. destruct x as [|a [|b [|c x]]]; cbn in Hx; try lia. eauto.
  Qed.
  Lemma hits2 x : In x points -> is_corner points atol x =
    ((coord x 0 =? lo 0) || (coord x 0 =? hi 0)) && ((coord x 1 =? lo 1) || (coord x 1 =? hi 1)).
  Proof.
    intros Hx. pose proof (pt2 x Hx) as (a & b & E). unfold is_corner, hits.
    replace (length x) with 2%nat by (rewrite E; reflexivity). cbn [seq filter].
    rewrite !(lb_lo points 2 lo hi HC), !(ub_hi points 2 lo hi HC) by lia.
    rewrite !(close_lo points 2 atol atol0 eps lo hi HC HR H0), !(close_hi points 2 atol atol0 eps lo hi HC HR H0) by (auto; lia).
    destruct ((coord x 0 =? lo 0) || (coord x 0 =? hi 0)), ((coord x 1 =? lo 1) || (coord x 1 =? hi 1)); reflexivity.
  Qed.
  Lemma sig2 x : sig 2 lo hi x = [side_of lo hi x 0; side_of lo hi x 1].
  Proof. reflexivity. Qed.

  Lemma corner2 s1 s2 : s1 <> Mid -> s2 <> Mid -> forall x, In x points ->
    let v k s := match s with Lo => lo k | _ => hi k end in
    forallb (fun pv => isclose atol (fst pv) (snd pv)) (combine x [v 0%nat s1; v 1%nat s2]) = true <-> sig 2 lo hi x = [s1; s2].
  Proof.
    intros M1 M2 x Hx v. pose proof (pt2 x Hx) as (a & b & E). subst x. cbn [combine forallb fst snd]. subst v. cbn beta.
    pose proof (close_lo points 2 atol atol0 eps lo hi HC HR H0 _ 0 Hx) as C1.
    pose proof (close_lo points 2 atol atol0 eps lo hi HC HR H0 _ 1 Hx) as C2.
    pose proof (close_hi points 2 atol atol0 eps lo hi HC HR H0 _ 0 Hx) as C3.
    pose proof (close_hi points 2 atol atol0 eps lo hi HC HR H0 _ 1 Hx) as C4.
    cbn in C1, C2, C3, C4. pose proof (lo_hi points 2 lo hi HC 0) as L1. pose proof (lo_hi points 2 lo hi HC 1) as L2.
    rewrite sig2. unfold side_of. cbn [coord nth].
    destruct s1, s2; try congruence; rewrite ?C1, ?C2, ?C3, ?C4 by lia; sides.
  Qed.

  Lemma edge2 axis s : (axis < 2)%nat -> s <> Mid -> forall x, In x points ->
    isclose atol (coord x axis) (match s with Lo => lo axis | _ => hi axis end) && negb (is_corner points atol x) = true <->
    sig 2 lo hi x = match axis with O => [s; Mid] | _ => [Mid; s] end.
  Proof.
    intros Ha Hs x Hx. rewrite hits2 by exact Hx. rewrite sig2. unfold side_of.
    pose proof (lo_hi points 2 lo hi HC 0) as L1. pose proof (lo_hi points 2 lo hi HC 1) as L2.
    destruct s; try congruence;
      rewrite ?(close_lo points 2 atol atol0 eps lo hi HC HR H0), ?(close_hi points 2 atol atol0 eps lo hi HC HR H0) by (auto; lia);
      destruct axis as [|[|axis]]; try lia; sides.
  Qed.
End Dim2.

Section Thm2.
  Variable points : list (list Z).
  Variables atol atol0 eps : Z.
  Variables lo hi : nat -> Z.
  Hypothesis HC : cell_mesh points 2 lo hi.
  Hypothesis HR : resolved points 2 atol atol0 eps.
  Hypothesis HP : periodic_mesh points 2 lo hi.
  Hypothesis H0 : 0 <= atol /\ 0 <= atol0.
  Local Notation Good := (good points 2 eps lo hi).

  Lemma corner_pairs2 vec : exists ps, corner_pairs points 2 atol atol0 vec 2 = Some ps /\
    Forall2 Good ps (pats vec [[Lo; Hi]; [Hi; Lo]; [Hi; Hi]]).
  Proof.
    unfold corner_pairs, corner_origin. cbn [seq map corner_product flat_map app]. unfold len.
    rewrite !(lb_lo points 2 lo hi HC), !(ub_hi points 2 lo hi HC) by lia.
    replace (lo 0%nat + (hi 0%nat - lo 0%nat)) with (hi 0%nat) by lia.
    replace (lo 1%nat + (hi 1%nat - lo 1%nat)) with (hi 1%nat) by lia.
    cbn [filter combine forallb fst snd].
    rewrite !(allclose_lo atol atol0 lo H0), !(not_allclose points 2 atol atol0 eps lo hi HC HR H0) by lia.
    cbn [negb andb map]. apply (concat_opt_good points 2 eps lo hi). cbn [map].
    repeat constructor.
    all: unfold corner_function; cbn [length Nat.eqb]; eapply mk_pairs_good; eauto.
    all: try (apply (corner2 points atol atol0 eps lo hi HC HR H0 Lo Lo); discriminate).
    - apply (corner2 points atol atol0 eps lo hi HC HR H0 Lo Hi); discriminate.
    - apply (corner2 points atol atol0 eps lo hi HC HR H0 Hi Lo); discriminate.
    - apply (corner2 points atol atol0 eps lo hi HC HR H0 Hi Hi); discriminate.
  Qed.

  (** Two dimensions, any box: for every mesh whose opposite edges carry matching nodes the
      pairings of [periodic_bc_2D] are accepted and the resulting matrix spans exactly the
      periodic fields. *)
  Theorem C61_2D (vec : nat) : (0 < vec)%nat -> exists P,
    cell_prolongation points 2 eps vec (periodic_bc_2D points 2 atol atol0 vec) = Some P /\
    periodic_prolongation points 2 lo hi vec P.
  Proof.
    intros Hvec. destruct (corner_pairs2 vec) as (cs & Ec & Gc).
    assert (X : exists es, concat_opt (map (fun axis => mk_pairs points 2 vec
        (face_function points 2 atol axis (lb points axis) false true)
        (face_function points 2 atol axis (lb points axis + len points axis) false true)) (seq 0 2)) = Some es /\
        Forall2 Good es (pats vec [[Hi; Mid]; [Mid; Hi]])).
    { apply (concat_opt_good points 2 eps lo hi). cbn [seq map]. unfold len, face_function. cbn [Nat.ltb Nat.leb].
      rewrite !(lb_lo points 2 lo hi HC), !(ub_hi points 2 lo hi HC) by lia.
      replace (lo 0%nat + (hi 0%nat - lo 0%nat)) with (hi 0%nat) by lia.
      replace (lo 1%nat + (hi 1%nat - lo 1%nat)) with (hi 1%nat) by lia.
      repeat constructor; cbn [andb]; eapply mk_pairs_good; eauto.
      - apply (edge2 points atol atol0 eps lo hi HC HR H0 0 Lo); [lia|discriminate].
      - apply (edge2 points atol atol0 eps lo hi HC HR H0 0 Hi); [lia|discriminate].
      - apply (edge2 points atol atol0 eps lo hi HC HR H0 1 Lo); [lia|discriminate].
      - apply (edge2 points atol atol0 eps lo hi HC HR H0 1 Hi); [lia|discriminate]. }
    destruct X as (es & Ee & Ge). unfold periodic_bc_2D. rewrite Ee, Ec. cbn [cell_prolongation].
    apply (fam_range points 2 atol atol0 eps lo hi HC HR HP vec (cs ++ es)
             (pats vec ([[Lo; Hi]; [Hi; Lo]; [Hi; Hi]] ++ [[Hi; Mid]; [Mid; Hi]]))).
    - rewrite pats_app. apply Forall2_app; assumption.
    - apply pats_nodup. repeat constructor; cbn; intuition discriminate.
    - intros pat c. rewrite pats_in. split.
      + intros [H Hc]. cbn in H. repeat (destruct H as [<-|H]; [cbn; intuition|]). destruct H.
      + intros (L & Hh & Hc). split; [|exact Hc]. destruct pat as [|s1 [|s2 [|s3 pat]]]; try discriminate L.
        destruct s1, s2; cbn in *; intuition discriminate.
    - exact Hvec.
    - lia.
  Qed.
End Thm2.
Print Assumptions C61_2D.

Section Dim3.
  Variable points : list (list Z).
  Variables atol atol0 eps : Z.
  Variables lo hi : nat -> Z.
  Hypothesis HC : cell_mesh points 3 lo hi.
  Hypothesis HR : resolved points 3 atol atol0 eps.
  Hypothesis HP : periodic_mesh points 3 lo hi.
  Hypothesis H0 : 0 <= atol /\ 0 <= atol0.
  Local Notation CL := (close_lo points 3 atol atol0 eps lo hi HC HR H0).
  Local Notation CH := (close_hi points 3 atol atol0 eps lo hi HC HR H0).

  Lemma pt3 x : In x points -> exists a b c, x = [a; b; c].
  Proof.
    intros Hx. apply (pts_len points 3 lo hi HC) in Hx. destruct x as [|a [|b [|c [|d x]]]]; cbn in Hx; try lia. eauto.
  Qed.
  Definition hit (x : list Z) (k : nat) : bool := (coord x k =? lo k) || (coord x k =? hi k).
  Lemma hits3 x : In x points ->
    is_corner points atol x = (hit x 0 && hit x 1 && hit x 2) /\
    is_edge points atol x = ((hit x 0 && hit x 1 && negb (hit x 2)) || (hit x 0 && negb (hit x 1) && hit x 2) ||
                             (negb (hit x 0) && hit x 1 && hit x 2)).
  Proof.
    intros Hx. pose proof (pt3 x Hx) as (a & b & c & E). unfold is_edge, is_corner, hits.
    replace (length x) with 3%nat by (rewrite E; reflexivity). cbn [seq filter].
    rewrite !(lb_lo points 3 lo hi HC), !(ub_hi points 3 lo hi HC) by lia.
    rewrite !CL, !CH by (auto; lia). fold (hit x 0). fold (hit x 1). fold (hit x 2).
    destruct (hit x 0), (hit x 1), (hit x 2); split; reflexivity.
  Qed.
  Lemma sig3 x : sig 3 lo hi x = [side_of lo hi x 0; side_of lo hi x 1; side_of lo hi x 2].
  Proof. reflexivity. Qed.
  Definition bound (k : nat) (s : side) : Z := match s with Lo => lo k | _ => hi k end.

  Lemma lh3 : lo 0%nat < hi 0%nat /\ lo 1%nat < hi 1%nat /\ lo 2%nat < hi 2%nat.
  Proof.
    pose proof (lo_hi points 3 lo hi HC 0). pose proof (lo_hi points 3 lo hi HC 1). pose proof (lo_hi points 3 lo hi HC 2). lia.
  Qed.

  Lemma corner3 s1 s2 s3 : s1 <> Mid -> s2 <> Mid -> s3 <> Mid -> forall x, In x points ->
    forallb (fun pv => isclose atol (fst pv) (snd pv)) (combine x [bound 0 s1; bound 1 s2; bound 2 s3]) = true <->
    sig 3 lo hi x = [s1; s2; s3].
  Proof.
    intros M1 M2 M3 x Hx. pose proof (pt3 x Hx) as (a & b & c & E). subst x. cbn [combine forallb fst snd].
    pose proof (CL _ 0%nat Hx) as C1. pose proof (CL _ 1%nat Hx) as C2. pose proof (CL _ 2%nat Hx) as C3.
    pose proof (CH _ 0%nat Hx) as D1. pose proof (CH _ 1%nat Hx) as D2. pose proof (CH _ 2%nat Hx) as D3.
    cbn in C1, C2, C3, D1, D2, D3. pose proof lh3 as (L1 & L2 & L3).
    rewrite sig3. unfold side_of, bound. cbn [coord nth].
    destruct s1, s2, s3; try congruence; rewrite ?C1, ?C2, ?C3, ?D1, ?D2, ?D3 by lia; clear C1 C2 C3 D1 D2 D3; sides.
  Qed.

  Lemma face3 axis s : (axis < 3)%nat -> s <> Mid -> forall x, In x points ->
    isclose atol (coord x axis) (bound axis s) && (negb (is_edge points atol x) && negb (is_corner points atol x)) = true <->
    sig 3 lo hi x = match axis with O => [s; Mid; Mid] | S O => [Mid; s; Mid] | _ => [Mid; Mid; s] end.
  Proof.
    intros Ha Hs x Hx. destruct (hits3 x Hx) as [-> ->]. rewrite sig3. unfold side_of, hit, bound.
    pose proof lh3 as (L1 & L2 & L3).
    destruct s; try congruence; rewrite ?CL, ?CH by (auto; lia);
      destruct axis as [|[|[|axis]]]; try lia; sides.
  Qed.

  Lemma edge3 a b sa sb : (a, b) = (1, 2)%nat \/ (a, b) = (0, 2)%nat \/ (a, b) = (0, 1)%nat -> sa <> Mid -> sb <> Mid ->
    forall x, In x points -> edge_function points atol [a; b] [bound a sa; bound b sb] true x = true <->
    sig 3 lo hi x = match a, b with 1%nat, _ => [Mid; sa; sb] | _, 2%nat => [sa; Mid; sb] | _, _ => [sa; sb; Mid] end.
  Proof.
    intros Hab Hs1 Hs2 x Hx. unfold edge_function. cbn [combine fold_left fst snd andb].
    destruct (hits3 x Hx) as [-> _]. rewrite sig3. unfold side_of, hit, bound. pose proof lh3 as (L1 & L2 & L3).
    destruct Hab as [E|[E|E]]; injection E as -> ->;
      destruct sa, sb; try congruence; rewrite ?CL, ?CH by (auto; lia); sides.
  Qed.
End Dim3.

Definition corners3 : list (list side) :=
  [[Lo; Lo; Hi]; [Lo; Hi; Lo]; [Lo; Hi; Hi]; [Hi; Lo; Lo]; [Hi; Lo; Hi]; [Hi; Hi; Lo]; [Hi; Hi; Hi]].
Definition edges3 : list (list side) :=
  [[Mid; Hi; Lo]; [Mid; Hi; Hi]; [Mid; Lo; Hi]; [Hi; Mid; Lo]; [Hi; Mid; Hi]; [Lo; Mid; Hi];
   [Hi; Lo; Mid]; [Hi; Hi; Mid]; [Lo; Hi; Mid]].
Definition faces3 : list (list side) := [[Hi; Mid; Mid]; [Mid; Hi; Mid]; [Mid; Mid; Hi]].

Section Thm3.
  Variable points : list (list Z).
  Variables atol atol0 eps : Z.
  Variables lo hi : nat -> Z.
  Hypothesis HC : cell_mesh points 3 lo hi.
  Hypothesis HR : resolved points 3 atol atol0 eps.
  Hypothesis HP : periodic_mesh points 3 lo hi.
  Hypothesis H0 : 0 <= atol /\ 0 <= atol0.
  Local Notation Good := (good points 3 eps lo hi).

  Lemma corner_pairs3 vec : exists ps, corner_pairs points 3 atol atol0 vec 3 = Some ps /\
    Forall2 Good ps (pats vec corners3).
  Proof.
    unfold corner_pairs, corner_origin. cbn [seq map corner_product flat_map app]. unfold len.
    rewrite !(lb_lo points 3 lo hi HC), !(ub_hi points 3 lo hi HC) by lia.
    replace (lo 0%nat + (hi 0%nat - lo 0%nat)) with (hi 0%nat) by lia.
    replace (lo 1%nat + (hi 1%nat - lo 1%nat)) with (hi 1%nat) by lia.
    replace (lo 2%nat + (hi 2%nat - lo 2%nat)) with (hi 2%nat) by lia.
    cbn [filter combine forallb fst snd].
    rewrite !(allclose_lo atol atol0 lo H0), !(not_allclose points 3 atol atol0 eps lo hi HC HR H0) by lia.
    cbn [negb andb map]. apply (concat_opt_good points 3 eps lo hi). unfold corners3. cbn [map].
    repeat constructor.
    all: unfold corner_function; cbn [length Nat.eqb]; eapply mk_pairs_good; eauto.
    all: try (apply (corner3 points atol atol0 eps lo hi HC HR H0 Lo Lo Lo); discriminate).
    all: match goal with |- forall x, _ -> _ <-> _ = [?a; ?b; ?c] =>
           apply (corner3 points atol atol0 eps lo hi HC HR H0 a b c); discriminate end.
  Qed.

  (** Three dimensions, box starting at the origin: the same for [periodic_bc_3D]. *)
  Theorem C61_3D (vec : nat) : (0 < vec)%nat -> (forall k, (k < 3)%nat -> lo k = 0) -> exists P,
    cell_prolongation points 3 eps vec (periodic_bc_3D points 3 atol atol0 vec) = Some P /\
    periodic_prolongation points 3 lo hi vec P.
  Proof.
    intros Hvec Hz. destruct (corner_pairs3 vec) as (cs & Ec & Gc).
    pose proof (Hz 0%nat ltac:(lia)) as Z0. pose proof (Hz 1%nat ltac:(lia)) as Z1. pose proof (Hz 2%nat ltac:(lia)) as Z2.
    assert (B0 : forall k, (k < 3)%nat -> 0 = bound lo hi k Lo) by (intros; symmetry; apply Hz; assumption).
    assert (BL : forall k, (k < 3)%nat -> len points k = bound lo hi k Hi).
    { intros k Hk. unfold len. rewrite (lb_lo points 3 lo hi HC), (ub_hi points 3 lo hi HC), (Hz k Hk) by lia. cbn. lia. }
    unfold periodic_bc_3D. rewrite Ec.
    match goal with |- context [match ?f with Some _ => _ | None => None end] => set (FA := f) end.
    match goal with |- context [concat_opt (flat_map ?g ?h)] => set (ED := concat_opt (flat_map g h)) end.
    assert (XF : exists fs, FA = Some fs /\ Forall2 Good fs (pats vec faces3)).
    { subst FA. apply (concat_opt_good points 3 eps lo hi). unfold faces3. cbn [seq map]. unfold face_function. cbn [Nat.ltb Nat.leb].
      repeat constructor; cbn [andb]; eapply mk_pairs_good; eauto; rewrite ?BL by lia.
      - rewrite (B0 0%nat) by lia. apply (face3 points atol atol0 eps lo hi HC HR H0 0 Lo); [lia|discriminate].
      - apply (face3 points atol atol0 eps lo hi HC HR H0 0 Hi); [lia|discriminate].
      - rewrite (B0 1%nat) by lia. apply (face3 points atol atol0 eps lo hi HC HR H0 1 Lo); [lia|discriminate].
      - apply (face3 points atol atol0 eps lo hi HC HR H0 1 Hi); [lia|discriminate].
      - rewrite (B0 2%nat) by lia. apply (face3 points atol atol0 eps lo hi HC HR H0 2 Lo); [lia|discriminate].
      - apply (face3 points atol atol0 eps lo hi HC HR H0 2 Hi); [lia|discriminate]. }
    assert (XE : exists es, ED = Some es /\ Forall2 Good es (pats vec edges3)).
    { subst ED. apply (concat_opt_good points 3 eps lo hi). unfold edges3. cbn [map flat_map app]. rewrite !BL by lia.
      assert (EQ : forall a b sa sb, (a < 3)%nat -> (b < 3)%nat -> (a, b) = (1, 2)%nat \/ (a, b) = (0, 2)%nat \/ (a, b) = (0, 1)%nat -> sa <> Mid -> sb <> Mid ->
        forall x, In x points -> forall va vb, va = bound lo hi a sa -> vb = bound lo hi b sb ->
        edge_function points atol [a; b] [va; vb] true x = true <->
        sig 3 lo hi x = match a, b with 1%nat, _ => [Mid; sa; sb] | _, 2%nat => [sa; Mid; sb] | _, _ => [sa; sb; Mid] end).
      { intros a b sa sb Ha Hb Hab Hsa Hsb x Hx va vb -> ->. apply (edge3 points atol atol0 eps lo hi HC HR H0 a b sa sb); assumption. }
      repeat constructor; eapply mk_pairs_good; eauto; intros x Hx; cbn [lower map lower1].
      all: match goal with
           | |- _ <-> _ = [Mid; ?a; ?b] => apply (EQ 1%nat 2%nat a b)
           | |- _ <-> _ = [?a; Mid; ?b] => apply (EQ 0%nat 2%nat a b)
           | |- _ <-> _ = [?a; ?b; Mid] => apply (EQ 0%nat 1%nat a b)
           end; try discriminate; try lia; auto; try reflexivity; try (apply B0; lia). }
    destruct XF as (fs & -> & Gf). destruct XE as (es & -> & Ge). cbn [cell_prolongation].
    apply (fam_range points 3 atol atol0 eps lo hi HC HR HP vec (cs ++ es ++ fs) (pats vec (corners3 ++ edges3 ++ faces3))).
    - rewrite !pats_app. repeat apply Forall2_app; assumption.
    - apply pats_nodup. unfold corners3, edges3, faces3. cbn [app]. repeat constructor; cbn; intuition discriminate.
    - intros pat c. rewrite pats_in. split.
      + intros [H Hc]. unfold corners3, edges3, faces3 in H. cbn in H.
        repeat (destruct H as [<-|H]; [cbn; intuition|]). destruct H.
      + intros (L & Hh & Hc). split; [|exact Hc]. destruct pat as [|s1 [|s2 [|s3 [|s4 pat]]]]; try discriminate L.
        destruct s1, s2, s3; cbn in *; intuition discriminate.
    - exact Hvec.
    - lia.
  Qed.
End Thm3.
Print Assumptions C61_3D.

(** ** Checking the hypotheses on concrete meshes *)
Fixpoint leqb (a b : list Z) : bool :=
  match a, b with [], [] => true | x :: a, y :: b => (x =? y) && leqb a b | _, _ => false end.
Lemma leqb_eq a b : leqb a b = true <-> a = b.
Proof.
  revert b. induction a as [|x a IH]; intros [|y b]; cbn; try (split; [discriminate|discriminate]); [tauto|].
  rewrite andb_true_iff, Z.eqb_eq, IH. split; [intros [-> ->]; reflexivity|intros E; inversion E; auto].
Qed.
Definition memb (p : list Z) (l : list (list Z)) : bool := existsb (leqb p) l.
Lemma memb_in p l : memb p l = true <-> In p l.
Proof.
  unfold memb. rewrite existsb_exists. split.
  - intros (x & Hx & E). apply leqb_eq in E. now subst.
  - intros H. exists p. split; [exact H|]. now apply leqb_eq.
Qed.
Fixpoint nodupb (l : list (list Z)) : bool := match l with [] => true | x :: l => negb (memb x l) && nodupb l end.
Definition all_k (dim : nat) (f : nat -> bool) : bool := forallb f (seq 0 dim).
Lemma all_k_ok dim f : all_k dim f = true -> forall k, (k < dim)%nat -> f k = true.
Proof. intros H k Hk. apply (proj1 (forallb_forall _ _) H). apply in_seq. lia. Qed.
Definition cell_meshb points dim lo hi : bool :=
  nodupb points && forallb (fun p => Nat.eqb (length p) dim) points &&
  all_k dim (fun k => forallb (fun p => (lo k <=? nth k p 0) && (nth k p 0 <=? hi k)) points &&
                      existsb (fun p => nth k p 0 =? lo k) points && existsb (fun p => nth k p 0 =? hi k) points && (lo k <? hi k)).
Lemma cell_meshb_ok points dim lo hi : cell_meshb points dim lo hi = true -> cell_mesh points dim lo hi.
Proof.
  unfold cell_meshb. rewrite !andb_true_iff. intros ((H1 & H2) & H3). split; [|split; [|split]].
  - clear - H1. induction points as [|x l IH]; [constructor|]. cbn in H1. apply andb_true_iff in H1. destruct H1 as [Hx Hl].
    constructor; [|apply IH, Hl]. intros Hin. apply memb_in in Hin. rewrite Hin in Hx. discriminate.
  - intros p Hp. apply Nat.eqb_eq. apply (proj1 (forallb_forall _ _) H2 p Hp).
  - intros k Hk. pose proof (all_k_ok _ _ H3 k Hk) as E. rewrite !andb_true_iff in E. destruct E as (((E1 & E2) & E3) & _).
    split; [|split].
    + intros p Hp. pose proof (proj1 (forallb_forall _ _) E1 p Hp) as X. cbn beta in X. lia.
    + apply existsb_exists in E2. destruct E2 as (p & Hp & E). exists p. split; [exact Hp|lia].
    + apply existsb_exists in E3. destruct E3 as (p & Hp & E). exists p. split; [exact Hp|lia].
  - intros k Hk. pose proof (all_k_ok _ _ H3 k Hk) as E. rewrite !andb_true_iff in E. lia.
Qed.
Definition resolvedb (points : list (list Z)) dim atol atol0 eps : bool :=
  (0 <? eps) && forallb (fun p => forallb (fun q =>
    all_k dim (fun k => (nth k p 0 =? nth k q 0) ||
      (100000 * Z.max atol atol0 + Z.abs (nth k q 0) <? 100000 * Z.abs (nth k p 0 - nth k q 0))) &&
    (leqb p q || (eps ^ 2 <=? fold_right Z.add 0 (map (fun k => (nth k p 0 - nth k q 0) ^ 2) (seq 0 dim))))) points) points.
Lemma resolvedb_ok points dim atol atol0 eps : resolvedb points dim atol atol0 eps = true -> resolved points dim atol atol0 eps.
Proof.
  unfold resolvedb. rewrite andb_true_iff. intros [H1 H2]. split; [lia|].
  assert (X : forall p q, In p points -> In q points -> _) by
    (intros p q Hp Hq; exact (proj1 (forallb_forall _ _) (proj1 (forallb_forall _ _) H2 p Hp) q Hq)).
  cbn beta in X. split.
  - intros p q k Hp Hq Hk Hne. specialize (X p q Hp Hq). apply andb_true_iff in X. destruct X as [X _].
    pose proof (all_k_ok _ _ X k Hk) as Y. cbn beta in Y. lia.
  - intros p q Hp Hq Hne. specialize (X p q Hp Hq). apply andb_true_iff in X. destruct X as [_ X].
    apply orb_true_iff in X. destruct X as [X|X]; [apply leqb_eq in X; congruence|]. apply Z.leb_le, X.
Qed.
Definition periodic_meshb (points : list (list Z)) dim (lo hi : nat -> Z) : bool :=
  forallb (fun p => all_k dim (fun k => (negb (nth k p 0 =? lo k) || memb (upd p k (hi k)) points) &&
                                        (negb (nth k p 0 =? hi k) || memb (upd p k (lo k)) points))) points.
Lemma periodic_meshb_ok points dim lo hi : periodic_meshb points dim lo hi = true -> periodic_mesh points dim lo hi.
Proof.
  unfold periodic_meshb. intros H p k Hp Hk. pose proof (all_k_ok _ _ (proj1 (forallb_forall _ _) H p Hp) k Hk) as E.
  cbn beta in E. apply andb_true_iff in E. destruct E as [E1 E2]. split; intros Eq; rewrite Eq, Z.eqb_refl in *; cbn in *.
  - apply memb_in, E1.
  - apply memb_in, E2.
Qed.

(** The points of a grid with the given coordinates, in units of 1e-8 (so [atol = 1e-6],
    [atol0 = 1e-8] and [EPS = 1e-5] are 100, 1 and 1000). *)
Definition u8 : Z := 100000000.
Definition grid2 (xs ys : list Z) : list (list Z) := flat_map (fun x => map (fun y => [u8 * x; u8 * y]) ys) xs.
Definition grid3 (xs ys zs : list Z) : list (list Z) :=
  flat_map (fun x => flat_map (fun y => map (fun z => [u8 * x; u8 * y; u8 * z]) zs) ys) xs.

(** A 4x3 grid on the box [2, 5] x [-1, 1]; two components. *)
Definition ex2 : list (list Z) := grid2 [2; 3; 4; 5] [-1; 0; 1].
Definition ex2_lo (k : nat) : Z := match k with O => u8 * 2 | _ => u8 * -1 end.
Definition ex2_hi (k : nat) : Z := match k with O => u8 * 5 | _ => u8 * 1 end.
Example C61_example_2D :
  cell_mesh ex2 2 ex2_lo ex2_hi /\ resolved ex2 2 100 1 1000 /\ periodic_mesh ex2 2 ex2_lo ex2_hi /\
  match cell_prolongation ex2 2 1000 2 (periodic_bc_2D ex2 2 100 1 2) with
  | Some P => pm_rows P = 24%nat /\ pm_cols P = 12%nat | None => False end.
Proof.
  split; [apply cell_meshb_ok; vm_compute; reflexivity|].
  split; [apply resolvedb_ok; vm_compute; reflexivity|].
  split; [apply periodic_meshb_ok; vm_compute; reflexivity|]. vm_compute. auto.
Qed.
(** A 3x3x4 grid on the box [0, 2] x [0, 2] x [0, 3]. *)
Definition ex3 : list (list Z) := grid3 [0; 1; 2] [0; 1; 2] [0; 1; 2; 3].
Definition ex3_lo (k : nat) : Z := 0.
Definition ex3_hi (k : nat) : Z := match k with 2%nat => u8 * 3 | _ => u8 * 2 end.
Example C61_example_3D :
  cell_mesh ex3 3 ex3_lo ex3_hi /\ resolved ex3 3 100 1 1000 /\ periodic_mesh ex3 3 ex3_lo ex3_hi /\
  match cell_prolongation ex3 3 1000 1 (periodic_bc_3D ex3 3 100 1 1) with
  | Some P => pm_rows P = 36%nat /\ pm_cols P = 12%nat | None => False end.
Proof.
  split; [apply cell_meshb_ok; vm_compute; reflexivity|].
  split; [apply resolvedb_ok; vm_compute; reflexivity|].
  split; [apply periodic_meshb_ok; vm_compute; reflexivity|]. vm_compute. auto.
Qed.

(** In three dimensions the restriction to a box that starts at the origin is needed: faces and
    edges are searched at the coordinates 0 and [L].  On the box [-3, 3]^3 with four nodes per
    axis no node lies there, the construction succeeds without a word and only the corners are
    tied, so some field spanned by the matrix is not periodic. *)
Definition exs : list (list Z) := grid3 [-3; -1; 1; 3] [-3; -1; 1; 3] [-3; -1; 1; 3].
Definition exs_lo (k : nat) : Z := u8 * -3.
Definition exs_hi (k : nat) : Z := u8 * 3.
Theorem C61_3D_shifted_refuted : exists points lo hi P (x : Z -> Z),
  cell_mesh points 3 lo hi /\ resolved points 3 100 1 1000 /\ periodic_mesh points 3 lo hi /\
  cell_prolongation points 3 1000 1 (periodic_bc_3D points 3 100 1 1) = Some P /\
  ~ periodic_field points 3 lo hi 1 (prolong P x).
Proof.
  assert (E : exists P, cell_prolongation exs 3 1000 1 (periodic_bc_3D exs 3 100 1 1) = Some P /\
                        nth 1 (pm_col P) 0 <> nth 49 (pm_col P) 0).
  { eexists. split; [vm_compute; reflexivity|]. vm_compute. discriminate. }
  destruct E as (P & E & D).
  exists exs, exs_lo, exs_hi, P, (fun z => z).
  split; [apply cell_meshb_ok; vm_compute; reflexivity|].
  split; [apply resolvedb_ok; vm_compute; reflexivity|].
  split; [apply periodic_meshb_ok; vm_compute; reflexivity|].
  split; [exact E|]. intros H. apply D.
  apply (H 1%nat 49%nat 0%nat); [vm_compute; lia|vm_compute; lia|lia|].
  intros k Hk. destruct k as [|[|[|k]]]; [right; left|left|left|lia]; vm_compute; auto.
Qed.
Print Assumptions C61_3D_shifted_refuted.

(** The translation between two sides is the difference of their centroids, not the period: a
    box with one node at different heights on its left and right sides is accepted, and the two
    nodes, which are no periodic images of each other, are tied. *)
Definition exh : list (list Z) := [[0; 0]; [u8 * 4; 0]; [0; u8 * 4]; [u8 * 4; u8 * 4]; [0; u8]; [u8 * 4; u8 * 3]].
Definition exh_lo (k : nat) : Z := 0.
Definition exh_hi (k : nat) : Z := u8 * 4.
Theorem C61_2D_mismatched_sides_refuted : exists points lo hi P i j,
  cell_mesh points 2 lo hi /\ resolved points 2 100 1 1000 /\ ~ periodic_mesh points 2 lo hi /\
  cell_prolongation points 2 1000 1 (periodic_bc_2D points 2 100 1 1) = Some P /\
  (i < length points)%nat /\ (j < length points)%nat /\
  ~ periodic_images 2 lo hi (nth i points []) (nth j points []) /\
  forall (A : Type) (x : Z -> A), prolong P x i = prolong P x j.
Proof.
  exists exh, exh_lo, exh_hi, {| pm_rows := 6; pm_cols := 2; pm_col := [0; 0; 0; 0; 1; 1] |}, 4%nat, 5%nat.
  split; [apply cell_meshb_ok; vm_compute; reflexivity|].
  split; [apply resolvedb_ok; vm_compute; reflexivity|].
  split.
  { intros H. destruct (H [0; u8] 0%nat) as [H1 _]; [cbn; auto 10|lia|]. specialize (H1 eq_refl).
    apply memb_in in H1. vm_compute in H1. discriminate. }
  split; [vm_compute; reflexivity|]. split; [vm_compute; lia|]. split; [vm_compute; lia|]. split.
  - intros H. specialize (H 1%nat ltac:(lia)). vm_compute in H. destruct H as [H|[[H _]|[H _]]]; discriminate.
  - reflexivity.
Qed.
Print Assumptions C61_2D_mismatched_sides_refuted.
