(** C76: transfer of a nodal field to new points; [interpolate_field] (feax/gene/adaptive.py). *)
From Coq Require Import Reals List Arith Bool Lia Lra Psatz.
From Verif Require Import Tmc_Model Tmc_Props Adaptive_Model.
Import ListNotations.
Open Scope R_scope.

(** ** Specification *)
(** An affine function of position, and the requirement that [values] sample it at the nodes. *)
Definition affine (b : R) (a : nat -> R) (p : pt) : R := b + rs 3 (fun j => a j * co p j).
Definition samples (points : list pt) (values : list R) (f : pt -> R) : Prop :=
  forall n, (n < length points)%nat -> nth n values 0 = f (nth n points []).
Definition valid_mesh (points : list pt) (cells : list (list nat)) : Prop :=
  forall e k, (e < length cells)%nat -> (k < 4)%nat -> (nth k (nth e cells []) 0 < length points)%nat.
(** Squared distances, and what the two trees promise at a query point. *)
Definition dist2 (p q : nat -> R) : R := rs 3 (fun j => (p j - q j) * (p j - q j)).
Definition centroid4 (points : list pt) (cells : list (list nat)) (e j : nat) : R := rs 4 (fun k => co (vert points cells e k) j) / 4.
Definition k_nearest (points : list pt) (cells : list (list nat)) (p : pt) (l : list nat) : Prop :=
  length l = Nat.min 8 (length cells) /\ NoDup l /\ (forall e, In e l -> (e < length cells)%nat) /\
  forall e e', In e l -> (e' < length cells)%nat -> ~ In e' l -> dist2 (co p) (centroid4 points cells e) <= dist2 (co p) (centroid4 points cells e').
Definition nearest_node (points : list pt) (p : pt) (n : nat) : Prop :=
  (n < length points)%nat /\ forall n', (n' < length points)%nat -> dist2 (co p) (co (nth n points [])) <= dist2 (co p) (co (nth n' points [])).

(** ** Linear algebra *)
Lemma inv3_right A i k : det3 A <> 0 -> (i < 3)%nat -> (k < 3)%nat -> rs 3 (fun j => A i j * inv3 A j k) = if Nat.eqb i k then 1 else 0.
Proof.
  intros D Hi Hk. destruct i as [|[|[|i]]]; try lia; destruct k as [|[|[|k]]]; try lia; unfold inv3; cbn -[det3]; unfold det3 in *; field; exact D.
Qed.
Lemma inv3_left A i k : det3 A <> 0 -> (i < 3)%nat -> (k < 3)%nat -> rs 3 (fun j => inv3 A i j * A j k) = if Nat.eqb i k then 1 else 0.
Proof.
  intros D Hi Hk. destruct i as [|[|[|i]]]; try lia; destruct k as [|[|[|k]]]; try lia; unfold inv3; cbn -[det3]; unfold det3 in *; field; exact D.
Qed.
Lemma bary points cells e p c : det3 (Tmat points cells e) <> 0 -> (c < 3)%nat ->
  rs 3 (fun i => Tmat points cells e c i * lam points cells e p i) = co p c - co (vert points cells e 0) c.
Proof.
  intros D Hc. unfold lam.
  rewrite (rs_ext 3 _ (fun i => rs 3 (fun j => Tmat points cells e c i * inv3 (Tmat points cells e) i j * (co p j - co (vert points cells e 0) j)))).
  2:{ intros i Hi. rewrite <- rs_scale. apply rs_ext. intros j Hj. ring. }
  rewrite rs_swap.
  rewrite (rs_ext 3 _ (fun j => (if Nat.eqb j c then 1 else 0) * (co p j - co (vert points cells e 0) j))).
  2:{ intros j Hj. rewrite rs_scale_r, inv3_right by assumption. rewrite (Nat.eqb_sym c j). reflexivity. }
  apply (rs_delta 3 c (fun j => co p j - co (vert points cells e 0) j) Hc).
Qed.

(** ** The candidate loop *)
Definition pass1 points cells values (cands : pt -> list nat) (s : pt * option R) (k : nat) : pt * option R :=
  match snd s with
  | Some _ => s
  | None => let e := nth k (cands (fst s)) 0%nat in
            (fst s, if inside points cells e (fst s) then Some (combine4 points cells values e (fst s)) else None)
  end.
Lemma loop_map points cells values cands ks : forall st,
  fold_left (fun st k => pass points cells values cands k st) ks st = map (fun s => fold_left (pass1 points cells values cands) ks s) st.
Proof.
  induction ks as [|k ks IH]; intros st; cbn [fold_left]; [rewrite map_id; reflexivity|]. rewrite IH. unfold pass. rewrite map_map. reflexivity.
Qed.
Lemma loop_some points cells values cands ks p v : fold_left (pass1 points cells values cands) ks (p, Some v) = (p, Some v).
Proof. induction ks as [|k ks IH]; [reflexivity|]. cbn [fold_left]. unfold pass1 at 2. cbn [snd]. exact IH. Qed.
Lemma loop_cases points cells values cands ks p : exists o, fold_left (pass1 points cells values cands) ks (p, None) = (p, o) /\
  match o with
  | Some v => exists k, In k ks /\ inside points cells (nth k (cands p) 0%nat) p = true /\ v = combine4 points cells values (nth k (cands p) 0%nat) p
  | None => forall k, In k ks -> inside points cells (nth k (cands p) 0%nat) p = false
  end.
Proof.
  induction ks as [|k ks IH]; [exists None; split; [reflexivity|intros k []]|]. cbn [fold_left]. unfold pass1 at 2. cbn [snd fst].
  destruct (inside points cells (nth k (cands p) 0%nat) p) eqn:E.
  - rewrite loop_some. exists (Some (combine4 points cells values (nth k (cands p) 0%nat) p)). split; [reflexivity|]. exists k. cbn. auto.
  - destruct IH as (o & Eo & C). exists o. split; [exact Eo|]. destruct o as [v|].
    + destruct C as (k' & Hk & C). exists k'. split; [right; exact Hk|exact C].
    + intros k' [<-|Hk]; auto.
Qed.
(** Every output is the clipped barycentric value in a candidate containing the point, or, if no candidate
    contains it, the clipped value at the nearest node. *)
Lemma interp_cases points cells values cands near new clip out :
  interpolate_field points cells values cands near new clip = Some out ->
  length out = length new /\
  (forall e, (e < length cells)%nat -> det3 (Tmat points cells e) <> 0) /\
  forall i, (i < length new)%nat -> let p := nth i new [] in exists raw, nth i out 0 = clipR clip raw /\
    ((exists k, (k < n_candidates cells)%nat /\ inside points cells (nth k (cands p) 0%nat) p = true /\ raw = combine4 points cells values (nth k (cands p) 0%nat) p) \/
     ((forall k, (k < n_candidates cells)%nat -> inside points cells (nth k (cands p) 0%nat) p = false) /\ raw = nth (near p) values 0)).
Proof.
  unfold interpolate_field. destruct (negb _); [discriminate|]. destruct (existsb _ _) eqn:Es; [discriminate|]. intros [= <-].
  rewrite loop_map, !map_map. split; [now rewrite map_length|]. split.
  - intros e He Z. assert (existsb (fun e => singular (Tmat points cells e)) (seq 0 (length cells)) = true); [|congruence].
    apply existsb_exists. exists e. split; [apply in_seq; lia|]. unfold singular. destruct (Req_EM_T _ 0); [reflexivity|contradiction].
  - intros i Hi. cbv zeta.
    set (F := fun x : pt => clipR clip (fallback values near (fold_left (pass1 points cells values cands) (seq 0 (n_candidates cells)) (x, None)))).
    change (nth i _ 0) with (nth i (map F new) 0). rewrite (nth_indep _ 0 (F [])) by (rewrite map_length; exact Hi). rewrite (map_nth F new [] i).
    set (p := nth i new []). unfold F. destruct (loop_cases points cells values cands (seq 0 (n_candidates cells)) p) as (o & -> & C).
    unfold fallback. cbn [snd fst]. destruct o as [v|].
    + exists v. split; [reflexivity|]. left. destruct C as (k & Hk & C). exists k. split; [apply in_seq in Hk; lia|exact C].
    + exists (nth (near p) values 0). split; [reflexivity|]. right. split; [|reflexivity]. intros k Hk. apply C, in_seq. lia.
Qed.
Definition in_range (cells : list (list nat)) (cands : pt -> list nat) (p : pt) : Prop :=
  forall k, (k < n_candidates cells)%nat -> (nth k (cands p) 0 < length cells)%nat.
Lemma nearest_in_range points cells cands p : k_nearest points cells p (cands p) -> in_range cells cands p.
Proof. intros (L & _ & R & _) k Hk. apply R, nth_In. rewrite L. exact Hk. Qed.

Lemma combine_affine points cells values b a e p : valid_mesh points cells -> samples points values (affine b a) -> (e < length cells)%nat ->
  det3 (Tmat points cells e) <> 0 -> combine4 points cells values e p = affine b a p.
Proof.
  intros V S He D. unfold combine4, lam0.
  assert (Sv : forall k, (k < 4)%nat -> nth (nth k (cell_of cells e) 0%nat) values 0 = affine b a (vert points cells e k)).
  { intros k Hk. unfold vert, cell_of. apply S, V; assumption. }
  rewrite !Sv by lia.
  transitivity (affine b a (vert points cells e 0) + rs 3 (fun c => a c * rs 3 (fun i => Tmat points cells e c i * lam points cells e p i))).
  - unfold affine, Tmat. cbn [rs]. ring.
  - rewrite (rs_ext 3 _ (fun c => a c * (co p c - co (vert points cells e 0) c))) by (intros c Hc; rewrite bary by assumption; reflexivity).
    unfold affine. cbn [rs]. ring.
Qed.

(** Affine fields are transferred exactly to every point that one of its candidates contains. *)
Theorem C76_affine points cells values b a cands near new clip out i :
  interpolate_field points cells values cands near new clip = Some out ->
  valid_mesh points cells -> samples points values (affine b a) -> (i < length new)%nat -> in_range cells cands (nth i new []) ->
  (exists k, (k < n_candidates cells)%nat /\ inside points cells (nth k (cands (nth i new [])) 0%nat) (nth i new []) = true) ->
  nth i out 0 = clipR clip (affine b a (nth i new [])).
Proof.
  intros E V S Hi Ir (k & Hk & In). destruct (interp_cases _ _ _ _ _ _ _ _ E) as (_ & D & C). destruct (C i Hi) as (raw & -> & [(k' & Hk' & In' & ->)|(N & _)]).
  - f_equal. apply combine_affine; auto.
  - rewrite (N k Hk) in In. discriminate.
Qed.
Print Assumptions C76_affine.
(** On a mesh of at most eight elements every element is a candidate, so this covers every point of the mesh. *)
Theorem C76_small_mesh points cells values b a cands near new clip out i e :
  interpolate_field points cells values cands near new clip = Some out ->
  valid_mesh points cells -> samples points values (affine b a) -> (i < length new)%nat -> k_nearest points cells (nth i new []) (cands (nth i new [])) ->
  (length cells <= 8)%nat -> (e < length cells)%nat -> inside points cells e (nth i new []) = true ->
  nth i out 0 = clipR clip (affine b a (nth i new [])).
Proof.
  intros E V S Hi K L He In. eapply C76_affine; eauto using nearest_in_range.
  destruct K as (Len & ND & Rg & _). set (p := nth i new []) in *.
  assert (M : List.In e (cands p)).
  { assert (I : incl (seq 0 (length cells)) (cands p)).
    { apply NoDup_length_incl; [exact ND|rewrite seq_length, Len; lia|]. intros x Hx. apply in_seq. split; [lia|]. cbn. apply Rg, Hx. }
    apply I, in_seq. lia. }
  apply (In_nth _ _ 0%nat) in M. destruct M as (k & Hk & <-). exists k. split; [unfold n_candidates; lia|exact In].
Qed.
Print Assumptions C76_small_mesh.

(** Up to the containment tolerance no new value leaves the range of the old ones; with [clip] none leaves
    the clipping interval. *)
Theorem C76_bounds points cells values cands near new out lo hi i :
  interpolate_field points cells values cands near new None = Some out ->
  valid_mesh points cells -> length values = length points -> (forall v, In v values -> lo <= v <= hi) ->
  (i < length new)%nat -> in_range cells cands (nth i new []) -> (near (nth i new []) < length points)%nat ->
  lo - 3 * tol * (hi - lo) <= nth i out 0 <= hi + 3 * tol * (hi - lo).
Proof.
  intros E V L B Hi Ir Nr. destruct (interp_cases _ _ _ _ _ _ _ _ E) as (_ & D & C). destruct (C i Hi) as (raw & -> & Q). cbn [clipR].
  assert (T : 0 < tol) by (unfold tol; lra).
  assert (Bn : forall n, (n < length points)%nat -> lo <= nth n values 0 <= hi) by (intros n Hn; apply B, nth_In; lia).
  destruct Q as [(k & Hk & In & ->)|(_ & ->)].
  - set (e := nth k (cands (nth i new [])) 0%nat) in *. set (p := nth i new []) in *.
    assert (He : (e < length cells)%nat) by (apply Ir; exact Hk).
    assert (Bv : forall j, (j < 4)%nat -> lo <= nth (nth j (cell_of cells e) 0%nat) values 0 <= hi) by (intros j Hj; apply Bn, V; assumption).
    unfold combine4. pose proof (Bv 0%nat ltac:(lia)) as B0. pose proof (Bv 1%nat ltac:(lia)) as B1. pose proof (Bv 2%nat ltac:(lia)) as B2. pose proof (Bv 3%nat ltac:(lia)) as B3.
    unfold inside in In. rewrite !andb_true_iff in In. destruct In as (((G0 & G1) & G2) & G3). unfold geb in *.
    destruct (Rle_dec (- tol) (lam0 points cells e p)) as [P0|]; [|discriminate]. destruct (Rle_dec (- tol) (lam points cells e p 0)) as [P1|]; [|discriminate].
    destruct (Rle_dec (- tol) (lam points cells e p 1)) as [P2|]; [|discriminate]. destruct (Rle_dec (- tol) (lam points cells e p 2)) as [P3|]; [|discriminate].
    clear G0 G1 G2 G3. assert (Su : lam0 points cells e p + lam points cells e p 0 + lam points cells e p 1 + lam points cells e p 2 = 1) by (unfold lam0; cbn [rs]; ring).
    revert P0 P1 P2 P3 Su B0 B1 B2 B3. generalize (lam0 points cells e p) (lam points cells e p 0) (lam points cells e p 1) (lam points cells e p 2).
    generalize (nth (nth 0 (cell_of cells e) 0%nat) values 0) (nth (nth 1 (cell_of cells e) 0%nat) values 0) (nth (nth 2 (cell_of cells e) 0%nat) values 0) (nth (nth 3 (cell_of cells e) 0%nat) values 0).
    intros a b c d l0 l1 l2 l3 P0 P1 P2 P3 Su B0 B1 B2 B3.
    (* a weight that is not negative contributes nothing to the excess *)
    assert (W : forall l x r, - tol <= l -> 0 <= x <= r -> - tol * r <= l * x) by (intros l x r Hl Hx; nra).
    assert (Big : tol <= l0 \/ tol <= l1 \/ tol <= l2 \/ tol <= l3) by (unfold tol in *; lra).
    set (r := hi - lo).
    assert (LoW : forall l x, - tol <= l -> lo <= x <= hi -> - tol * r <= l * (x - lo)) by (intros; apply W; unfold r; lra).
    assert (HiW : forall l x, - tol <= l -> lo <= x <= hi -> - tol * r <= l * (hi - x)) by (intros; apply W; unfold r; lra).
    assert (LoP : forall l x, tol <= l -> lo <= x <= hi -> 0 <= l * (x - lo)) by (intros; apply Rmult_le_pos; lra).
    assert (HiP : forall l x, tol <= l -> lo <= x <= hi -> 0 <= l * (hi - x)) by (intros; apply Rmult_le_pos; lra).
    assert (E1 : l0 * a + l1 * b + l2 * c + l3 * d = lo + (l0 * (a - lo) + l1 * (b - lo) + l2 * (c - lo) + l3 * (d - lo))) by nra.
    assert (E2 : l0 * a + l1 * b + l2 * c + l3 * d = hi - (l0 * (hi - a) + l1 * (hi - b) + l2 * (hi - c) + l3 * (hi - d))) by nra.
    pose proof (LoW _ _ P0 B0). pose proof (LoW _ _ P1 B1). pose proof (LoW _ _ P2 B2). pose proof (LoW _ _ P3 B3).
    pose proof (HiW _ _ P0 B0). pose proof (HiW _ _ P1 B1). pose proof (HiW _ _ P2 B2). pose proof (HiW _ _ P3 B3).
    destruct Big as [G|[G|[G|G]]].
    + pose proof (LoP _ _ G B0). pose proof (HiP _ _ G B0). lra.
    + pose proof (LoP _ _ G B1). pose proof (HiP _ _ G B1). lra.
    + pose proof (LoP _ _ G B2). pose proof (HiP _ _ G B2). lra.
    + pose proof (LoP _ _ G B3). pose proof (HiP _ _ G B3). lra.
  - pose proof (Bn _ Nr). nra.
Qed.
Print Assumptions C76_bounds.
Theorem C76_clip points cells values cands near new a b out : a <= b ->
  interpolate_field points cells values cands near new (Some (a, b)) = Some out -> length out = length new /\ Forall (fun v => a <= v <= b) out.
Proof.
  intros Hab E. destruct (interp_cases _ _ _ _ _ _ _ _ E) as (L & _ & C). split; [exact L|]. apply Forall_forall. intros v Hv.
  apply (In_nth _ _ 0) in Hv. destruct Hv as (i & Hi & <-). rewrite L in Hi. destruct (C i Hi) as (raw & -> & _). cbn [clipR].
  split; [apply Rmin_glb; [apply Rmax_r|exact Hab]|apply Rmin_r].
Qed.
Print Assumptions C76_clip.

(** It raises exactly for a mesh that is not TET4 or has a degenerate element, wherever the query points are. *)
Theorem C76_raises points cells values cands near new clip :
  interpolate_field points cells values cands near new clip = None <->
  (exists c, In c cells /\ length c <> 4%nat) \/ (exists e, (e < length cells)%nat /\ det3 (Tmat points cells e) = 0).
Proof.
  unfold interpolate_field. destruct (forallb (fun c => Nat.eqb (length c) 4) cells) eqn:F; cbn [negb].
  - rewrite forallb_forall in F. assert (N : ~ exists c, In c cells /\ length c <> 4%nat).
    { intros (c & Hc & Hl). specialize (F c Hc). apply Nat.eqb_eq in F. contradiction. }
    destruct (existsb _ _) eqn:Es.
    + split; [intros _; right|reflexivity]. apply existsb_exists in Es. destruct Es as (e & He & S). exists e. split; [apply in_seq in He; lia|].
      unfold singular in S. destruct (Req_EM_T _ 0); [assumption|discriminate].
    + split; [discriminate|]. intros [H|(e & He & Z)]; [contradiction|]. exfalso.
      assert (existsb (fun e => singular (Tmat points cells e)) (seq 0 (length cells)) = true); [|congruence].
      apply existsb_exists. exists e. split; [apply in_seq; lia|]. unfold singular. destruct (Req_EM_T _ 0); [reflexivity|contradiction].
  - split; [intros _; left|reflexivity]. clear -F. induction cells as [|c cs IH]; [discriminate|]. cbn in F. apply andb_false_iff in F. destruct F as [F|F].
    + exists c. split; [left; reflexivity|]. now apply Nat.eqb_neq in F.
    + destruct (IH F) as (c' & Hc & Hl). exists c'. split; [right; exact Hc|exact Hl].
Qed.
Print Assumptions C76_raises.

(** Transfer to the mesh's own nodes changes nothing, if elements contain only the nodes they list. *)
Lemma lam_vertex points cells e k i : det3 (Tmat points cells e) <> 0 -> (k < 3)%nat -> (i < 3)%nat ->
  lam points cells e (vert points cells e (S k)) i = if Nat.eqb i k then 1 else 0.
Proof.
  intros D Hk Hi. unfold lam. change (fun j => inv3 (Tmat points cells e) i j * (co (vert points cells e (S k)) j - co (vert points cells e 0) j)) with (fun j => inv3 (Tmat points cells e) i j * Tmat points cells e j k).
  apply inv3_left; assumption.
Qed.
Lemma lam_base points cells e i : lam points cells e (vert points cells e 0) i = 0.
Proof. unfold lam. apply rs_zero. intros j Hj. ring. Qed.
Lemma combine_vertex points cells values e k : det3 (Tmat points cells e) <> 0 -> (k < 4)%nat ->
  combine4 points cells values e (vert points cells e k) = nth (nth k (cell_of cells e) 0%nat) values 0.
Proof.
  intros D Hk. unfold combine4, lam0. destruct k as [|k].
  - cbn [rs]. rewrite !lam_base. ring.
  - cbn [rs]. rewrite !lam_vertex by (assumption || lia). destruct k as [|[|[|k]]]; try lia; cbn; ring.
Qed.
Theorem C76_same_mesh points cells values cands near out :
  interpolate_field points cells values cands near points None = Some out ->
  length values = length points -> (forall p, In p points -> in_range cells cands p /\ nearest_node points p (near p)) ->
  (forall n n', (n < length points)%nat -> (n' < length points)%nat -> dist2 (co (nth n points [])) (co (nth n' points [])) = 0 -> n = n') ->
  (forall e n, (e < length cells)%nat -> (n < length points)%nat -> inside points cells e (nth n points []) = true -> exists k, (k < 4)%nat /\ nth k (nth e cells []) 0%nat = n) ->
  out = values.
Proof.
  intros E L T Dist Conf. destruct (interp_cases _ _ _ _ _ _ _ _ E) as (Lo & D & C).
  apply (nth_ext _ _ 0 0); [lia|]. intros n Hn. rewrite Lo in Hn. destruct (C n Hn) as (raw & -> & Q). cbn [clipR].
  destruct (T (nth n points []) (nth_In _ _ Hn)) as [Ir [Nr1 Nr2]]. destruct Q as [(k & Hk & In & ->)|(_ & ->)].
  - set (e := nth k (cands (nth n points [])) 0%nat) in *. assert (He : (e < length cells)%nat) by (apply Ir; exact Hk).
    destruct (Conf e n He Hn In) as (j & Hj & Ej).
    replace (nth n points []) with (vert points cells e j) by (unfold vert, cell_of; rewrite Ej; reflexivity).
    rewrite combine_vertex by (auto || lia). unfold cell_of. rewrite Ej. reflexivity.
  - f_equal. symmetry. apply Dist; [exact Hn|exact Nr1|]. apply Rle_antisym.
    + eapply Rle_trans; [apply (Nr2 n Hn)|]. apply Req_le. unfold dist2. apply rs_zero. intros j Hj. ring.
    + unfold dist2. apply rs_nonneg. intros j Hj. apply Rle_0_sqr.
Qed.
Print Assumptions C76_same_mesh.

(** ** What fails *)
(** Without [clip] a density in [0, 1] can leave [0, 1] (by the containment tolerance). *)
Definition tet_pts : list pt := [[0; 0; 0]; [1; 0; 0]; [0; 1; 0]; [0; 0; 1]].
Definition tet_cells : list (list nat) := [[0; 1; 2; 3]]%nat.
Lemma tet_lam p i : (i < 3)%nat -> lam tet_pts tet_cells 0 p i = co p i.
Proof. intros Hi. destruct i as [|[|[|i]]]; try lia; unfold lam, inv3, det3, Tmat, vert, cell_of, co; cbn; field. Qed.
Lemma tet_lam0 p : lam0 tet_pts tet_cells 0 p = 1 - co p 0 - co p 1 - co p 2.
Proof. unfold lam0. cbn [rs]. rewrite !tet_lam by lia. ring. Qed.
Lemma tet_det : det3 (Tmat tet_pts tet_cells 0) = 1.
Proof. unfold det3, Tmat, vert, cell_of, co. cbn. ring. Qed.
Lemma geb_true x y : y <= x -> geb x y = true.
Proof. intros H. unfold geb. destruct (Rle_dec y x); [reflexivity|contradiction]. Qed.
Lemma geb_false x y : x < y -> geb x y = false.
Proof. intros H. unfold geb. destruct (Rle_dec y x); [exfalso; lra|reflexivity]. Qed.
Lemma tet_inside p : (forall i, (i < 3)%nat -> - tol <= co p i) -> co p 0 + co p 1 + co p 2 <= 1 + tol -> inside tet_pts tet_cells 0 p = true.
Proof. intros H S. unfold inside. rewrite tet_lam0, !tet_lam by lia. rewrite !geb_true; [reflexivity|apply H; lia|apply H; lia|apply H; lia|lra]. Qed.
Lemma tet_run values near new : interpolate_field tet_pts tet_cells values (fun _ => [0%nat]) near new None =
  Some (map (fun p => if inside tet_pts tet_cells 0 p then combine4 tet_pts tet_cells values 0 p else nth (near p) values 0) new).
Proof.
  unfold interpolate_field. cbn [tet_cells forallb length Nat.eqb andb negb seq existsb n_candidates Nat.min fold_left].
  unfold singular. change [[0%nat; 1%nat; 2%nat; 3%nat]] with tet_cells. rewrite tet_det. destruct (Req_EM_T 1 0); [exfalso; lra|]. cbn [orb].
  f_equal. unfold pass. rewrite !map_map. apply map_ext. intros p. unfold fallback. cbn [snd fst nth]. destruct (inside tet_pts tet_cells 0 p); reflexivity.
Qed.
Theorem C76_overshoot_refuted : exists points cells values cands near new out,
  interpolate_field points cells values cands near new None = Some out /\ valid_mesh points cells /\ samples points values (fun p => 1 - co p 0) /\
  (forall v, In v values -> 0 <= v <= 1) /\ (forall p, In p new -> k_nearest points cells p (cands p) /\ nearest_node points p (near p)) /\
  exists v, In v out /\ 1 < v.
Proof.
  exists tet_pts, tet_cells, [1; 0; 1; 1], (fun _ => [0%nat]), (fun _ => 0%nat), [[- tol / 2; 0; 0]].
  eexists. split; [apply tet_run|]. split.
  { intros e k He Hk. cbn in He. destruct e; [|lia]. destruct k as [|[|[|[|k]]]]; cbn; lia. }
  split. { intros n Hn. cbn in Hn. destruct n as [|[|[|[|n]]]]; try lia; cbn; ring. }
  split. { intros v Hv. cbn in Hv. decompose [or] Hv; subst; try lra; contradiction. }
  split.
  { intros p [<-|[]]. split.
    - split; [reflexivity|]. split; [constructor; [intros []|constructor]|]. split; [intros e [<-|[]]; cbn; lia|].
      intros e e' [<-|[]] He' N. cbn in He'. exfalso. apply N. left. lia.
    - split; [cbn; lia|]. intros n Hn. cbn in Hn. assert (0 < tol < 1 / 2) by (unfold tol; lra). destruct n as [|[|[|[|n]]]]; try lia; unfold dist2, co; cbn; nra. }
  eexists. split; [left; reflexivity|]. assert (Tp : 0 < tol) by (unfold tol; lra). rewrite tet_inside.
  - unfold combine4. rewrite tet_lam0, !tet_lam by lia. unfold co, cell_of. cbn. lra.
  - intros i Hi. destruct i as [|[|[|i]]]; try lia; unfold co; cbn; lra.
  - unfold co; cbn; lra.
Qed.
Print Assumptions C76_overshoot_refuted.

(** Only the eight nearest centroids are tried: a point well inside an element can be missed and then gets the
    value of the nearest node, so affine fields are not transferred exactly. *)
Definition far_base (k : nat) : R := - 2 - 2 * INR k.
Definition far_pts : list pt :=
  flat_map (fun k => [[far_base k; 0; 0]; [far_base k + 1; 0; 0]; [far_base k; 1; 0]; [far_base k; 0; 1]]) (seq 0 8)
  ++ [[0; 0; 0]; [100; 0; 0]; [0; 100; 0]; [0; 0; 100]].
Definition far_cells : list (list nat) := map (fun k => [4 * k; 4 * k + 1; 4 * k + 2; 4 * k + 3])%nat (seq 0 9).
Theorem C76_missed_refuted : exists points cells values cands near new out e,
  interpolate_field points cells values cands near new None = Some out /\ valid_mesh points cells /\ samples points values (fun p => co p 0) /\
  (forall p, In p new -> k_nearest points cells p (cands p) /\ nearest_node points p (near p)) /\
  (e < length cells)%nat /\ 0 < lam0 points cells e (nth 0 new []) /\ (forall i, (i < 3)%nat -> 0 < lam points cells e (nth 0 new []) i) /\
  nth 0 out 0 <> co (nth 0 new []) 0.
Proof.
  set (p := [1; 1; 1] : pt).
  assert (LP : length far_pts = 36%nat) by reflexivity. assert (LC : length far_cells = 9%nat) by reflexivity.
  assert (D : forall e, (e < 9)%nat -> det3 (Tmat far_pts far_cells e) <> 0).
  { intros e He. assert (det3 (Tmat far_pts far_cells e) = 1 \/ det3 (Tmat far_pts far_cells e) = 1000000); [|lra].
    do 9 (destruct e as [|e]; [unfold det3, Tmat, vert, cell_of, co, far_cells, far_pts, far_base; cbn; (left; ring) || (right; ring)|]). lia. }
  assert (Out : forall e, (e < 8)%nat -> inside far_pts far_cells e p = false).
  { intros e He. unfold inside. rewrite (geb_false (lam0 far_pts far_cells e p)); [reflexivity|].
    replace (lam0 far_pts far_cells e p) with (- (4 + 2 * INR e)).
    - pose proof (pos_INR e). unfold tol. lra.
    - do 8 (destruct e as [|e]; [unfold lam0, lam, inv3, det3, Tmat, vert, cell_of, co, far_cells, far_pts, far_base; cbn; field|]). lia. }
  assert (S : interpolate_field far_pts far_cells (map (fun q => co q 0) far_pts) (fun _ => seq 0 8) (fun _ => 32%nat) [p] None = Some [0]).
  { destruct (interpolate_field far_pts far_cells (map (fun q => co q 0) far_pts) (fun _ => seq 0 8) (fun _ => 32%nat) [p] None) as [out|] eqn:E.
    - destruct (interp_cases _ _ _ _ _ _ _ _ E) as (Lo & _ & C). destruct out as [|v [|? ?]]; try discriminate. destruct (C 0%nat ltac:(cbn; lia)) as (raw & Ev & Q).
      cbn [nth clipR] in Ev. subst v. destruct Q as [(k & Hk & In & _)|(_ & ->)]; [|reflexivity].
      unfold n_candidates in Hk. rewrite LC in Hk. cbn in Hk. exfalso. cbn [nth] in In. rewrite seq_nth in In by lia. rewrite (Out (0 + k)%nat) in In by lia. discriminate.
    - exfalso. apply C76_raises in E. destruct E as [(c & Hc & Hl)|(e & He & Z)].
      + unfold far_cells in Hc. apply in_map_iff in Hc. destruct Hc as (k & <- & _). apply Hl. reflexivity.
      + rewrite LC in He. apply (D e He Z). }
  exists far_pts, far_cells, (map (fun q => co q 0) far_pts), (fun _ => seq 0 8), (fun _ => 32%nat), [p], [0], 8%nat.
  split; [exact S|]. split.
  { intros e k He Hk. rewrite LC in He. rewrite LP. unfold far_cells. rewrite (nth_indep _ [] [4 * 0; 4 * 0 + 1; 4 * 0 + 2; 4 * 0 + 3]%nat) by (rewrite map_length, seq_length; exact He).
    rewrite (map_nth (fun k => [4 * k; 4 * k + 1; 4 * k + 2; 4 * k + 3]%nat)), seq_nth by exact He. destruct k as [|[|[|[|k]]]]; cbn [nth]; lia. }
  split. { intros n Hn. change 0 with (co [] 0) at 1. rewrite (map_nth (fun q => co q 0)). reflexivity. }
  split.
  { intros q [<-|[]]. split.
    - split; [reflexivity|]. split; [apply seq_NoDup|]. split; [intros e He; apply in_seq in He; rewrite LC; lia|].
      intros e e' He He' N. rewrite LC in He'. apply in_seq in He. assert (e' = 8%nat) as -> by (destruct (Nat.eq_dec e' 8); [assumption|exfalso; apply N, in_seq; lia]).
      apply Rle_trans with 400.
      + do 8 (destruct e as [|e]; [unfold dist2, centroid4, vert, cell_of, co, far_cells, far_pts, far_base; cbn; lra|]). lia.
      + unfold dist2, centroid4, vert, cell_of, co, far_cells, far_pts, far_base; cbn; lra.
    - split; [rewrite LP; lia|]. intros n Hn. rewrite LP in Hn. apply Rle_trans with 3; [apply Req_le; unfold dist2, co, far_pts, far_base; cbn; ring|].
      do 36 (destruct n as [|n]; [unfold dist2, co, far_pts, far_base; cbn; lra|]). lia. }
  split; [rewrite LC; lia|]. cbn [nth].
  assert (Lm : forall i, (i < 3)%nat -> lam far_pts far_cells 8 p i = / 100).
  { intros i Hi. destruct i as [|[|[|i]]]; try lia; unfold lam, inv3, det3, Tmat, vert, cell_of, co, far_cells, far_pts, far_base; cbn; field. }
  split; [unfold lam0; cbn [rs]; rewrite !Lm by lia; lra|]. split; [intros i Hi; rewrite Lm by exact Hi; lra|].
  unfold co, p. cbn. lra.
Qed.
Print Assumptions C76_missed_refuted.

(** The unit tetrahedron meets the hypotheses of the positive theorems. *)
Example C76_example : interpolate_field tet_pts tet_cells [2; 3; 5; 9] (fun _ => [0%nat]) (fun _ => 1%nat) [[/ 4; / 4; / 4]; [3; 0; 0]] None = Some [19 / 4; 3] /\
  valid_mesh tet_pts tet_cells /\ samples tet_pts [2; 3; 5; 9] (affine 2 (fun j => nth j [1; 3; 7] 0)) /\ in_range tet_cells (fun _ => [0%nat]) [/ 4; / 4; / 4].
Proof.
  assert (Tp : 0 < tol) by (unfold tol; lra). split.
  - rewrite tet_run. cbn [map]. rewrite tet_inside.
    + replace (inside tet_pts tet_cells 0 [3; 0; 0]) with false.
      * f_equal. unfold combine4. rewrite tet_lam0, !tet_lam by lia. unfold co, cell_of. cbn. f_equal. field.
      * symmetry. unfold inside. rewrite tet_lam0, geb_false; [reflexivity|]. unfold co, tol. cbn. lra.
    + intros i Hi. destruct i as [|[|[|i]]]; try lia; unfold co; cbn; lra.
    + unfold co; cbn; lra.
  - split; [|split].
    + intros e k He Hk. cbn in He. destruct e; [|lia]. destruct k as [|[|[|[|k]]]]; cbn; lia.
    + intros n Hn. cbn in Hn. destruct n as [|[|[|[|n]]]]; try lia; unfold affine, co; cbn; ring.
    + intros k Hk. cbn in Hk. destruct k; [cbn; lia|lia].
Qed.
