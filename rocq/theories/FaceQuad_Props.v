(** C107: surface integrals act on the nodes of the selected face. *)
From Coq Require Import Reals Lra String List Arith ZArith Lia.
From Verif Require Import Base Basis_Model Basis_Spec FaceQuad_Model.
Import ListNotations.
Local Open Scope string_scope.
Local Open Scope list_scope.
Local Open Scope R_scope.

(** ** Specification *)
Definition lagrange_types : list string := ["HEX8"; "TET4"; "TET10"; "QUAD4"; "QUAD9"; "TRI3"; "TRI6"].
Definition face_count (e : string) : nat :=
  (if (e =? "HEX8")%string then 6 else if one_of e ["TET4"; "TET10"] then 4 else if one_of e ["QUAD4"; "QUAD9"] then 4 else 3)%nat.
(** The corners whose barycentre mesh node [a] is; it lies on a face when they all do. *)
Definition corners_of (e : string) (a : nat) : list nat :=
  if (a <? length (meshio_vertices e))%nat then [a] else nth (a - length (meshio_vertices e)) (meshio_extra e) [].
Definition on_face (e : string) (face : list nat) (a : nat) : Prop := forall v, In v (corners_of e a) -> In v face.
(** Position of mesh node [a] in the reference cell. *)
Definition node_at (e : string) (a : nat) : rpoint := pscale (/ 4) (rp (nth a (meshio_layout e) (0, 0, 0)%Z)).
Fixpoint total (n : nat) (f : nat -> R) : R := match n with O => 0 | S m => total m f + f m end.

(** ** Contract check: the bases are the nodal ones. *)
Ltac types H := unfold lagrange_types in H; simpl In in H; repeat (destruct H as [<-|H]; [|]); [..|contradiction].

(** Case split on [k] as long as it is in range. *)
Ltac each k tac := first [exfalso; lia | destruct k as [|k]; [tac|each k tac]].

Lemma basis_nodal e k j : In e lagrange_types -> (k < node_count e)%nat -> (j < node_count e)%nat ->
  nth k (basis e (pscale (/ 4) (rp (nth j (basix_layout e) (0, 0, 0)%Z)))) 0 = if Nat.eqb k j then 1 else 0.
Proof.
  intros H Hk Hj. types H; cbn in Hk, Hj;
    each k ltac:(each j ltac:(cbn -[IZR]; unfold lag1, lag2, px, py, pz; cbn -[IZR]; field)).
Qed.

(** ** Theorems *)
Ltac solve_off := let H := fresh in intro H; first [ring | exfalso; apply H; intros ? ?; simpl in *; tauto].
Ltac compute_face := cbn -[IZR]; unfold lag1, lag2, px, py, pz; cbn -[IZR].

Definition face_facts (e : string) (f : nat) (face : list nat) (s t : R) (v : list R) : Prop :=
  length v = node_count e /\
  (forall a, (a < node_count e)%nat -> ~ on_face e face a -> nth a v 0 = 0) /\
  total (node_count e) (fun a => nth a v 0) = 1 /\
  total (node_count e) (fun a => nth a v 0 * px (node_at e a)) = px (mapped e f s t) /\
  total (node_count e) (fun a => nth a v 0 * py (node_at e a)) = py (mapped e f s t) /\
  total (node_count e) (fun a => nth a v 0 * pz (node_at e a)) = pz (mapped e f s t).

(** At every point of a face, in mesh numbering: the shape functions of nodes off the face vanish,
    the others add up to one and reproduce the point. The face is the one whose corners
    the boundary selection tests. *)
Theorem C107_support : forall e f, In e lagrange_types -> (f < face_count e)%nat ->
  exists face, face_inds e f = Some face /\
  forall s t, exists v, face_shape_vals e f s t = Some v /\ face_facts e f face s t v.
Proof.
  intros e f H Hf. types H; cbn in Hf;
    each f ltac:(eexists; split; [vm_compute; reflexivity|]; intros s t; eexists; split; [cbv -[IZR Rplus Rminus Rmult Ropp Rinv Rdiv]; reflexivity|];
      split; [reflexivity|]; split;
      [intros a Ha; cbn in Ha; each a ltac:(intro H; cbn [nth]; first [ring | exfalso; apply H; unfold on_face; cbn -[In]; intros x Hx; simpl in Hx |- *; tauto])
      |cbn [total node_count String.eqb Ascii.eqb Bool.eqb nth]; repeat split; cbv -[IZR Rplus Rminus Rmult Ropp Rinv Rdiv]; field]).
Qed.
Print Assumptions C107_support.

(** For the first-degree types the face's own basis is reproduced corner by corner. *)
Theorem C107_linear : forall e f, In e ["HEX8"; "TET4"; "QUAD4"; "TRI3"] -> (f < face_count e)%nat ->
  exists face, face_inds e f = Some face /\
  forall s t, exists v, face_shape_vals e f s t = Some v /\
    length face = length (facet_basis e s t) /\
    forall j, (j < length face)%nat -> nth (nth j face 0%nat) v 0 = nth j (facet_basis e s t) 0.
Proof.
  intros e f H Hf. simpl In in H. repeat (destruct H as [<-|H]; [|]); [..|contradiction]; cbn in Hf;
    each f ltac:(eexists; split; [vm_compute; reflexivity|]; intros s t; eexists; split; [cbv -[IZR Rplus Rminus Rmult Ropp Rinv Rdiv]; reflexivity|];
      split; [reflexivity|]; intros j Hj; cbn in Hj; each j ltac:(cbv -[IZR Rplus Rminus Rmult Ropp Rinv Rdiv]; ring)).
Qed.
Print Assumptions C107_linear.

Lemma total_ext n f g : (forall a, (a < n)%nat -> f a = g a) -> total n f = total n g.
Proof. induction n; simpl; intro H; [reflexivity|]. rewrite IHn by (intros; apply H; lia). rewrite H by lia. reflexivity. Qed.
Lemma total_plus n f g : total n (fun a => f a + g a) = total n f + total n g.
Proof. induction n; simpl; [ring|]. rewrite IHn. ring. Qed.
Lemma total_scale n c f : total n (fun a => f a * c) = total n f * c.
Proof. induction n; simpl; [ring|]. rewrite IHn. ring. Qed.
Lemma total_zero n : total n (fun _ => 0) = 0.
Proof. induction n; simpl; [reflexivity|]. rewrite IHn. ring. Qed.

(** The resultant and the moments of a surface load, by any quadrature rule and for any node
    coordinates [X] (one component): the load acts on nodes of the face only, its nodal values add up
    to the integral of the traction, and their moment is the moment of the traction about the
    physical quadrature points. *)
Definition integral (qs : list qpt) (g : R -> R -> R) : R :=
  fold_right (fun q acc => let '(s, t, w, tr) := q in g s t * tr * w + acc) 0 qs.
(** fe.py:241-265 [get_physical_surface_quad_points], one component. *)
Definition physical (e : string) (f : nat) (X : nat -> R) (s t : R) : R :=
  match face_shape_vals e f s t with Some v => total (node_count e) (fun a => nth a v 0 * X a) | None => 0 end.
Theorem C107_loads : forall e f, In e lagrange_types -> (f < face_count e)%nat ->
  exists face, face_inds e f = Some face /\ forall (qs : list qpt) (X : nat -> R),
    (forall a, (a < node_count e)%nat -> ~ on_face e face a -> nodal_load e f qs a = 0) /\
    total (node_count e) (nodal_load e f qs) = integral qs (fun _ _ => 1) /\
    total (node_count e) (fun a => nodal_load e f qs a * X a) = integral qs (physical e f X).
Proof.
  intros e f H Hf. destruct (C107_support e f H Hf) as (face & FI & S). exists face. split; [exact FI|]. intros qs X.
  induction qs as [|[[[s t] w] tr] qs (I1 & I2 & I3)].
  - split; [reflexivity|]. split; [apply total_zero|]. cbn [nodal_load fold_right integral].
    rewrite (total_ext _ _ (fun _ => 0)) by (intros; ring). apply total_zero.
  - destruct (S s t) as (v & FV & _ & OFF & ONE & _).
    assert (NL : forall a, nodal_load e f ((s, t, w, tr) :: qs) a = nth a v 0 * (tr * w) + nodal_load e f qs a).
    { intro a. unfold nodal_load at 1. cbn [fold_right]. rewrite FV. fold (nodal_load e f qs a). ring. }
    split; [|split].
    + intros a Ha N. rewrite NL, (OFF a Ha N), (I1 a Ha N). ring.
    + rewrite (total_ext _ _ _ (fun a _ => NL a)), total_plus, total_scale, ONE, I2. unfold integral. cbn [fold_right]. ring.
    + rewrite (total_ext _ _ (fun a => nth a v 0 * X a * (tr * w) + nodal_load e f qs a * X a)) by (intros a _; rewrite NL; ring).
      rewrite total_plus, total_scale, I3. unfold integral at 2. cbn [fold_right]. unfold physical at 2. rewrite FV. unfold integral. ring.
Qed.
Print Assumptions C107_loads.

(** The top face of a hexahedron: nodes 4 to 7 in mesh numbering, a quarter of a uniform load each. *)
Example C107_example : face_inds "HEX8" 5 = Some [4; 5; 7; 6]%nat /\ ~ on_face "HEX8" [4; 5; 7; 6]%nat 2 /\
  on_face "TET10" [1; 2; 3]%nat 5 /\
  forall a, nodal_load "HEX8" 5 [(1 / 2, 1 / 2, 1, 8)] a = if (4 <=? a)%nat && (a <=? 7)%nat then 2 else 0.
Proof.
  split; [reflexivity|]. split; [intro H; specialize (H 2%nat (or_introl eq_refl)); simpl in H; intuition discriminate|].
  split; [intros v Hv; simpl in *; tauto|].
  intro a. do 8 (destruct a as [|a]; [cbv -[IZR Rplus Rminus Rmult Ropp Rinv Rdiv]; field|]).
  replace (((4 <=? S (S (S (S (S (S (S (S a))))))))%nat && (S (S (S (S (S (S (S (S a))))))) <=? 7)%nat)%bool) with false.
  - unfold nodal_load. cbn [fold_right]. destruct (face_shape_vals "HEX8" 5 (1 / 2) (1 / 2)) as [v|] eqn:E; [|ring].
    destruct (C107_support "HEX8" 5 (or_introl eq_refl) ltac:(cbn; lia)) as (face & _ & S). destruct (S (1 / 2) (1 / 2)) as (v' & FV & L & _).
    rewrite E in FV. injection FV as <-. rewrite nth_overflow by (rewrite L; cbn; lia). ring.
  - symmetry. apply Bool.andb_false_intro2. apply Nat.leb_gt. lia.
Qed.
