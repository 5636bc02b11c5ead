(** C107 for the serendipity types, and what their midside coefficients mean. *)
From Coq Require Import Reals Lra String List Arith ZArith Lia.
From Verif Require Import Base Basis_Model Basis_Spec FaceQuad_Model FaceQuad_Props Serendip_Model.
Import ListNotations.
Local Open Scope string_scope.
Local Open Scope list_scope.
Local Open Scope R_scope.

Definition ser_types : list string := ["QUAD8"; "HEX20"].
Definition ser_faces (e : string) : nat := (if (e =? "HEX20")%string then 6 else 4)%nat.
Ltac ser_cases H := unfold ser_types in H; simpl In in H; destruct H as [<-|[<-|[]]].

(** At every point of every face, in mesh numbering, whatever the midside coefficients stand for: shape functions of nodes off the face vanish, the others add up to one and reproduce the point. *)
Theorem C107_serendipity : forall kappa e f, In e ser_types -> (f < ser_faces e)%nat ->
  exists face, face_inds e f = Some face /\
  forall s t, exists v, ser_face_vals kappa e f s t = Some v /\
    length v = node_count e /\
    (forall a, (a < node_count e)%nat -> ~ on_face e face a -> nth a v 0 = 0) /\
    total (node_count e) (fun a => nth a v 0) = 1 /\
    total (node_count e) (fun a => nth a v 0 * px (node_at e a)) = px (ser_mapped e f s t) /\
    total (node_count e) (fun a => nth a v 0 * py (node_at e a)) = py (ser_mapped e f s t) /\
    total (node_count e) (fun a => nth a v 0 * pz (node_at e a)) = pz (ser_mapped e f s t).
Proof.
  intros kappa e f H Hf. ser_cases H; cbn in Hf;
    each f ltac:(eexists; split; [vm_compute; reflexivity|]; intros s t; eexists; split; [cbv -[IZR Rplus Rminus Rmult Ropp Rinv Rdiv]; reflexivity|];
      split; [reflexivity|]; split;
      [intros a Ha; cbn in Ha; each a ltac:(intro H; cbn [nth]; first [field | exfalso; apply H; unfold on_face; cbn -[In]; intros x Hx; simpl in Hx |- *; tauto])
      |cbn [total node_count String.eqb Ascii.eqb Bool.eqb nth]; repeat split; cbv -[IZR Rplus Rminus Rmult Ropp Rinv Rdiv]; field]).
Qed.
Print Assumptions C107_serendipity.

(** Surface loads: on nodes of the face only, with the resultant and the moments of the traction, by any quadrature rule and for any node coordinates. *)
Definition ser_physical (kappa : R) (e : string) (f : nat) (X : nat -> R) (s t : R) : R :=
  match ser_face_vals kappa e f s t with Some v => total (node_count e) (fun a => nth a v 0 * X a) | None => 0 end.
Theorem C107_serendipity_loads : forall kappa e f, In e ser_types -> (f < ser_faces e)%nat ->
  exists face, face_inds e f = Some face /\ forall (qs : list qpt) (X : nat -> R),
    (forall a, (a < node_count e)%nat -> ~ on_face e face a -> ser_nodal_load kappa e f qs a = 0) /\
    total (node_count e) (ser_nodal_load kappa e f qs) = integral qs (fun _ _ => 1) /\
    total (node_count e) (fun a => ser_nodal_load kappa e f qs a * X a) = integral qs (ser_physical kappa e f X).
Proof.
  intros kappa e f H Hf. destruct (C107_serendipity kappa e f H Hf) as (face & FI & S). exists face. split; [exact FI|]. intros qs X.
  induction qs as [|[[[s t] w] tr] qs (I1 & I2 & I3)].
  - split; [reflexivity|]. split; [apply total_zero|]. cbn [ser_nodal_load fold_right integral].
    rewrite (total_ext _ _ (fun _ => 0)) by (intros; ring). apply total_zero.
  - destruct (S s t) as (v & FV & _ & OFF & ONE & _).
    assert (NL : forall a, ser_nodal_load kappa e f ((s, t, w, tr) :: qs) a = nth a v 0 * (tr * w) + ser_nodal_load kappa e f qs a).
    { intro a. unfold ser_nodal_load at 1. cbn [fold_right]. rewrite FV. fold (ser_nodal_load kappa e f qs a). ring. }
    split; [|split].
    + intros a Ha N. rewrite NL, (OFF a Ha N), (I1 a Ha N). ring.
    + rewrite (total_ext _ _ _ (fun a _ => NL a)), total_plus, total_scale, ONE, I2. unfold integral. cbn [fold_right]. ring.
    + rewrite (total_ext _ _ (fun a => nth a v 0 * X a * (tr * w) + ser_nodal_load kappa e f qs a * X a)) by (intros a _; rewrite NL; ring).
      rewrite total_plus, total_scale, I3. unfold integral at 2. cbn [fold_right]. unfold ser_physical at 2. rewrite FV. unfold integral. ring.
Qed.
Print Assumptions C107_serendipity_loads.

(** The field with coefficients [u] at a point of the cell. *)
Definition ser_field (kappa : R) (e : string) (u : nat -> R) (p : rpoint) : R :=
  match ser_shape kappa e p with Some v => total (node_count e) (fun a => nth a v 0 * u a) | None => 0 end.
(** The two corners at the ends of the edge of midside node [a]. *)
Definition ends (e : string) (a : nat) : nat * nat := (nth 0 (corners_of e a) 0%nat, nth 1 (corners_of e a) 0%nat).

(** What the coefficients mean: a corner's is the value there; a midside node's is the value there exactly under the first convention. With edge means
    (the mean of a parabola is the sum of a sixth of its end values and two thirds of the middle one) it is the mean over the edge, and the value at the midside node is another one
    unless the field is linear along the edge. So boundary values prescribed at midside nodes, and results read there, are those of the user exactly if [kappa] = 1. *)
Theorem C107_midside : forall kappa e u a, In e ser_types -> (a < node_count e)%nat ->
  let '(b, c) := ends e a in
  let mid := ser_field kappa e u (node_at e a) in
  if (a <? length (meshio_vertices e))%nat then mid = u a
  else ser_field kappa e u (node_at e b) = u b /\ ser_field kappa e u (node_at e c) = u c /\
       mid = kappa * u a + (1 - kappa) * (u b + u c) / 2 /\
       (kappa = 1 -> mid = u a) /\
       (kappa = 3 / 2 -> (u b + 4 * mid + u c) / 6 = u a /\ (mid = u a <-> u a = (u b + u c) / 2)).
Proof.
  intros kappa e u a H Ha.
  assert (G : (a < length (meshio_vertices e))%nat -> ser_field kappa e u (node_at e a) = u a).
  { clear Ha. intros Ha. ser_cases H; cbn in Ha; each a ltac:(cbv -[IZR Rplus Rminus Rmult Ropp Rinv Rdiv]; field). }
  assert (M : (length (meshio_vertices e) <= a)%nat -> ser_field kappa e u (node_at e a) = kappa * u a + (1 - kappa) * (u (fst (ends e a)) + u (snd (ends e a))) / 2).
  { intros L. clear G. ser_cases H; cbn in Ha; each a ltac:(first [exfalso; cbn in L; lia | cbv -[IZR Rplus Rminus Rmult Ropp Rinv Rdiv]; field]). }
  assert (C : (length (meshio_vertices e) <= a)%nat -> forall b, b = fst (ends e a) \/ b = snd (ends e a) -> ser_field kappa e u (node_at e b) = u b).
  { intros L. clear G M. ser_cases H; cbn in Ha; each a ltac:(first [exfalso; cbn in L; lia | intros b [-> | ->]; cbv -[IZR Rplus Rminus Rmult Ropp Rinv Rdiv]; field]). }
  destruct (ends e a) as [b c] eqn:E. cbv zeta. destruct (Nat.ltb_spec a (length (meshio_vertices e))) as [L|L]; [exact (G L)|]. specialize (M L). cbn [fst snd] in M, C.
  split; [apply (C L); left; reflexivity|]. split; [apply (C L); right; reflexivity|]. split; [exact M|]. rewrite M. split; [intros ->; field|]. intros ->. split; [field|]. split; intros; lra.
Qed.
Print Assumptions C107_midside.

(** A traction of eight on the right side of a square, one quadrature point: the loads of its two corners and its midside node (number 5) under the two conventions. *)
Example C107_serendipity_example :
  face_inds "QUAD8" 2 = Some [1; 2]%nat /\ on_face "QUAD8" [1; 2]%nat 5 /\ ~ on_face "QUAD8" [1; 2]%nat 6 /\ ends "QUAD8" 5 = (1, 2)%nat /\
  ser_nodal_load 1 "QUAD8" 2 [(1 / 2, 0, 1, 8)] 5 = 8 /\ ser_nodal_load (3 / 2) "QUAD8" 2 [(1 / 2, 0, 1, 8)] 5 = 12 /\
  ser_nodal_load (3 / 2) "QUAD8" 2 [(1 / 2, 0, 1, 8)] 1 = -2.
Proof.
  split; [reflexivity|]. split; [intros v Hv; simpl in *; tauto|]. split; [intro H; specialize (H 3%nat (or_intror (or_introl eq_refl))); simpl in H; intuition discriminate|].
  split; [reflexivity|]. repeat split; cbv -[IZR Rplus Rminus Rmult Ropp Rinv Rdiv]; field.
Qed.
