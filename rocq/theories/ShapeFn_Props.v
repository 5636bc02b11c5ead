(** C89: the tables of the supported element types have the properties the interpolation theorems ask for. *)
From Coq Require Import Reals Lra String List Arith ZArith Lia.
From Verif Require Import Base Basis_Model Basis_Spec FaceQuad_Model FaceQuad_Props Serendip_Model ShapeFn_Model.
Import ListNotations.
Local Open Scope string_scope.
Local Open Scope list_scope.
Local Open Scope R_scope.

Definition all_types : list string := ["HEX8"; "HEX20"; "TET4"; "TET10"; "QUAD4"; "QUAD8"; "QUAD9"; "TRI3"; "TRI6"].
Definition solid (e : string) : bool := one_of e ["HEX8"; "HEX20"; "TET4"; "TET10"].
Ltac all_cases H := unfold all_types in H; simpl In in H; repeat (destruct H as [<-|H]; [|]); [..|contradiction].

(** At every point of the cell (and outside it): one value per node, adding up to one and reproducing the point from the positions of the nodes. *)
Theorem C89_elements : forall kappa e p, In e all_types ->
  exists v, shape_vals kappa e p = Some v /\ length v = node_count e /\
    total (node_count e) (fun a => nth a v 0) = 1 /\
    total (node_count e) (fun a => nth a v 0 * px (node_at e a)) = px p /\
    total (node_count e) (fun a => nth a v 0 * py (node_at e a)) = py p /\
    (solid e = true -> total (node_count e) (fun a => nth a v 0 * pz (node_at e a)) = pz p).
Proof.
  intros kappa e [[x y] z] H. all_cases H;
    (eexists; split; [cbv -[IZR Rplus Rminus Rmult Ropp Rinv Rdiv]; reflexivity|]; split; [reflexivity|];
     cbn [total node_count String.eqb Ascii.eqb Bool.eqb nth]; repeat split; try (intros D; first [discriminate D|clear D]); cbv -[IZR Rplus Rminus Rmult Ropp Rinv Rdiv]; field).
Qed.
Print Assumptions C89_elements.

Definition val (kappa : R) (e : string) (a : nat) (p : rpoint) : R := match shape_vals kappa e p with Some v => nth a v 0 | None => 0 end.
Lemma total_lim n (f : nat -> R -> R) (g w : nat -> R) : (forall a, (a < n)%nat -> derivable_pt_lim (f a) 0 (g a)) ->
  derivable_pt_lim (fun h => total n (fun a => f a h * w a)) 0 (total n (fun a => g a * w a)).
Proof.
  induction n as [|n IH]; intros H; [apply derivable_pt_lim_const|]. cbn [total].
  apply (derivable_pt_lim_plus (fun h => total n (fun a => f a h * w a)) (fun h => f n h * w n)); [apply IH; intros; apply H; lia|].
  replace (g n * w n) with (g n * w n + f n 0 * 0) by ring. apply (derivable_pt_lim_mult (f n) (fun _ => w n)); [apply H; lia|apply derivable_pt_lim_const].
Qed.
Lemma linear_lim (f : R -> R) (c m l : R) : (forall h, f h = c + h * m) -> derivable_pt_lim f 0 l -> l = m.
Proof.
  intros E D. apply (uniqueness_limite f 0 l m D). intros eps He. exists (mkposreal 1 Rlt_0_1). intros h Nh _. rewrite !E.
  replace ((c + (0 + h) * m - (c + 0 * m)) / h - m) with 0 by (field; exact Nh). rewrite Rabs_R0. exact He.
Qed.

(** Gradients: whatever the derivatives of the shape functions in a direction [d] of the reference cell are, they add up to zero and give back the direction; so an element with the nodes of the
    reference cell has the identity as its Jacobian, and constant fields have no gradient. *)
Theorem C89_element_gradients : forall kappa e p d (dN : nat -> R), In e all_types ->
  (forall a, (a < node_count e)%nat -> derivable_pt_lim (fun h => val kappa e a (padd p (pscale h d))) 0 (dN a)) ->
  total (node_count e) dN = 0 /\
  total (node_count e) (fun a => dN a * px (node_at e a)) = px d /\
  total (node_count e) (fun a => dN a * py (node_at e a)) = py d /\
  (solid e = true -> total (node_count e) (fun a => dN a * pz (node_at e a)) = pz d).
Proof.
  intros kappa e p d dN H D.
  assert (V : forall q, total (node_count e) (fun a => val kappa e a q * 1) = 1 /\
     total (node_count e) (fun a => val kappa e a q * px (node_at e a)) = px q /\
     total (node_count e) (fun a => val kappa e a q * py (node_at e a)) = py q /\
     (solid e = true -> total (node_count e) (fun a => val kappa e a q * pz (node_at e a)) = pz q)).
  { intros q. destruct (C89_elements kappa e q H) as (v & E & _ & A & B & C & F). unfold val. rewrite E. split; [|auto]. refine (eq_trans _ A). apply total_ext. intros. ring. }
  assert (X : forall w c m, (forall h, total (node_count e) (fun a => val kappa e a (padd p (pscale h d)) * w a) = c + h * m) -> total (node_count e) (fun a => dN a * w a) = m).
  { intros w c m E. exact (linear_lim _ c m _ E (total_lim _ (fun a h => val kappa e a (padd p (pscale h d))) dN w D)). }
  split; [|split; [|split]].
  - transitivity (total (node_count e) (fun a => dN a * 1)); [apply total_ext; intros; ring|]. apply (X (fun _ => 1) 1 0). intros h. rewrite (proj1 (V _)). ring.
  - apply (X _ (px p)). intros h. rewrite (proj1 (proj2 (V _))). reflexivity.
  - apply (X _ (py p)). intros h. rewrite (proj1 (proj2 (proj2 (V _)))). reflexivity.
  - intros S. apply (X _ (pz p)). intros h. rewrite (proj2 (proj2 (proj2 (V _))) S). reflexivity.
Qed.
Print Assumptions C89_element_gradients.

(** The reference cells. *)
Definition in_cell (e : string) (p : rpoint) : Prop :=
  if (e =? "HEX8")%string then 0 <= px p <= 1 /\ 0 <= py p <= 1 /\ 0 <= pz p <= 1
  else if (e =? "QUAD4")%string then 0 <= px p <= 1 /\ 0 <= py p <= 1
  else if (e =? "TET4")%string then 0 <= px p /\ 0 <= py p /\ 0 <= pz p /\ px p + py p + pz p <= 1
  else 0 <= px p /\ 0 <= py p /\ px p + py p <= 1.
(** The first-degree types have no negative shape function in the cell, so values between the nodes stay between the nodal values. A six-node triangle has: its fields can leave the range of the nodal values. *)
Theorem C89_element_range :
  (forall kappa e p u lo hi, In e ["HEX8"; "TET4"; "QUAD4"; "TRI3"] -> in_cell e p -> (forall a, (a < node_count e)%nat -> lo <= u a <= hi) ->
     lo <= total (node_count e) (fun a => val kappa e a p * u a) <= hi) /\
  exists p u, in_cell "TRI3" p /\ (forall a, 0 <= u a <= 1) /\ total 6 (fun a => val 1 "TRI6" a p * u a) < 0.
Proof.
  split.
  - intros kappa e p u lo hi H P B.
    assert (N : forall a, (a < node_count e)%nat -> 0 <= val kappa e a p).
    { intros a Ha. clear B. destruct p as [[x y] z]. simpl In in H. repeat (destruct H as [<-|H]; [|]); [..|contradiction]; cbv [in_cell String.eqb Ascii.eqb Bool.eqb px py pz fst snd] in P; cbn in Ha;
        each a ltac:(cbv -[IZR Rplus Rminus Rmult Ropp Rinv Rdiv Rle]; repeat apply Rmult_le_pos; lra). }
    assert (A : In e all_types) by (simpl In in H |- *; tauto).
    destruct (C89_elements kappa e p A) as (v & E & _ & T & _).
    assert (T' : total (node_count e) (fun a => val kappa e a p) = 1) by (rewrite <- T; unfold val; rewrite E; reflexivity).
    assert (G : forall n, (n <= node_count e)%nat -> lo * total n (fun a => val kappa e a p) <= total n (fun a => val kappa e a p * u a) <= hi * total n (fun a => val kappa e a p)).
    { induction n as [|n IH]; intros L; cbn [total]; [lra|]. specialize (IH ltac:(lia)). pose proof (N n ltac:(lia)). pose proof (B n ltac:(lia)) as [B1 B2].
      pose proof (Rmult_le_compat_l _ _ _ H0 B1). pose proof (Rmult_le_compat_l _ _ _ H0 B2). lra. }
    specialize (G _ (le_n _)). rewrite T' in G. lra.
  - exists (1 / 4, 1 / 4, 0), (fun a => if (a =? 1)%nat then 1 else 0). split; [cbv -[IZR Rplus Rminus Rmult Ropp Rinv Rdiv Rle]; lra|]. split; [intros a; destruct (a =? 1)%nat; lra|].
    cbv -[IZR Rplus Rminus Rmult Ropp Rinv Rdiv Rlt]. lra.
Qed.
Print Assumptions C89_element_range.

(** The first shape function of the triangle decreases along the first axis, the second grows. *)
Example C89_elements_example : shape_vals 1 "TRI3" (1 / 2, 1 / 4, 0) = Some [1 - 1 / 2 - 1 / 4; 1 / 2; 1 / 4] /\
  forall a, (a < node_count "TRI3")%nat -> derivable_pt_lim (fun h => val 1 "TRI3" a (padd (0, 0, 0) (pscale h (1, 0, 0)))) 0 (nth a [-1; 1; 0] 0).
Proof.
  split; [reflexivity|]. intros a Ha. cbn in Ha.
  each a ltac:(intros eps He; exists (mkposreal 1 Rlt_0_1); intros h Nh _; match goal with |- Rabs ?x < _ => replace x with 0 by (cbv -[IZR Rplus Rminus Rmult Ropp Rinv Rdiv]; field; exact Nh) end; rewrite Rabs_R0; exact He).
Qed.
