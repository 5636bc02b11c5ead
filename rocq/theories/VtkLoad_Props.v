(** C108: density fields written to a result file and read back. *)
From Coq Require Import Reals Lra List Arith Bool String Lia.
From Verif Require Import Writer_Model VtkLoad_Model.
Import ListNotations.
Open Scope string_scope.
Open Scope list_scope.

(** ** Specification *)
(** Solid types and their node counts. *)
Definition solid_types : list (string * nat) := [("TET4", 4); ("TET10", 10); ("HEX8", 8); ("HEX20", 20)].
Definition plane_types : list (string * nat) := [("TRI3", 3); ("TRI6", 6); ("QUAD4", 4)].
(** A mesh of [n]-node cells with [d] coordinates per point. *)
Definition mesh_of (m : mesh) (n d : nat) : Prop :=
  m_cells m <> [] /\ m_points m <> [] /\ (forall c, In c (m_cells m) -> List.length c = n) /\
  (forall p, In p (m_points m) -> List.length p = d).
(** What is assumed of single precision: rounding is monotone and keeps rounded numbers. *)
Definition rounding (single : R -> R) : Prop :=
  (forall x y, (x <= y)%R -> (single x <= single y)%R) /\ forall x, single (single x) = single x.

(** ** Lemmas *)
Lemma width_of {A} (l : list (list A)) n : l <> [] -> (forall r, In r l -> List.length r = n) -> width l = n.
Proof. destruct l as [|r l]; [congruence|]. intros _ H. exact (H r (or_introl eq_refl)). Qed.
Lemma pad_solid l : (forall p, In p l -> List.length p = 3) -> map pad l = l.
Proof.
  induction l as [|p l IH]; intro H; simpl; [reflexivity|]. rewrite IH by (intros q Hq; apply H; right; exact Hq).
  unfold pad. rewrite (H p (or_introl eq_refl)). reflexivity.
Qed.
Lemma lookup_here name v r : lookup ((name, v) :: r) name = Some v.
Proof. simpl. rewrite String.eqb_refl. reflexivity. Qed.

(** ** Theorems *)

(** A field on a solid mesh comes back on the same mesh, with values rounded to single precision. *)
Theorem C108_round_trip : forall single m e n name rho threshold, In (e, n) solid_types -> m_ele m = e -> mesh_of m n 3 ->
  List.length rho = List.length (m_points m) ->
  exists f, save_density single m name rho = Some f /\ from_vtk f name threshold = Loaded m (map single rho) threshold /\ invertible_shape m.
Proof.
  intros single m e n name rho thr HI HE (NC & NP & LC & LP) LR. unfold save_density.
  rewrite (width_of _ n NC LC), (width_of _ 3 NP LP), LR, Nat.eqb_refl.
  unfold solid_types in HI. simpl In in HI.
  repeat (destruct HI as [HI|HI]; [injection HI as <- <-; eexists; split; [reflexivity|]; split;
    [unfold from_vtk; cbn [v_data v_blocks v_points]; rewrite lookup_here; simpl; rewrite (pad_solid _ LP), <- HE; destruct m; reflexivity
    |unfold invertible_shape; rewrite HE, (width_of _ 3 NP LP); reflexivity]|]). contradiction.
Qed.
Print Assumptions C108_round_trip.

(** No node changes sides of a threshold that single precision represents, and writing what was read
    changes nothing more. *)
Theorem C108_sides : forall single threshold rho i x y, rounding single -> single threshold = threshold ->
  nth_error rho i = Some x -> nth_error (map single rho) i = Some y ->
  ((threshold <= x -> threshold <= y) /\ (x <= threshold -> y <= threshold))%R /\
  map single (map single rho) = map single rho.
Proof.
  intros single thr rho i x y [MO ID] RT NX NY. rewrite nth_error_map, NX in NY. injection NY as <-.
  split; [split; intro H; [rewrite <- RT at 1|rewrite <- RT]; apply MO; exact H|].
  rewrite map_map. apply map_ext. exact ID.
Qed.
Print Assumptions C108_sides.

(** A plane mesh keeps its type but comes back with a third coordinate, zero, on every point: the
    field read back cannot invert its cells. *)
Theorem C108_plane : forall single m e n name rho threshold, In (e, n) plane_types -> m_ele m = e -> mesh_of m n 2 ->
  List.length rho = List.length (m_points m) ->
  exists f m', save_density single m name rho = Some f /\ from_vtk f name threshold = Loaded m' (map single rho) threshold /\
    m_ele m' = e /\ m_cells m' = m_cells m /\ m_points m' = map (fun p => p ++ [0%R]) (m_points m) /\ ~ invertible_shape m'.
Proof.
  intros single m e n name rho thr HI HE (NC & NP & LC & LP) LR. unfold save_density.
  rewrite (width_of _ n NC LC), (width_of _ 2 NP LP), LR, Nat.eqb_refl.
  assert (PD : map pad (m_points m) = map (fun p => p ++ [0%R]) (m_points m)).
  { apply map_ext_in. intros p Hp. unfold pad. rewrite (LP p Hp). reflexivity. }
  assert (WD : width (map (fun p => p ++ [0%R]) (m_points m)) = 3).
  { apply width_of; [destruct (m_points m); [congruence|discriminate]|]. intros r Hr. apply in_map_iff in Hr. destruct Hr as (p & <- & Hp).
    rewrite app_length, (LP p Hp). reflexivity. }
  unfold plane_types in HI. simpl In in HI.
  repeat (destruct HI as [HI|HI]; [injection HI as <- <-; eexists; eexists; split; [reflexivity|];
    unfold from_vtk; cbn [v_data v_blocks v_points]; rewrite lookup_here; simpl; rewrite PD; split; [reflexivity|]; repeat split; unfold invertible_shape; simpl; rewrite WD; discriminate|]).
  contradiction.
Qed.
Print Assumptions C108_plane.

(** Specification: the cell types the loader reads and what it makes of them. *)
Definition readable : list (string * string) :=
  [("tetra", "TET4"); ("tetra10", "TET10"); ("hexahedron", "HEX8"); ("hexahedron20", "HEX20");
   ("triangle", "TRI3"); ("triangle6", "TRI6"); ("quad", "QUAD4"); ("quad8", "QUAD8")].
Lemma feax_readable ct e : feax_type ct = Some e <-> In (ct, e) readable.
Proof.
  unfold feax_type, readable. cbn [In]. split.
  - intros H. repeat match type of H with context [?a =? ?b] => destruct (String.eqb_spec a b) as [->|]; [injection H as <-; tauto|] end. discriminate H.
  - intros H. repeat (destruct H as [H|H]; [injection H as <- <-; reflexivity|]). destruct H.
Qed.
Lemma feax_unreadable ct : feax_type ct = None <-> forall e, ~ In (ct, e) readable.
Proof.
  split.
  - intros H e Hin. apply feax_readable in Hin. congruence.
  - intros H. destruct (feax_type ct) as [e|] eqn:E; [|reflexivity]. apply feax_readable in E. destruct (H e E).
Qed.
Lemma reader_types : forall f name threshold,
  match from_vtk f name threshold with
  | MissingField => lookup (v_data f) name = None
  | NoCells => lookup (v_data f) name <> None /\ forall ct c, In (ct, c) (v_blocks f) -> feax_type ct = None
  | Loaded m rho t => lookup (v_data f) name = Some rho /\ t = threshold /\ m_points m = v_points f /\
      exists before ct after, v_blocks f = before ++ (ct, m_cells m) :: after /\ feax_type ct = Some (m_ele m) /\
        forall ct' c', In (ct', c') before -> feax_type ct' = None
  end.
Proof.
  intros f name thr. unfold from_vtk. destruct (lookup (v_data f) name) as [rho|] eqn:L; [|reflexivity].
  assert (B : match first_block (v_blocks f) with
    | None => forall ct c, In (ct, c) (v_blocks f) -> feax_type ct = None
    | Some (e, c) => exists before ct after, v_blocks f = before ++ (ct, c) :: after /\ feax_type ct = Some e /\
        forall ct' c', In (ct', c') before -> feax_type ct' = None end).
  { induction (v_blocks f) as [|[ct c] bs IH]; simpl; [intros ? ? []|]. destruct (feax_type ct) as [e|] eqn:T.
    - exists [], ct, bs. repeat split; [exact T|intros ? ? []].
    - destruct (first_block bs) as [[e c1]|].
      + destruct IH as (b & ct1 & a & -> & T1 & NB). exists ((ct, c) :: b), ct1, a. repeat split; [exact T1|].
        intros ct' c' [Q|Q]; [injection Q as <- <-; exact T|exact (NB ct' c' Q)].
      + intros ct' c' [Q|Q]; [injection Q as <- <-; exact T|exact (IH ct' c' Q)]. }
  destruct (first_block (v_blocks f)) as [[e c]|].
  - simpl. split; [reflexivity|]. split; [reflexivity|]. split; [reflexivity|]. exact B.
  - split; [discriminate|exact B].
Qed.
(** The loader reports a missing field before missing cells, and reads the first block of a type it knows. *)
Theorem C108_reader : forall f name threshold,
  match from_vtk f name threshold with
  | MissingField => lookup (v_data f) name = None
  | NoCells => lookup (v_data f) name <> None /\ forall ct c, In (ct, c) (v_blocks f) -> (forall e, ~ In (ct, e) readable)
  | Loaded m rho t => lookup (v_data f) name = Some rho /\ t = threshold /\ m_points m = v_points f /\
      exists before ct after, v_blocks f = before ++ (ct, m_cells m) :: after /\ In (ct, m_ele m) readable /\
        forall ct' c', In (ct', c') before -> (forall e, ~ In (ct', e) readable)
  end.
Proof.
  intros f name thr. pose proof (reader_types f name thr) as H. destruct (from_vtk f name thr) as [| |m rho t]; [exact H| |].
  - destruct H as [A B]. split; [exact A|]. intros ct c Hin. apply feax_unreadable, (B ct c Hin).
  - destruct H as (A & B & C & be & ct & af & E & T & N). repeat split; try assumption. exists be, ct, af. split; [exact E|]. split; [apply feax_readable; exact T|].
    intros ct' c' Hin. apply feax_unreadable, (N ct' c' Hin).
Qed.
Print Assumptions C108_reader.

Definition quad8 : mesh :=
  {| m_points := [[0; 0]; [1; 0]; [1; 1]; [0; 1]; [1 / 2; 0]; [1; 1 / 2]; [1 / 2; 1]; [0; 1 / 2]]%R; m_cells := [[0; 1; 2; 3; 4; 5; 6; 7]]; m_ele := "QUAD8" |}.
Definition shell_quad : mesh :=
  {| m_points := [[0; 0; 0]; [1; 0; 0]; [1; 1; 0]; [0; 1; 0]]%R; m_cells := [[0; 1; 2; 3]]; m_ele := "QUAD4" |}.
Definition ones (n : nat) : list R := repeat 1%R n.

(** A QUAD8 field comes back as a hexahedron, and a quadrilateral in space as a tetrahedron. *)
Theorem C108_type_refuted : forall threshold,
  (exists f m', save_density (fun x => x) quad8 "density" (ones 8) = Some f /\ from_vtk f "density" threshold = Loaded m' (map (fun x => x) (ones 8)) threshold /\
     m_ele m' = "HEX8") /\
  (exists f m', save_density (fun x => x) shell_quad "density" (ones 4) = Some f /\ from_vtk f "density" threshold = Loaded m' (map (fun x => x) (ones 4)) threshold /\
     m_ele m' = "TET4").
Proof. intro thr. split; eexists; eexists; (split; [reflexivity|]); (split; [reflexivity|]); reflexivity. Qed.
Print Assumptions C108_type_refuted.

Example C108_example :
  let m := {| m_points := [[0; 0; 0]; [1; 0; 0]; [0; 1; 0]; [0; 0; 1]]%R; m_cells := [[0; 1; 2; 3]]; m_ele := "TET4" |} in
  mesh_of m 4 3 /\ In ("TET4", 4) solid_types /\ List.length (ones 4) = List.length (m_points m) /\ rounding (fun x => x).
Proof.
  cbv zeta. split; [|split; [left; reflexivity|split; [reflexivity|split; auto]]].
  split; [discriminate|]. split; [discriminate|]. split; [intros c [<-|[]]; reflexivity|].
  intros p H. simpl in H. repeat (destruct H as [<-|H]; [reflexivity|]). contradiction.
Qed.
