(** C20: the storage kind of every array, the fallback for a kind that is not recognised, and lists of coefficients. *)
From Coq Require Import ZArith Bool List Arith Lia.
From Verif Require Import Base Dof_Model Params_Model Params_Props.
Import ListNotations.

(** What the documentation of the storage kinds says: a scalar is a cell value; an array with as many rows as some variable has nodes belongs to the first such
    variable; otherwise one row per cell is a cell value, or quadrature values if the row has one entry per quadrature point; anything else is not recognised. *)
Theorem C20_kinds :
  forall (K : CRing) (P : problem K),
  (forall x, classify K P (A0 K x) = KCell) /\
  (forall l i, first_with K P (length l) i -> classify K P (A1 K l) = KNode i) /\
  (forall l, none_with K P (length l) -> (length l = p_ncells K P -> classify K P (A1 K l) = KCell) /\ (length l <> p_ncells K P -> classify K P (A1 K l) = KNone)) /\
  (forall w rows i, first_with K P (length rows) i -> classify K P (A2 K w rows) = KNode i) /\
  (forall w rows, none_with K P (length rows) ->
     (length rows = p_ncells K P -> w = num_quads K P -> classify K P (A2 K w rows) = KQuad) /\
     (length rows = p_ncells K P -> w <> num_quads K P -> classify K P (A2 K w rows) = KCell) /\
     (length rows <> p_ncells K P -> classify K P (A2 K w rows) = KNone)).
Proof.
  intros K P. split; [reflexivity|]. split; [|split; [|split]].
  - intros l i F. apply (find_fe_first K) in F. unfold classify. rewrite F. reflexivity.
  - intros l N. unfold classify. rewrite (find_none K _ _ N). split; intros E; [rewrite E, Nat.eqb_refl; reflexivity|]. apply Nat.eqb_neq in E. rewrite E. reflexivity.
  - intros w rows i F. apply (find_fe_first K) in F. unfold classify. rewrite F. reflexivity.
  - intros w rows N. unfold classify. rewrite (find_none K _ _ N). repeat split; intros E.
    + intros ->. rewrite E, !Nat.eqb_refl. reflexivity.
    + intros W. apply Nat.eqb_neq in W. rewrite E, Nat.eqb_refl, W. reflexivity.
    + apply Nat.eqb_neq in E. rewrite E. reflexivity.
Qed.
Print Assumptions C20_kinds.

(** Interpolating the values one cell holds when the kind is not recognised: by their number. *)
Theorem C20_fallback :
  forall (K : CRing) (P : problem K) (x : K) (l : list K),
  interpolate K P (P0 K x) KNone = Some (repeat (QS K x) (num_quads K P)) /\
  ((exists f, In f (p_fes K P) /\ f_npe K f = length l) -> interpolate K P (P1 K l) KNone = shape_dot K (f_shape K (fe_at K P 0)) (P1 K l)) /\
  ((forall f, In f (p_fes K P) -> f_npe K f <> length l) ->
     (length l = num_quads K P -> interpolate K P (P1 K l) KNone = Some (map (QS K) l)) /\
     (length l <> num_quads K P -> l <> [] -> interpolate K P (P1 K l) KNone = Some (repeat (QS K (get l 0)) (num_quads K P)))).
Proof.
  intros K P x l. split; [reflexivity|]. unfold interpolate. split.
  - intros (f & Hf & E). assert (X : existsb (fun f0 => length l =? f_npe K f0) (p_fes K P) = true) by (apply existsb_exists; exists f; split; [exact Hf|]; apply Nat.eqb_eq; symmetry; exact E).
    rewrite X. reflexivity.
  - intros N. assert (X : existsb (fun f0 => length l =? f_npe K f0) (p_fes K P) = false).
    { destruct (existsb _ _) eqn:E; [|reflexivity]. apply existsb_exists in E. destruct E as (f & Hf & E). apply Nat.eqb_eq in E. exfalso. apply (N f Hf). symmetry. exact E. }
    rewrite X. split; intros E.
    + destruct (Nat.eqb_spec (length l) 1) as [O|O].
      * rewrite <- E, O. destruct l as [|a [|b l]]; try discriminate O. reflexivity.
      * rewrite E, Nat.eqb_refl. reflexivity.
    + intros NE. destruct (Nat.eqb_spec (length l) 1) as [O|O]; [reflexivity|]. apply Nat.eqb_neq in E. rewrite E. destruct l; [contradiction NE; reflexivity|reflexivity].
Qed.
Print Assumptions C20_fallback.

(** A list of coefficients keeps its length and order; it is rejected as a whole exactly if one of them is. *)
Theorem C20_list :
  forall (K : CRing) (gs : list (given K)),
  (forall l, coerce_all K gs = Some l <-> Forall2 (fun g a => coerce K g = Some a) gs l) /\
  (coerce_all K gs = None <-> exists g, In g gs /\ coerce K g = None).
Proof.
  intros K gs. induction gs as [|g t [IH1 IH2]].
  - cbn. split.
    + intros l. split; [intros E; injection E as <-; constructor|intros F; inversion F; reflexivity].
    + split; [discriminate|]. intros (g & [] & _).
  - cbn [coerce_all]. split.
    + intros l. split.
      * destruct (coerce K g) as [a|] eqn:G; [|discriminate]. destruct (coerce_all K t) as [r|] eqn:T; [|discriminate]. intros E. injection E as <-.
        constructor; [exact G|]. apply IH1. reflexivity.
      * intros F. inversion F as [|? a ? r G R]; subst. rewrite G. apply IH1 in R. rewrite R. reflexivity.
    + destruct (coerce K g) as [a|] eqn:G.
      * destruct (coerce_all K t) as [r|] eqn:T.
        -- split; [discriminate|]. intros (h & [<-|Hh] & N); [congruence|]. exfalso. assert (Some r = None) by (apply IH2; exists h; auto). discriminate.
        -- split; [|reflexivity]. intros _. destruct (proj1 IH2 eq_refl) as (h & Hh & N). exists h. split; [right; exact Hh|exact N].
      * split; [|reflexivity]. intros _. exists g. split; [left; reflexivity|exact G].
Qed.
Print Assumptions C20_list.

(** A problem with two variables of 3 and 5 nodes, 2 cells, 2 quadrature points. *)
Example C20_kinds_example :
  let P : problem ZK := {| p_fes := [ {| f_nodes := 3; f_npe := 3; f_cells := [[0; 1; 2]; [2; 1; 0]]; f_shape := [[1; 0; 0]; [0; 0; 1]]%Z |};
                           {| f_nodes := 5; f_npe := 4; f_cells := [[0; 1; 2; 3]; [1; 2; 3; 4]]; f_shape := [[1; 0; 0; 0]; [0; 0; 0; 1]]%Z |} ]; p_ncells := 2 |} in
  first_with ZK P 5 1 /\ none_with ZK P 2 /\ none_with ZK P 7 /\
  classify ZK P (A1 ZK [1; 2; 3; 4; 5]%Z) = KNode 1 /\ classify ZK P (A1 ZK [1; 2]%Z) = KCell /\ classify ZK P (A2 ZK 2 [[1; 2]; [3; 4]]%Z) = KQuad /\
  interpolate ZK P (P1 ZK [8; 9]%Z) KNone = Some [QS ZK 8%Z; QS ZK 9%Z] /\
  coerce_all ZK [Sol ZK [(2, 1)] [1; 2]%Z; Arr ZK (A0 ZK 5%Z)] = Some [A1 ZK [1; 2]%Z; A0 ZK 5%Z].
Proof.
  cbn zeta. split; [|split; [|split; [|repeat split; reflexivity]]].
  - split; [cbn; lia|]. split; [reflexivity|]. intros j Hj. destruct j; [|lia]. discriminate.
  - intros f [<-|[<-|[]]]; discriminate.
  - intros f [<-|[<-|[]]]; discriminate.
Qed.
