(** C19, C61: surface variables that are not given; corners, faces and edges selected on a unit cell. *)
From Coq Require Import ZArith Bool List Arith Lia.
From Verif Require Import Base Params_Model Dof_Model UnitCell_Model.
Import ListNotations.

(** Surface variables that are not given are an empty list; given ones are kept. *)
Theorem C19_default : forall (A : Type) (v : list A) s,
  volume_vars (make v None) = v /\ surface_vars (make v None) = [] /\ volume_vars (make v (Some s)) = v /\ surface_vars (make v (Some s)) = s /\
  tree_flatten (make v None) = (v, (length v, [])).
Proof. repeat split. Qed.
Print Assumptions C19_default.

Local Open Scope Z_scope.
(** A corner selector needs one value per axis and selects the points within the tolerance atol + 1e-5 |value| of that corner. *)
Theorem C61_corner_selector :
  forall (sdim : nat) (atol : Z) (values : list Z),
  (length values <> sdim -> corner_function sdim atol values = None) /\
  (length values = sdim -> exists g, corner_function sdim atol values = Some g /\
     forall p, length p = sdim -> (g p = true <-> forall k, (k < sdim)%nat -> 100000 * Z.abs (nth k p 0 - nth k values 0) <= 100000 * atol + Z.abs (nth k values 0))).
Proof.
  intros sdim atol values. unfold corner_function. split.
  - intros N. apply Nat.eqb_neq in N. rewrite N. reflexivity.
  - intros E. rewrite E, Nat.eqb_refl. eexists. split; [reflexivity|]. intros p Hp.
    assert (G : forall (a v : list Z), length a = length v -> (forallb (fun pv => isclose atol (fst pv) (snd pv)) (combine a v) = true <-> forall k, (k < length v)%nat -> 100000 * Z.abs (nth k a 0 - nth k v 0) <= 100000 * atol + Z.abs (nth k v 0))).
    { clear. induction a as [|x a IH]; intros [|y v] L; try discriminate L; cbn [combine forallb length].
      - split; [intros _ k Hk; lia|reflexivity].
      - rewrite andb_true_iff, (IH v) by (cbn in L; lia). unfold isclose. cbn [fst snd]. rewrite Z.leb_le. split.
        + intros [H1 H2] [|k] Hk; [exact H1|]. apply H2. lia.
        + intros H. split; [apply (H 0%nat); lia|]. intros k Hk. apply (H (S k)). lia. }
    rewrite G by congruence. rewrite E. reflexivity.
Qed.
Print Assumptions C61_corner_selector.
Example C61_corner_example : exists g, corner_function 2 1 [0; 100] = Some g /\ g [0; 101] = true /\ g [2; 100] = false /\ corner_function 2 1 [0] = None.
Proof. eexists. split; [reflexivity|]. repeat split. Qed.
