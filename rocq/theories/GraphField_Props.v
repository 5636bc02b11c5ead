(** C56: where the cell density of a lattice is sampled, and when a density field is refused. *)
From Coq Require Import QArith Qminmax List Arith Lia.
From Verif Require Import Base Graph_Model Graph_Props.
Import ListNotations.
Local Open Scope Q_scope.

(** The sample point of a cell is the mean of its nodes: it has their number of coordinates and, times the number of nodes, each coordinate is the sum over the nodes. *)
Theorem C56_centroid :
  forall (points : list vec) (cell : list nat) (d : nat), cell <> [] -> (forall n, In n cell -> length (nth n points []) = d) ->
  length (centroid points cell) = d /\
  forall k, (k < d)%nat -> inject_Z (Z.of_nat (length cell)) * nth k (centroid points cell) 0 == sumQ (map (fun n => nth k (nth n points []) 0) cell).
Proof.
  intros points cell d NE L. assert (H0 : length (nth (hd 0%nat cell) points []) = d) by (apply L; destruct cell; [contradiction NE; reflexivity|left; reflexivity]).
  unfold centroid. rewrite H0. split; [rewrite map_length, seq_length; reflexivity|]. intros k Hk.
  rewrite (nth_map_in _ _ 0%nat 0) by (rewrite seq_length; exact Hk). rewrite seq_nth by exact Hk. cbn [Nat.add].
  field. intros E. destruct cell; [contradiction NE; reflexivity|]. cbn [length] in E. unfold Qeq in E. cbn [inject_Z Qnum Qden] in E. lia.
Qed.
Print Assumptions C56_centroid.

Lemma all_some_none {A} (l : list (option A)) : all_some l = None <-> In None l.
Proof.
  induction l as [|[x|] t IH]; cbn [all_some In].
  - split; [discriminate|intros []].
  - destruct (all_some t) as [r|]; split.
    + discriminate.
    + intros [E|H]; [discriminate E|]. apply IH in H. discriminate H.
    + intros _. right. apply IH. reflexivity.
    + reflexivity.
  - split; [left; reflexivity|reflexivity].
Qed.

(** A density field is refused exactly when the lattice function refuses one of its sample points; so a negative radius is refused on every mesh that has a cell (a point). *)
Theorem C56_refused :
  forall (lattice : vec -> option Q) (points nodes : list vec) (cells : list (list nat)) (edges : list (nat * nat)) (r solid void : Q),
  (density_field lattice points cells solid void = None <-> exists c, In c cells /\ lattice (centroid points c) = None) /\
  (density_field_nodal lattice points solid void = None <-> exists p, In p points /\ lattice p = None) /\
  (r < 0 -> cells <> [] -> density_field (fun x => universal_graph x nodes edges r) points cells solid void = None) /\
  (r < 0 -> points <> [] -> density_field_nodal (fun x => universal_graph x nodes edges r) points solid void = None).
Proof.
  assert (D : forall lattice points cells solid void, density_field lattice points cells solid void = None <-> exists c, In c cells /\ lattice (centroid points c) = None).
  { intros. unfold density_field. destruct (all_some _) as [l|] eqn:E; cbn [option_map].
    - split; [discriminate|]. intros (c & I & N). exfalso. assert (X : all_some (map (fun c => lattice (centroid points c)) cells) = None); [|congruence].
      apply all_some_none. apply in_map_iff. exists c. auto.
    - split; [|reflexivity]. intros _. apply all_some_none in E. apply in_map_iff in E. destruct E as (c & N & I). exists c. auto. }
  assert (M : forall lattice points solid void, density_field_nodal lattice points solid void = None <-> exists p, In p points /\ lattice p = None).
  { intros. unfold density_field_nodal. destruct (all_some _) as [l|] eqn:E; cbn [option_map].
    - split; [discriminate|]. intros (c & I & N). exfalso. assert (X : all_some (map lattice points) = None); [|congruence].
      apply all_some_none. apply in_map_iff. exists c. auto.
    - split; [|reflexivity]. intros _. apply all_some_none in E. apply in_map_iff in E. destruct E as (c & N & I). exists c. auto. }
  assert (U : forall x nodes edges r, r < 0 -> universal_graph x nodes edges r = None).
  { intros x nodes edges r H. unfold universal_graph, Qltb. destruct (Qle_bool 0 r) eqn:E; [|reflexivity]. apply Qle_bool_iff in E. exfalso. apply (Qlt_not_le _ _ H E). }
  intros. split; [apply D|]. split; [apply M|]. split.
  - intros H NE. apply D. destruct cells as [|c t]; [contradiction NE; reflexivity|]. exists c. split; [left; reflexivity|apply U, H].
  - intros H NE. apply M. destruct points as [|c t]; [contradiction NE; reflexivity|]. exists c. split; [left; reflexivity|apply U, H].
Qed.
Print Assumptions C56_refused.

Example C56_field_example :
  Forall2 Qeq (centroid [[0; 0]; [2; 0]; [2; 2]; [0; 2]] [0; 1; 2; 3]%nat) [1; 1].
Proof. repeat constructor. Qed.
