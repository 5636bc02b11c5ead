(** Property C21: solution fields and DOF numbering. *)
From Verif Require Import Base Csr_Model Assembly_Model Dof_Model Dof_Spec Dof_Proofs.
From Coq Require Import ZifyBool ZifyNat.
Set Implicit Arguments.

(** The numbering is a bijection between (variable, node, component) and 0..total-1. *)
Theorem C21_numbering_bijective :
  forall L : layout,
  (forall i a c, valid_dof L i a c -> dof L i a c < total_dofs L) /\
  (forall i a c i' a' c', valid_dof L i a c -> valid_dof L i' a' c' ->
     dof L i a c = dof L i' a' c' -> i = i' /\ a = a' /\ c = c') /\
  (forall d, d < total_dofs L -> exists i a c, valid_dof L i a c /\ dof L i a c = d).
Proof.
  intros L. split; [|split].
  - intros. apply dof_lt. assumption.
  - intros. eapply dof_inj; eassumption.
  - intros. apply dof_surj. assumption.
Qed.
Print Assumptions C21_numbering_bijective.

(** field(i): shape, contents, errors. *)
Theorem C21_field :
  forall (A : Type) (d : A) (L : layout) (dofs : list A), length dofs = total_dofs L ->
  (forall i : Z, (i < 0 \/ Z.of_nat (length L) <= i)%Z -> field L dofs i = IndexError) /\
  (forall i, i < length L -> exists u,
     field L dofs (Z.of_nat i) = Ok u /\
     nth i (unflatten L dofs) [] = u /\
     length u = fst (nth i L (0, 0)) /\
     (forall row, In row u -> length row = snd (nth i L (0, 0))) /\
     (forall a c, valid_dof L i a c -> nth c (nth a u []) d = nth (dof L i a c) dofs d)).
Proof.
  intros A d L dofs Hl. split.
  - intros i Hi. unfold field, sol_offset.
    destruct ((0 <=? i)%Z && (i <? Z.of_nat (length L))%Z) eqn:E; [lia | reflexivity].
  - intros i Hi. eexists. split; [|split; [reflexivity|]].
    + unfold field, sol_offset.
      destruct ((0 <=? Z.of_nat i)%Z && (Z.of_nat i <? Z.of_nat (length L))%Z) eqn:E; [|lia].
      rewrite Nat2Z.id, nth_unflatten by exact Hi. destruct (nth i L (0,0)) as [n v]. reflexivity.
    + rewrite nth_unflatten by exact Hi.
      pose proof (@slice_length L i A dofs Hl Hi) as SL. rewrite nth_sizes in SL.
      split; [|split].
      * destruct (nth i L (0,0)) as [n v]. cbn. apply reshape_length.
      * intros row. destruct (nth i L (0,0)) as [n v]. cbn in *. apply reshape_row_length. rewrite SL. lia.
      * intros a c V. rewrite <- nth_unflatten_entry by assumption. rewrite nth_unflatten by exact Hi. reflexivity.
Qed.
Print Assumptions C21_field.

(** The fields tile the flat vector, and flattening is a bijection. *)
Theorem C21_fields_tile :
  forall (A : Type) (L : layout),
  (forall dofs : list A, length dofs = total_dofs L -> ravel_list (unflatten L dofs) = dofs) /\
  (forall us : list (list (list A)),
     length us = length L ->
     (forall i, i < length L -> length (nth i us []) = fst (nth i L (0, 0)) /\
        forall r, In r (nth i us []) -> length r = snd (nth i L (0, 0))) ->
     unflatten L (ravel_list us) = us).
Proof. intros A L. split; [apply ravel_unflatten | apply unflatten_ravel]. Qed.
Print Assumptions C21_fields_tile.

(** node_var reads one component of every node. *)
Theorem C21_node_var :
  forall (A : Type) (d : A) (L : layout) (dofs : list A) (i : nat) (comp : option nat),
  length dofs = total_dofs L -> i < length L ->
  let n := fst (nth i L (0, 0)) in let v := snd (nth i L (0, 0)) in
  (v = 1 -> exists x, node_var d L dofs comp (Z.of_nat i) = Ok x /\ length x = n /\
      forall a, a < n -> nth a x d = nth (dof L i a 0) dofs d) /\
  (forall c, 1 < v -> c < v -> comp = Some c ->
      exists x, node_var d L dofs comp (Z.of_nat i) = Ok x /\ length x = n /\
      forall a, a < n -> nth a x d = nth (dof L i a c) dofs d) /\
  (v <> 1 -> comp = None -> node_var d L dofs comp (Z.of_nat i) = ValueError).
Proof.
  intros A d L dofs i comp Hl Hi n v.
  destruct (proj2 (C21_field d L dofs Hl) i Hi) as (u & E & _ & Ln & _ & Hent).
  unfold node_var. rewrite E, Nat2Z.id. fold v.
  assert (G : forall c, c < v -> length (map (fun row => nth c row d) u) = n /\
      forall a, a < n -> nth a (map (fun row => nth c row d) u) d = nth (dof L i a c) dofs d).
  { intros c Hc. rewrite map_length. split; [exact Ln|]. intros a Ha.
    rewrite nth_map_in with (d := @nil A) by (rewrite Ln; exact Ha).
    apply Hent. repeat split; assumption. }
  split; [|split].
  - intros Hv. rewrite (proj2 (Nat.eqb_eq v 1) Hv).
    eexists; split; [reflexivity|]. apply G. lia.
  - intros c Hv Hc ->. destruct (Nat.eqb_spec v 1); [lia|].
    eexists; split; [reflexivity|]. apply G. exact Hc.
  - intros Hv ->. destruct (Nat.eqb_spec v 1); [lia|reflexivity].
Qed.
Print Assumptions C21_node_var.

(** Assembly uses the same numbering: the values gathered for a cell are the
    solution's values at the cell's global DOFs, and those DOFs are the numbers of
    the cell's nodes and components, variable by variable, node-major. *)
Theorem C21_assembly_gather :
  forall (K : CRing) (L : layout) (sol : list K) (conn : list (list nat)),
  length sol = total_dofs L -> length conn = length L ->
  (forall i nd, i < length L -> In nd (nth i conn []) -> nd < fst (nth i L (0, 0))) ->
  cell_sol_flat (unflatten L sol) conn = map (get sol) (cell_dofs L conn) /\
  cell_dofs L conn =
    flat_map (fun i => flat_map (fun nd => map (fun c => dof L i nd c) (seq 0 (snd (nth i L (0, 0)))))
                                (nth i conn []))
             (seq 0 (length L)) /\
  (forall k, In k (cell_dofs L conn) -> k < total_dofs L).
Proof.
  intros K L sol conn Hl Hc Hn.
  assert (E : cell_dofs L conn =
    flat_map (fun i => flat_map (fun nd => map (fun c => dof L i nd c) (seq 0 (snd (nth i L (0, 0)))))
                                (nth i conn [])) (seq 0 (length L))).
  { unfold cell_dofs, elem_dofs.
    rewrite (combine_as_map (combine (map snd L) (dof_offsets L)) conn (0,0) []).
    2:{ rewrite combine_length, map_length, dof_offsets_length. lia. }
    rewrite combine_length, map_length, dof_offsets_length, Nat.min_id.
    rewrite !flat_map_concat_map, map_map. f_equal. apply map_ext_in. intros i Hi. apply in_seq in Hi.
    cbn [fst snd]. rewrite combine_nth by (rewrite map_length, dof_offsets_length; reflexivity).
    cbn [fst snd]. rewrite nth_map_in with (d := (0,0)) by lia. rewrite nth_dof_offsets by lia.
    unfold var_dofs. rewrite !flat_map_concat_map. f_equal. apply map_ext. intros nd. apply map_ext.
    intros c. unfold dof. lia. }
  split; [|split; [exact E|]].
  - apply cell_sol_flat_dofs; assumption.
  - rewrite E. intros k Hk. apply in_flat_map in Hk. destruct Hk as [i [Hi Hk]]. apply in_seq in Hi.
    apply in_flat_map in Hk. destruct Hk as [nd [Hnd Hk]]. apply in_map_iff in Hk. destruct Hk as [c [<- Hc']].
    apply in_seq in Hc'. apply dof_lt. repeat split; try lia. apply Hn; [lia | exact Hnd].
Qed.
Print Assumptions C21_assembly_gather.

(** Displacement (2 components, 3 nodes) and pressure (1 component, 2 nodes). *)
Example C21_example :
  field [(3, 2); (2, 1)] [10;11;20;21;30;31;7;8] 1%Z = Ok [[7]; [8]] /\
  node_var 0 [(3, 2); (2, 1)] [10;11;20;21;30;31;7;8] (Some 1) 0%Z = Ok [11; 21; 31] /\
  cell_dofs [(3, 2); (2, 1)] [[2; 0]; [1]] = [4; 5; 0; 1; 7] /\
  cell_sol_flat (unflatten [(3, 2); (2, 1)] [10;11;20;21;30;31;7;8]) [[2; 0]; [1]] = [30; 31; 10; 11; 8].
Proof. vm_compute. auto. Qed.
