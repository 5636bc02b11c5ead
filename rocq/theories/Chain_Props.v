(** C119: chaining solvers: what the next problem sees of a solved field. *)
From Coq Require Import List Arith Lia ZArith.
From Verif Require Import Base Csr_Model Assembly_Model Dof_Model Dof_Spec Dof_Proofs Dof_Props Params_Model Params_Props Chain_Model.
Import ListNotations.

(** ** Specification *)
(** [k] is the component that a (possibly negative) component number selects among [v]. *)
Definition component_of (v : nat) (c : Z) (k : nat) : Prop := k < v /\ (c = Z.of_nat k \/ c = Z.of_nat k - Z.of_nat v)%Z.

(** Values of component [k] of variable [i] of a solution at the quadrature point [q] of cell [c], for the element [f]: the interpolation
    of the solution's own degrees of freedom. *)
Definition field_value (K : CRing) (f : fe K) (L : layout) (sol : list K) (i k c q : nat) : K :=
  sumf (fun a => cmul (get (nth q (f_shape K f) []) a) (get sol (dof L i (nth a (nth c (f_cells K f) []) 0) k))) (seq 0 (f_npe K f)).

(** ** Theorems *)

(** The bridge reads one value per node, from that node's degree of freedom; numbers of variables and components count from the end when
    negative; a vector field without a component, or a variable that does not exist, is an error. *)
Theorem C119_bridge :
  forall (A : Type) (d : A) (L : layout) (sol : list A), length sol = total_dofs L ->
  (forall j i c k, index_of (length L) j i -> let n := fst (nth i L (0, 0)) in let v := snd (nth i L (0, 0)) in
     (v = 1 /\ k = 0 \/ v <> 1 /\ exists z, c = Some z /\ component_of v z k) ->
     exists l, node_var_from_solution d L sol c j = Ok l /\ length l = n /\ forall a, a < n -> nth a l d = nth (dof L i a k) sol d) /\
  (forall j i, index_of (length L) j i -> snd (nth i L (0, 0)) <> 1 -> node_var_from_solution d L sol None j = ValueError) /\
  (forall j c, (forall i, ~ index_of (length L) j i) -> node_var_from_solution d L sol c j = IndexError).
Proof.
  intros A d L sol Hl. split; [|split].
  - intros j i c k HI n v Hk. pose proof HI as HP. apply py_index_spec in HP. unfold node_var_from_solution. rewrite HP.
    assert (Hi : i < length L) by (destruct HI as [H _]; exact H).
    destruct (proj2 (C21_field d L sol Hl) i Hi) as (u & _ & U & Ln & _ & Hent). rewrite U. fold v.
    assert (G : k < v -> length (map (fun row => nth k row d) u) = n /\ forall a, a < n -> nth a (map (fun row => nth k row d) u) d = nth (dof L i a k) sol d).
    { intros Hv. rewrite map_length. split; [exact Ln|]. intros a Ha. rewrite nth_map_in with (d := @nil A) by (rewrite Ln; exact Ha). apply Hent. repeat split; assumption. }
    destruct Hk as [[Ev ->]|(Ev & z & -> & Hkv & Hz)].
    + rewrite (proj2 (Nat.eqb_eq v 1) Ev). eexists. split; [reflexivity|]. apply G. lia.
    + rewrite (proj2 (Nat.eqb_neq v 1) Ev).
      assert (E : (if (z <? 0)%Z then Z.to_nat (z + Z.of_nat v) else Nat.min (Z.to_nat z) (v - 1)) = k) by (destruct (Z.ltb_spec z 0); destruct Hz; lia).
      rewrite E. eexists. split; [reflexivity|]. apply G. exact Hkv.
  - intros j i HI Ev. apply py_index_spec in HI. unfold node_var_from_solution. rewrite HI, (proj2 (Nat.eqb_neq _ 1) Ev). reflexivity.
  - intros j c H. unfold node_var_from_solution. destruct (py_index (length L) j) as [i|] eqn:E; [|reflexivity]. apply py_index_spec in E. exfalso. exact (H i E).
Qed.
Print Assumptions C119_bridge.

(** The method of a returned solution and the bridge give the same array for a variable counted from the front. *)
Theorem C119_same :
  forall (A : Type) (d : A) (L : layout) (sol : list A) i (k : option nat), length sol = total_dofs L -> i < length L ->
  (forall c, k = Some c -> c < snd (nth i L (0, 0))) ->
  node_var_from_solution d L sol (option_map Z.of_nat k) (Z.of_nat i) = node_var d L sol k (Z.of_nat i).
Proof.
  intros A d L sol i k Hl Hi Hk. unfold node_var_from_solution, node_var. assert (HP : py_index (length L) (Z.of_nat i) = Some i) by (apply py_index_spec; split; [exact Hi|left; reflexivity]).
  rewrite HP. destruct (proj2 (C21_field d L sol Hl) i Hi) as (u & E & U & _). rewrite E, U, Nat2Z.id. destruct (snd (nth i L (0, 0)) =? 1); [reflexivity|].
  destruct k as [c|]; [|reflexivity]. specialize (Hk c eq_refl). cbn [option_map]. destruct (Z.ltb_spec (Z.of_nat c) 0); [lia|].
  replace (Nat.min (Z.to_nat (Z.of_nat c)) (snd (nth i L (0, 0)) - 1)) with c by lia. reflexivity.
Qed.
Print Assumptions C119_same.

(** Counted from the end, the two disagree: the bridge takes the last variable, the method refuses. *)
Theorem C119_negative_refuted :
  exists (L : layout) (sol : list nat), length sol = total_dofs L /\
    node_var_from_solution 0 L sol None (-1) = Ok [5; 6] /\ node_var 0 L sol None (-1) = IndexError.
Proof. exists [(2, 2); (2, 1)], [1; 2; 3; 4; 5; 6]. repeat split. Qed.
Print Assumptions C119_negative_refuted.

(** What the kernels of the next problem see: at every quadrature point of every cell, the solved field itself, interpolated with the
    element of the (first) variable of the next problem that has as many nodes as the field; provided the mesh does not have as many
    cells as nodes. *)
Theorem C119_chain :
  forall (K : CRing) (P : problem K) (L : layout) (sol : list K) j i k z w c,
  length sol = total_dofs L -> index_of (length L) j i ->
  (snd (nth i L (0, 0)) = 1 /\ k = 0 \/ snd (nth i L (0, 0)) <> 1 /\ exists y, z = Some y /\ component_of (snd (nth i L (0, 0))) y k) ->
  good K P -> first_with K P (fst (nth i L (0, 0))) w -> fst (nth i L (0, 0)) <> p_ncells K P -> c < p_ncells K P ->
  exists l vals, node_var_from_solution c0 L sol z j = Ok l /\ quad_values K P (A1 K l) c = Some vals /\ length vals = num_quads K P /\
    forall q, q < num_quads K P -> nth q vals (QV K []) = QS K (field_value K (fe_at K P w) L sol i k c q).
Proof.
  intros K P L sol j i k z w c Hl HI Hk G F N Hc. destruct (proj1 (C119_bridge K c0 L sol Hl) j i z k HI Hk) as (l & E & Ll & V). rewrite <- Ll in F, N.
  destruct (C20_node K P l w c G F N Hc) as (vals & Q & LQ & H). exists l, vals. split; [exact E|]. split; [exact Q|]. split; [exact LQ|].
  intros q Hq. rewrite (H q Hq). f_equal. unfold interpolated, field_value. apply sumf_ext. intros a Ha. apply in_seq in Ha. f_equal. unfold get. apply V.
  destruct F as (Lw & Nw & _). destruct (proj2 G _ (fe_in K P w Lw)) as (A & B & _). assert (R := nth_In (f_cells K (fe_at K P w)) [] (n := c)). rewrite A in R. specialize (R Hc).
  destruct (B _ R) as [W Vn]. rewrite <- Ll, <- Nw. apply Vn, nth_In. lia.
Qed.
Print Assumptions C119_chain.

(** With as many cells as nodes (a closed ring of three bars) the field is not interpolated. *)
Theorem C119_ring_refuted :
  exists (P : problem ZK) (sol : list Z) l, good ZK P /\ first_with ZK P 3 0 /\ node_var_from_solution 0%Z [(3, 1)] sol None 0 = Ok l /\
    quad_values ZK P (A1 ZK l) 0 <> Some (map (fun q => QS ZK (field_value ZK (fe_at ZK P 0) [(3, 1)] sol 0 0 0 q)) (seq 0 (num_quads ZK P))).
Proof.
  exists ring3, [7; 8; 9]%Z, [7; 8; 9]%Z. split.
  - split; [discriminate|]. intros f [<-|[]]. split; [reflexivity|]. split; [|split; [|reflexivity]].
    + intros c [<-|[<-|[<-|[]]]]; (split; [reflexivity|]); intros n; cbn; lia.
    + intros r [<-|[<-|[]]]; reflexivity.
  - split; [split; [cbn; lia|]; split; [reflexivity|]; intros j Hj; lia|]. split; [reflexivity|]. vm_compute. discriminate.
Qed.
Print Assumptions C119_ring_refuted.

(** ** Concrete case: a displacement with two components and a pressure on a quadratic and a linear mesh of two bars; the second component of
    the displacement drives the next problem. *)
Example C119_example :
  let P : problem ZK := {| p_fes := [ {| f_nodes := 5; f_npe := 3; f_cells := [[0; 1; 3]; [1; 2; 4]]; f_shape := [[1; 0; 0]; [0; 0; 1]]%Z |} ]; p_ncells := 2 |} in
  let L := [(5, 2); (3, 1)] in let sol := [1; 10; 2; 20; 3; 30; 4; 40; 5; 50; 6; 7; 8]%Z in
  length sol = total_dofs L /\ index_of 2 0 0 /\ component_of 2 (-1) 1 /\ good ZK P /\ first_with ZK P 5 0 /\
  node_var_from_solution 0%Z L sol (Some (-1)%Z) 0 = Ok [10; 20; 30; 40; 50]%Z /\
  quad_values ZK P (A1 ZK [10; 20; 30; 40; 50]%Z) 1 = Some [QS ZK 20%Z; QS ZK 50%Z].
Proof.
  cbv zeta. split; [reflexivity|]. split; [split; [lia|left; reflexivity]|]. split; [split; [lia|right; reflexivity]|]. split.
  { split; [discriminate|]. intros f [<-|[]]; (split; [reflexivity|]); (split; [|split; [|reflexivity]]).
    - intros c [<-|[<-|[]]]; (split; [reflexivity|]); intros n; cbn; lia.
    - intros r [<-|[<-|[]]]; reflexivity. }
  split; [split; [cbn; lia|]; split; [reflexivity|]; intros j Hj; lia|]. split; reflexivity.
Qed.
