(** C84: what the layered element with per-cell plies is built from, and that it is the flat laminate when every cell has the same plies. *)
From Coq Require Import Reals List Arith Bool Lia Lra.
From Verif Require Import Tmc_Model Tmc_Props Adaptive_Model Adaptive_Props Layered_Model LayeredRot_Props LayeredQuad_Props LayeredElem_Props Oriented_Model.
Import ListNotations.
Open Scope R_scope.

Lemma expand_at {A} (d d' : A) gi gz thick per n q : nth_error (layered_quadrature gi gz thick) n = Some q -> (q_ply q < length per)%nat ->
  nth n (expand_plies d gi gz thick per) d' = nth (q_ply q) per d'.
Proof. intros E L. unfold expand_plies. rewrite (nth_error_nth _ n d' (map_nth_error _ n _ E)). apply nth_indep. exact L. Qed.
Lemma ply_lt gi gz thick n q : nth_error (layered_quadrature gi gz thick) n = Some q -> (q_ply q < length thick)%nat.
Proof.
  intros E. apply nth_error_In in E. unfold layered_quadrature in E. apply in_flat_map in E. destruct E as (k & Hk & E). apply in_seq in Hk.
  unfold ply_points in E. apply in_flat_map in E. destruct E as (z & _ & E). apply in_flat_map in E. destruct E as (x & _ & E). apply in_map_iff in E. destruct E as (y & <- & _). cbn. lia.
Qed.

(** Arrays of shape (cells, plies, ...). *)
Definition rect {A} (n : nat) (rows : list (list A)) : Prop := forall r, In r rows -> length r = n.

(** The factory refuses other elements, a number of thicknesses that is not the number of plies and, with thermal coupling, expansion data of another shape.
    Otherwise point n of cell c gets the stiffness of that cell's ply at the point, and with thermal coupling the expansion of that ply (zero by default);
    without thermal coupling expansion data are not looked at. *)
Theorem C84_oriented :
  forall (gi gz : list (R * R)) (n_ply : nat) (C : list (list ten)) (thick : list R) (thermal : bool) (cte : option ((nat * nat) * list (list mat))),
  rect n_ply C -> (forall s rows, cte = Some (s, rows) -> length rows = fst s /\ rect (snd s) rows) ->
  create_oriented false gi gz n_ply C thick thermal cte = Unsupported /\
  (create_oriented true gi gz n_ply C thick thermal cte = BadShape <->
     length thick <> n_ply \/ (thermal = true /\ exists s rows, cte = Some (s, rows) /\ s <> (length C, n_ply))) /\
  (forall cq eth, create_oriented true gi gz n_ply C thick thermal cte = Built cq eth ->
     length cq = length C /\ (eth = None <-> thermal = false) /\
     forall c n q, (c < length C)%nat -> nth_error (layered_quadrature gi gz thick) n = Some q ->
       nth n (nth c cq []) zten = nth (q_ply q) (nth c C []) zten /\
       forall e, eth = Some e -> length e = length C /\
         nth n (nth c e []) zmat = match cte with Some (_, rows) => nth (q_ply q) (nth c rows []) zmat | None => zmat end).
Proof.
  intros gi gz n_ply C thick thermal cte RC RT. split; [reflexivity|]. unfold create_oriented. cbn [negb].
  destruct (Nat.eqb_spec (length thick) n_ply) as [L|L]; cbn [negb].
  2:{ split; [split; [left; exact L|reflexivity]|discriminate]. }
  assert (SH : forall s : nat * nat, ((fst s =? length C)%nat && (snd s =? n_ply)%nat)%bool = true <-> s = (length C, n_ply)).
  { intros [a b]. cbn. rewrite andb_true_iff, !Nat.eqb_eq. split; [intros [-> ->]; reflexivity|intros E; injection E; auto]. }
  assert (CQ : forall c n q, (c < length C)%nat -> nth_error (layered_quadrature gi gz thick) n = Some q ->
    nth n (nth c (map (expand_plies zten gi gz thick) C) []) zten = nth (q_ply q) (nth c C []) zten).
  { intros c n q Hc E. rewrite (nth_indep _ [] (expand_plies zten gi gz thick [])) by (rewrite map_length; exact Hc). rewrite map_nth.
    apply expand_at; [exact E|]. rewrite (RC (nth c C [])) by (apply nth_In; exact Hc). rewrite <- L. apply (ply_lt gi gz thick n), E. }
  destruct thermal.
  2:{ split; [split; [discriminate|intros [H|[H _]]; [contradiction|discriminate]]|]. intros cq eth E. injection E as <- <-. rewrite map_length. split; [reflexivity|].
      split; [tauto|]. intros c n q Hc Hn. split; [apply CQ; assumption|discriminate]. }
  destruct cte as [[[nc np] rows]|].
  - destruct (RT _ _ eq_refl) as [LR RR]. cbn [fst snd] in LR, RR. specialize (SH (nc, np)). cbn [fst snd] in SH.
    destruct ((nc =? length C)%nat && (np =? n_ply)%nat)%bool.
    + assert (E0 := proj1 SH eq_refl). split.
      * split; [discriminate|]. intros [H|(_ & s & r & E & N)]; [contradiction|]. injection E as <- _. contradiction.
      * intros cq eth E. injection E as <- <-. rewrite map_length. split; [reflexivity|]. split; [split; discriminate|]. intros c n q Hc Hn. split; [apply CQ; assumption|].
        intros e E. injection E as <-. injection E0 as -> ->. rewrite map_length. split; [exact LR|].
        rewrite (nth_indep _ [] (expand_plies zmat gi gz thick [])) by (rewrite map_length, LR; exact Hc). rewrite map_nth.
        apply expand_at; [exact Hn|]. rewrite (RR (nth c rows [])) by (apply nth_In; rewrite LR; exact Hc). rewrite <- L. apply (ply_lt gi gz thick n), Hn.
    + split; [|discriminate]. split; [|reflexivity]. intros _. right. split; [reflexivity|]. exists (nc, np), rows. split; [reflexivity|]. intros E. apply SH in E. discriminate E.
  - split; [split; [discriminate|intros [H|(_ & s & r & E & _)]; [contradiction|discriminate]]|]. intros cq eth E. injection E as <- <-. rewrite map_length. split; [reflexivity|].
    split; [split; discriminate|]. intros c n q Hc Hn. split; [apply CQ; assumption|]. intros e E. injection E as <-. rewrite map_length. split; [reflexivity|].
    set (z := map (fun _ => zmat) (layered_quadrature gi gz thick)). set (F := fun _ : list ten => z).
    rewrite (nth_indep _ [] (F [])) by (rewrite map_length; exact Hc). rewrite map_nth. unfold F, z. rewrite (nth_error_nth _ n zmat (map_nth_error (fun _ => zmat) n _ Hn)). reflexivity.
Qed.
Print Assumptions C84_oriented.

(** A laminate whose plies are turned alike in every cell: the element built from per-cell data has, in every cell, the stiffness table and hence the residual of the flat laminate. *)
Theorem C84_oriented_flat :
  forall (gi gz : list (R * R)) (p : plies) (angles thick : list R) (normal : nat -> R) (plies_rot : list ten) (cells : nat) (thermal : bool) (flat : list ten),
  rotated_plies p angles normal = Some plies_rot -> c_quad gi gz p angles thick normal = Some flat ->
  exists cq eth, create_oriented true gi gz (length angles) (repeat plies_rot cells) thick thermal None = Built cq eth /\
  forall c, (c < cells)%nat -> nth c cq [] = flat /\
    forall nn dN w X u a i,
      residual (length flat) nn dN w X (fun q => nth q (nth c cq []) zten) (option_map (fun e q => nth q (nth c e []) zmat) eth) u a i =
      residual (length flat) nn dN w X (fun q => nth q flat zten) None u a i.
Proof.
  intros gi gz p angles thick normal pr cells thermal flat HR HF. unfold c_quad in HF. destruct (Nat.eqb_spec (length thick) (length angles)) as [L|L]; [|discriminate HF].
  rewrite HR in HF. injection HF as HF. assert (X : expand_plies zten gi gz thick pr = flat) by exact HF.
  assert (B : forall c, (c < cells)%nat -> nth c (map (expand_plies zten gi gz thick) (repeat pr cells)) [] = flat).
  { intros c Hc. rewrite (nth_indep _ [] (expand_plies zten gi gz thick pr)) by (rewrite map_length, repeat_length; exact Hc). rewrite map_nth.
    rewrite <- X. f_equal. apply (repeat_spec cells). apply nth_In. rewrite repeat_length. exact Hc. }
  unfold create_oriented. cbn [negb]. rewrite L, Nat.eqb_refl. cbn [negb]. destruct thermal.
  - eexists. eexists. split; [reflexivity|]. intros c Hc. split; [apply B, Hc|]. intros. rewrite (B c Hc). cbn [option_map].
    rewrite <- (proj1 (C84_thermal (length flat) nn dN w X0 (fun q => nth q flat zten) u (fun _ _ => 0) (fun _ _ _ => 0) 0 a i)).
    unfold residual, residual_of. apply rs_ext. intros q Hq. apply rs_ext. intros j _. f_equal. f_equal. unfold stress. apply ddot_ext. intros k l _ _. f_equal.
    set (z := map (fun _ => zmat) (layered_quadrature gi gz thick)). set (F := fun _ : list ten => z).
    rewrite (nth_indep _ [] (F [])) by (rewrite map_length, repeat_length; exact Hc). rewrite map_nth. unfold F, z.
    assert (LZ : (q < length (layered_quadrature gi gz thick))%nat) by (rewrite <- X in Hq; unfold expand_plies in Hq; rewrite map_length in Hq; exact Hq).
    destruct (nth_error (layered_quadrature gi gz thick) q) as [y|] eqn:Y; [|apply nth_error_None in Y; lia].
    rewrite (nth_error_nth _ q zmat (map_nth_error (fun _ => zmat) q _ Y)). reflexivity.
  - eexists. eexists. split; [reflexivity|]. intros c Hc. split; [apply B, Hc|]. intros. rewrite (B c Hc). reflexivity.
Qed.
Print Assumptions C84_oriented_flat.

(** The hypotheses are met: a two-ply laminate on three cells. *)
Example C84_oriented_example :
  rect 2 [[zten; zten]; [zten; zten]; [zten; zten]] /\
  (exists pr flat, rotated_plies (OnePly zten) [0; 1] (fun i => if (i =? 2)%nat then 1 else 0) = Some pr /\
     c_quad [(0, 2)] [(0, 2)] (OnePly zten) [0; 1] [1; 3] (fun i => if (i =? 2)%nat then 1 else 0) = Some flat /\ length flat = 2%nat) /\
  create_oriented true [(0, 2)] [(0, 2)] 2 [[zten; zten]] [1] false None = BadShape.
Proof.
  split; [intros r [<-|[<-|[<-|[]]]]; reflexivity|]. split; [|reflexivity].
  eexists. eexists. split; [reflexivity|]. split; [reflexivity|]. reflexivity.
Qed.
