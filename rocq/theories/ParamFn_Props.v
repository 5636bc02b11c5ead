(** C128: parameter fields built from a function of the position take the values of that function. *)
From Coq Require Import ZArith QArith Qcanon Bool List Arith Lia.
From Verif Require Import Base Dof_Model Params_Model Params_Props ParamFn_Model.
Import ListNotations.
Local Close Scope Q_scope.
Local Close Scope Qc_scope.

Section P.
  Variable K : CRing.
  Local Open Scope ring_K.
  Add Ring KringPF : (cth K).

  (** A function that is affine in the [dim] coordinates. *)
  Definition affine (dim : nat) (fn : list K -> K) : Prop :=
    exists (a0 : K) (a : nat -> K), forall x, length x = dim -> fn x = a0 + sumf (fun k => a k * get x k) (seq 0 dim).
  (** The shape functions of every quadrature point add up to one. *)
  Definition sums_to_one (f : fe K) : Prop := forall r, In r (f_shape K f) -> sumf (fun a => get r a) (seq 0 (f_npe K f)) = 1.
  (** [ninv n] is one over [n]. *)
  Definition ofnat (n : nat) : K := sumf (fun _ => 1) (seq 0 n).
  Definition inverts (ninv : nat -> K) (n : nat) : Prop := ofnat n * ninv n = 1.

  (** [x] is the position of quadrature point [q] of cell [c], or of quadrature point [q] of face [g] of cell [c]: the nodes of the cell weighted with the shape functions there. *)
  Definition at_quad (dim : nat) (f : fe K) (pts : list (list K)) (c q : nat) (x : list K) : Prop :=
    length x = dim /\ forall k, (k < dim)%nat ->
      get x k = sumf (fun a => get (nth q (f_shape K f) []) a * get (nth (nth a (nth c (f_cells K f) []) 0%nat) pts []) k) (seq 0 (f_npe K f)).
  Definition at_face_quad (dim : nat) (f : fe K) (fsv : nat -> nat -> nat -> K) (pts : list (list K)) (c g q : nat) (x : list K) : Prop :=
    length x = dim /\ forall k, (k < dim)%nat ->
      get x k = sumf (fun a => fsv g q a * get (nth (nth a (nth c (f_cells K f) []) 0%nat) pts []) k) (seq 0 (f_npe K f)).

  Lemma get_tab (g : nat -> K) n k : (k < n)%nat -> get (map g (seq 0 n)) k = g k.
  Proof. intros H. unfold get. rewrite (nth_map_in _ _ 0%nat 0) by (rewrite seq_length; exact H). rewrite seq_nth by exact H. reflexivity. Qed.

  Lemma quad_position_at dim f pts c q : at_quad dim f pts c q (quad_position K dim f pts c q).
  Proof. split; [unfold quad_position; rewrite map_length, seq_length; reflexivity|]. intros k Hk. unfold quad_position. rewrite get_tab by exact Hk. reflexivity. Qed.
  Lemma face_position_at dim f fsv pts b q : at_face_quad dim f fsv pts (fst b) (snd b) q (face_position K dim f fsv pts b q).
  Proof. split; [unfold face_position; rewrite map_length, seq_length; reflexivity|]. intros k Hk. unfold face_position. rewrite get_tab by exact Hk. reflexivity. Qed.
  Lemma at_quad_unique dim f pts c q x y : at_quad dim f pts c q x -> at_quad dim f pts c q y -> x = y.
  Proof. intros [L G] [L' G']. apply (nth_ext _ _ 0 0); [congruence|]. intros k Hk. fold (get x k). fold (get y k). rewrite G, G' by lia. reflexivity. Qed.
  Lemma at_face_unique dim f fsv pts c g q x y : at_face_quad dim f fsv pts c g q x -> at_face_quad dim f fsv pts c g q y -> x = y.
  Proof. intros [L G] [L' G']. apply (nth_ext _ _ 0 0); [congruence|]. intros k Hk. fold (get x k). fold (get y k). rewrite G, G' by lia. reflexivity. Qed.

  (** An affine function at a weighted combination of points. *)
  Lemma affine_comb dim fn (w : nat -> K) (x : nat -> list K) n :
    affine dim fn -> (forall a, (a < n)%nat -> length (x a) = dim) -> sumf w (seq 0 n) = 1 ->
    fn (map (fun k => sumf (fun a => w a * get (x a) k) (seq 0 n)) (seq 0 dim)) = sumf (fun a => w a * fn (x a)) (seq 0 n).
  Proof.
    intros (a0 & a & F) L W. rewrite F by (rewrite map_length, seq_length; reflexivity).
    rewrite (sumf_ext _ _ (fun k => sumf (fun b => w b * (a k * get (x b) k)) (seq 0 n))).
    2:{ intros k Hk. apply in_seq in Hk. rewrite get_tab by lia. rewrite <- sumf_mul_l. apply sumf_ext. intros b _. ring. }
    rewrite sumf_swap. rewrite (sumf_ext K (fun a1 => w a1 * fn (x a1)) (fun b => a0 * w b + sumf (fun k => w b * (a k * get (x b) k)) (seq 0 dim))).
    2:{ intros b Hb. apply in_seq in Hb. rewrite F by (apply L; lia). rewrite (sumf_mul_l K (w b)). ring. }
    rewrite sumf_add, (sumf_mul_l K a0 w), W. ring.
  Qed.

  (** Points of variable [f]: one per node, [dim] coordinates each. *)
  Definition points_of (dim : nat) (f : fe K) (pts : list (list K)) : Prop := length pts = f_nodes K f /\ forall p, In p pts -> length p = dim.

  (** Node values of an affine function: every quadrature point of every cell receives the value of the function at its position. *)
  Theorem C128_node :
    forall (dim : nat) (P : problem K) (pts : list (list K)) (i : nat) (fn : list K -> K) (c : nat),
    good K P -> points_of dim (fe_at K P i) pts -> first_with K P (length pts) i -> length pts <> p_ncells K P -> (c < p_ncells K P)%nat ->
    sums_to_one (fe_at K P i) ->
    exists vals, quad_values K P (node_var_from_fn K pts fn) c = Some vals /\ length vals = num_quads K P /\
      (affine dim fn -> forall q x, (q < num_quads K P)%nat -> at_quad dim (fe_at K P i) pts c q x -> nth q vals (QV K []) = QS K (fn x)).
  Proof.
    intros dim P pts i fn c G [_ PL] F N Hc S1. unfold node_var_from_fn.
    destruct (C20_node K P (map fn pts) i c G) as (vals & E & L & V); [rewrite map_length; exact F|rewrite map_length; exact N|exact Hc|].
    exists vals. split; [exact E|]. split; [exact L|]. intros A q x Hq Hx. rewrite (at_quad_unique _ _ _ _ _ _ _ Hx (quad_position_at _ _ _ _ _)). rewrite (V q Hq). f_equal.
    destruct G as [_ G]. assert (Gi := G _ (fe_in K P i (proj1 F))). pose proof Gi as Gi'. destruct Gi' as (_ & B & _ & Q).
    destruct (B _ (cell_row K P _ c Gi Hc)) as [W M]. destruct F as (_ & Fn & _).
    assert (In1 : forall a, (a < f_npe K (fe_at K P i))%nat -> (nth a (nth c (f_cells K (fe_at K P i)) []) 0 < length pts)%nat).
    { intros a Ha. rewrite <- Fn. apply M, nth_In. lia. }
    unfold quad_position, corner.
    rewrite (affine_comb dim fn (fun a => get (nth q (f_shape K (fe_at K P i)) []) a) (fun a => nth (nth a (nth c (f_cells K (fe_at K P i)) []) 0%nat) pts []) _ A).
    - unfold interpolated. apply sumf_ext. intros a Ha. apply in_seq in Ha. f_equal. unfold get. apply nth_map_in. apply In1. lia.
    - intros a Ha. apply PL, nth_In, In1, Ha.
    - apply S1, nth_In. rewrite Q. exact Hq.
  Qed.

  (** Cell values: every quadrature point of a cell receives the value at the mean of the cell's nodes; for an affine function this is the mean of its values at the nodes. *)
  Theorem C128_cell :
    forall (dim : nat) (ninv : nat -> K) (P : problem K) (pts : list (list K)) (i : nat) (fn : list K -> K) (c : nat),
    good K P -> (i < length (p_fes K P))%nat -> points_of dim (fe_at K P i) pts -> none_with K P (p_ncells K P) -> (c < p_ncells K P)%nat ->
    inverts ninv (f_npe K (fe_at K P i)) ->
    let cell := nth c (f_cells K (fe_at K P i)) [] in
    exists v, quad_values K P (cell_var_from_fn K dim ninv (fe_at K P i) pts fn) c = Some (repeat (QS K v) (num_quads K P)) /\
      (exists x, v = fn x /\ length x = dim /\ forall k, (k < dim)%nat -> ofnat (f_npe K (fe_at K P i)) * get x k = sumf (fun n => get (nth n pts []) k) cell) /\
      (affine dim fn -> ofnat (f_npe K (fe_at K P i)) * v = sumf (fun n => fn (nth n pts [])) cell).
  Proof.
    intros dim ninv P pts i fn c G Hi [PN PL] N Hc I cell. pose proof G as [_ G2]. assert (Gi := G2 _ (fe_in K P i Hi)).
    pose proof Gi as Gi'. destruct Gi' as (Nc & B & _ & _). destruct (B _ (cell_row K P _ c Gi Hc)) as [W M]. fold cell in W, M.
    exists (fn (mean_position K dim ninv pts cell)).
    assert (SQ : forall (g : nat -> K), sumf g cell = sumf (fun a => g (nth a cell 0%nat)) (seq 0 (length cell))).
    { intros g. generalize cell as l. induction l as [|n l IH]; [reflexivity|]. cbn [sumf length seq nth]. rewrite IH, <- seq_shift, sumf_map. reflexivity. }
    split; [|split].
    - unfold cell_var_from_fn. rewrite C20_cell by (try assumption; rewrite map_length; exact Nc). f_equal. f_equal. f_equal. unfold get.
      rewrite (nth_map_in _ _ [] 0) by (rewrite Nc; exact Hc). reflexivity.
    - exists (mean_position K dim ninv pts cell). split; [reflexivity|]. split; [unfold mean_position; rewrite map_length, seq_length; reflexivity|].
      intros k Hk. unfold mean_position. rewrite get_tab by exact Hk. rewrite (SQ (fun n => get (nth n pts []) k)), W.
      unfold corner. unfold inverts in I. set (s := sumf _ _). transitivity (ofnat (f_npe K (fe_at K P i)) * ninv (f_npe K (fe_at K P i)) * s); [ring|]. rewrite I. ring.
    - intros A. assert (E : mean_position K dim ninv pts cell =
        map (fun k => sumf (fun a => (fun _ => ninv (length cell)) a * get ((fun a => nth (nth a cell 0%nat) pts []) a) k) (seq 0 (length cell))) (seq 0 dim)).
      { unfold mean_position, corner. apply map_ext. intros k. rewrite <- sumf_mul_l. reflexivity. }
      rewrite E, (affine_comb dim fn (fun _ => ninv (length cell)) (fun a => nth (nth a cell 0%nat) pts []) _ A).
      + rewrite (sumf_mul_l K (ninv (length cell))), (SQ (fun n => fn (nth n pts []))), W. unfold inverts in I. set (s := sumf _ _).
        transitivity (ofnat (f_npe K (fe_at K P i)) * ninv (f_npe K (fe_at K P i)) * s); [ring|]. rewrite I. ring.
      + intros a Ha. apply PL, nth_In. rewrite PN. apply M, nth_In. exact Ha.
      + rewrite W. unfold inverts, ofnat in I. rewrite <- I. rewrite <- sumf_mul_r. apply sumf_ext. intros; ring.
  Qed.

  (** Quadrature values: for every function, the value at the position of the quadrature point; and the face quadrature points for surface variables. *)
  Theorem C128_volume :
    forall (dim : nat) (P : problem K) (pts0 : list (list K)) (fn : list K -> K) (c : nat),
    good K P -> none_with K P (p_ncells K P) -> (c < p_ncells K P)%nat ->
    exists vals, quad_values K P (volume_var_from_fn K dim P pts0 fn) c = Some vals /\ length vals = num_quads K P /\
      forall q x, (q < num_quads K P)%nat -> at_quad dim (fe_at K P 0) pts0 c q x -> nth q vals (QV K []) = QS K (fn x).
  Proof.
    intros dim P pts0 fn c G N Hc. unfold volume_var_from_fn. set (rows := map _ (seq 0 (p_ncells K P))).
    destruct (C20_quad K P rows c G) as (vals & E & L & V); try assumption.
    - unfold rows. rewrite map_length, seq_length. reflexivity.
    - intros r Hr. unfold rows in Hr. apply in_map_iff in Hr. destruct Hr as (c' & <- & _). rewrite map_length, seq_length. reflexivity.
    - exists vals. split; [exact E|]. split; [exact L|]. intros q x Hq Hx. rewrite (at_quad_unique _ _ _ _ _ _ _ Hx (quad_position_at _ _ _ _ _)). rewrite (V q Hq). f_equal. unfold rows.
      rewrite (nth_map_in _ _ 0%nat []) by (rewrite seq_length; exact Hc). rewrite seq_nth by exact Hc. rewrite get_tab by exact Hq. reflexivity.
  Qed.

  Theorem C128_surface :
    forall (dim : nat) (P : problem K) (fsv : nat -> nat -> nat -> K) (nfq : nat) (pts0 : list (list K)) (bnd : list (nat * nat)) (fn : list K -> K) (x : K),
    let v := surface_var_from_fn K dim P fsv nfq pts0 bnd fn in
    length v = length bnd /\ (forall r, In r v -> length r = nfq) /\
    (forall s q cell face x, nth_error bnd s = Some (cell, face) -> (q < nfq)%nat -> at_face_quad dim (fe_at K P 0) fsv pts0 cell face q x -> get (nth s v []) q = fn x) /\
    ((forall y, fn y = x) -> v = uniform_surface_var K nfq bnd x).
  Proof.
    intros dim P fsv nfq pts0 bnd fn x v. unfold v, surface_var_from_fn. split; [apply map_length|]. split; [|split].
    - intros r Hr. apply in_map_iff in Hr. destruct Hr as (b & <- & _). rewrite map_length, seq_length. reflexivity.
    - intros s q cell face y Hn Hq Hy. assert (Hs : (s < length bnd)%nat) by (apply nth_error_Some; congruence). apply nth_error_nth with (d := (0, 0)%nat) in Hn.
      rewrite (nth_map_in _ _ (0, 0)%nat []) by exact Hs. rewrite get_tab by exact Hq. rewrite Hn. f_equal. apply (at_face_unique dim (fe_at K P 0) fsv pts0 cell face q); [|exact Hy].
      exact (face_position_at dim (fe_at K P 0) fsv pts0 (cell, face) q).
    - intros C. unfold uniform_surface_var. assert (R : repeat x nfq = map (fun _ => x) (seq 0 nfq)) by (generalize 0%nat; induction nfq as [|n IH]; intros s; [reflexivity|cbn; rewrite <- IH; reflexivity]).
      induction bnd as [|b t IH]; [reflexivity|]. cbn [map length repeat]. rewrite IH. f_equal. rewrite R. apply map_ext. intros q. apply C.
  Qed.
End P.
Print Assumptions C128_node.
Print Assumptions C128_cell.
Print Assumptions C128_volume.
Print Assumptions C128_surface.

(** Two 2-node bars on the nodes 0, 2, 4, one quadrature point in the middle of each. *)
Definition QcP : CRing := {| cth := Qcrt |}.
Definition hf : Qc := Q2Qc (1 # 2).
Definition qz (z : Z) : Qc := Q2Qc (inject_Z z).
Definition bars : problem QcP := {| p_fes := [ {| f_nodes := 3; f_npe := 2; f_cells := [[0; 1]; [1; 2]]; f_shape := [[hf; hf] : list QcP] |} ]; p_ncells := 2 |}.
Definition bar_pts : list (list QcP) := [[qz 0 : QcP]; [qz 2 : QcP]; [qz 4 : QcP]].
Lemma bars_good : good QcP bars /\ points_of QcP 1 (fe_at QcP bars 0) bar_pts /\ first_with QcP bars 3 0 /\ none_with QcP bars 2 /\
  sums_to_one QcP (fe_at QcP bars 0) /\ inverts QcP (fun _ => hf) 2.
Proof.
  split; [|split; [|split; [|split; [|split]]]].
  - split; [discriminate|]. intros f [<-|[]]. split; [reflexivity|]. split; [|split; [|reflexivity]].
    + intros c [<-|[<-|[]]]; (split; [reflexivity|]); intros n; cbn; lia.
    + intros r [<-|[]]; reflexivity.
  - split; [reflexivity|]. intros p [<-|[<-|[<-|[]]]]; reflexivity.
  - split; [cbn; lia|]. split; [reflexivity|]. intros j Hj. lia.
  - intros f [<-|[]]. discriminate.
  - intros r [<-|[]]. apply Qc_is_canon. reflexivity.
  - apply Qc_is_canon. reflexivity.
Qed.

(** The node values of a function that is not affine are interpolated, not evaluated: for the square, the middle of the second bar (position 3) receives 10 instead of 9;
    the quadrature and the cell constructors give 9 there. *)
Theorem C128_node_curved_refuted :
  exists (P : problem QcP) (pts : list (list QcP)) (fn : list QcP -> QcP) (c q : nat),
  good QcP P /\ points_of QcP 1 (fe_at QcP P 0) pts /\ first_with QcP P (length pts) 0 /\ length pts <> p_ncells QcP P /\ sums_to_one QcP (fe_at QcP P 0) /\
  c < p_ncells QcP P /\ q < num_quads QcP P /\
  exists vals x, quad_values QcP P (node_var_from_fn QcP pts fn) c = Some vals /\ at_quad QcP 1 (fe_at QcP P 0) pts c q x /\ nth q vals (QV QcP []) <> QS QcP (fn x).
Proof.
  exists bars, bar_pts, (fun x => cmul (get x 0) (get x 0)), 1, 0. destruct bars_good as (A & B & C & _ & D & _).
  split; [exact A|]. split; [exact B|]. split; [exact C|]. split; [discriminate|]. split; [exact D|]. split; [cbn; lia|]. split; [cbn; lia|].
  eexists. exists (quad_position QcP 1 (fe_at QcP bars 0) bar_pts 1 0). split; [reflexivity|]. split; [apply quad_position_at|]. intros E. injection E as E. discriminate E.
Qed.
Print Assumptions C128_node_curved_refuted.

(** The hypotheses are met: 3 + 2 x in the middle of the second bar. *)
Example C128_example :
  let fn := fun x : list QcP => cadd (qz 3 : QcP) (cmul (qz 2 : QcP) (get x 0)) in
  good QcP bars /\ points_of QcP 1 (fe_at QcP bars 0) bar_pts /\ first_with QcP bars 3 0 /\ none_with QcP bars 2 /\ sums_to_one QcP (fe_at QcP bars 0) /\ inverts QcP (fun _ => hf) 2 /\
  affine QcP 1 fn /\
  quad_values QcP bars (node_var_from_fn QcP bar_pts fn) 1 = Some [QS QcP (qz 9)] /\
  quad_values QcP bars (cell_var_from_fn QcP 1 (fun _ => hf) (fe_at QcP bars 0) bar_pts fn) 1 = Some [QS QcP (qz 9)] /\
  quad_values QcP bars (volume_var_from_fn QcP 1 bars bar_pts fn) 1 = Some [QS QcP (qz 9)].
Proof.
  cbv zeta. destruct bars_good as (A & B & C & D & E & F). repeat (split; [assumption|]). split.
  - exists (qz 3 : QcP), (fun _ => qz 2 : QcP). intros x Hx. cbn [seq sumf]. match goal with |- @eq _ ?l ?r => change (@eq Qc l r) end. cbn. ring.
  - cbn. repeat split; do 3 f_equal; apply Qc_is_canon; reflexivity.
Qed.
