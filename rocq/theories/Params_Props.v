(** C19 and C20: the parameter container, and what a volume variable means. *)
From Coq Require Import ZArith Bool List Arith Ring Lia.
From Verif Require Import Base Dof_Model Dof_Spec Dof_Proofs Dof_Props Params_Model.
Import ListNotations.

(** ** C19 *)
Lemma nth_repeat_lt {A} (x d : A) n k : k < n -> nth k (repeat x n) d = x.
Proof. revert k; induction n as [|n IH]; intros [|k] H; cbn; try lia; auto. apply IH; lia. Qed.
Lemma map_repeat {A B} (f : A -> B) x n : map f (repeat x n) = repeat (f x) n.
Proof. induction n as [|n IH]; [reflexivity|]. cbn. rewrite IH. reflexivity. Qed.
Lemma fold_app {A} (ls : list (list A)) : forall acc, fold_left (fun acc t => acc ++ t) ls acc = acc ++ concat ls.
Proof. induction ls as [|x t IH]; intros acc; cbn; [rewrite app_nil_r; reflexivity|]. rewrite IH, app_assoc. reflexivity. Qed.
Lemma chunks_concat {A} (ls : list (list A)) : take_chunks (map (@length A) ls) (concat ls) = ls.
Proof.
  induction ls as [|x t IH]; [reflexivity|]. cbn [map concat take_chunks]. rewrite firstn_app, Nat.sub_diag, firstn_O, app_nil_r, firstn_all.
  rewrite skipn_app, Nat.sub_diag, skipn_all. cbn [app skipn]. rewrite IH. reflexivity.
Qed.
Lemma chunks_map {A B} (f : A -> B) cs : forall l, map (map f) (take_chunks cs l) = take_chunks cs (map f l).
Proof. induction cs as [|c t IH]; intros l; [reflexivity|]. cbn [take_chunks map]. rewrite IH, firstn_map, skipn_map. reflexivity. Qed.
Lemma concat_chunks {A} cs : forall l : list A, length l = fold_right Nat.add 0 cs -> concat (take_chunks cs l) = l /\ map (@length A) (take_chunks cs l) = cs.
Proof.
  induction cs as [|c t IH]; intros l H; cbn in H; [apply length_zero_iff_nil in H; subst; auto|].
  cbn [take_chunks concat map]. destruct (IH (skipn c l)) as [A1 A2]; [rewrite skipn_length; lia|].
  rewrite A1, A2, firstn_skipn, firstn_length, Nat.min_l by lia. auto.
Qed.

(** Leaves are the volume variables, then the surface variables surface by surface; flattening
    and rebuilding are inverse to each other; mapping a function over the leaves maps it over every
    entry and keeps the shape of the container. *)
Theorem C19_pytree :
  forall (A : Type) (p : params A),
    let '(leaves, aux) := tree_flatten p in
    leaves = volume_vars p ++ concat (surface_vars p) /\
    tree_unflatten aux leaves = p /\
    (forall (B : Type) (f : A -> B), tree_unflatten aux (map f leaves) =
       {| volume_vars := map f (volume_vars p); surface_vars := map (map f) (surface_vars p) |}) /\
    (forall leaves' : list A, length leaves' = length leaves -> tree_flatten (tree_unflatten aux leaves') = (leaves', aux)).
Proof.
  intros A p. unfold tree_flatten. cbv zeta beta iota. rewrite fold_app. split; [reflexivity|].
  assert (R : forall l, firstn (length (volume_vars p)) (volume_vars p ++ l) = volume_vars p /\ skipn (length (volume_vars p)) (volume_vars p ++ l) = l).
  { intros l. rewrite firstn_app, skipn_app, Nat.sub_diag, firstn_all, skipn_all, firstn_O, app_nil_r. auto. }
  unfold tree_unflatten. cbn [fst snd]. split; [destruct (R (concat (surface_vars p))) as [-> ->]; rewrite chunks_concat; destruct p; reflexivity|]. split.
  - intros B f. rewrite map_app. assert (M : length (volume_vars p) = length (map f (volume_vars p))) by (rewrite map_length; reflexivity). rewrite M.
    rewrite firstn_app, skipn_app, Nat.sub_diag, firstn_all, skipn_all, firstn_O, app_nil_r. cbn [app skipn]. rewrite <- chunks_map, chunks_concat. reflexivity.
  - intros l' Hl. rewrite app_length in Hl.
    assert (LC : length (concat (surface_vars p)) = fold_right Nat.add 0 (map (@length A) (surface_vars p))).
    { clear. induction (surface_vars p) as [|x t IH]; [reflexivity|]. cbn. rewrite app_length, IH. reflexivity. }
    destruct (concat_chunks (map (@length A) (surface_vars p)) (skipn (length (volume_vars p)) l')) as [C1 C2]; [rewrite skipn_length; lia|].
    cbn [volume_vars surface_vars]. rewrite fold_app, C1, C2, firstn_skipn, firstn_length, Nat.min_l by lia. reflexivity.
Qed.
Print Assumptions C19_pytree.

(** Python's index rule. *)
Definition index_of (n : nat) (i : Z) (k : nat) : Prop :=
  k < n /\ (i = Z.of_nat k \/ i = Z.of_nat k - Z.of_nat n)%Z.
Lemma py_index_spec n i k : py_index n i = Some k <-> index_of n i k.
Proof.
  unfold py_index, index_of. destruct ((0 <=? i)%Z && (i <? Z.of_nat n)%Z) eqn:E1.
  - apply andb_true_iff in E1. rewrite Z.leb_le, Z.ltb_lt in E1. split; [intros H; injection H as <-; lia|]. intros [H [-> | ->]]; [rewrite Nat2Z.id; reflexivity|lia].
  - destruct ((i <? 0)%Z && (- Z.of_nat n <=? i)%Z) eqn:E2.
    + apply andb_true_iff in E2. rewrite Z.leb_le, Z.ltb_lt in E2. split; [intros H; injection H as <-; lia|]. intros [H [-> | ->]]; [lia|]. f_equal. lia.
    + split; [discriminate|]. apply andb_false_iff in E1, E2. rewrite Z.leb_gt, Z.ltb_ge in E1. rewrite Z.leb_gt, Z.ltb_ge in E2. lia.
Qed.
Lemma py_index_none n i : py_index n i = None <-> forall k, ~ index_of n i k.
Proof.
  split.
  - intros H k Hk. apply py_index_spec in Hk. congruence.
  - intros H. destruct (py_index n i) as [k|] eqn:E; [|reflexivity]. exfalso. apply (H k), py_index_spec, E.
Qed.
(** Replacing volume variable i (Python indexing) changes that entry only; any other index is
    rejected. *)
Theorem C19_replace_volume :
  forall (A : Type) (d : A) (p : params A) i v,
    (forall k, index_of (length (volume_vars p)) i k ->
       exists q, replace_volume_var p i v = Some q /\ surface_vars q = surface_vars p /\
         length (volume_vars q) = length (volume_vars p) /\
         nth k (volume_vars q) d = v /\ forall j, j <> k -> nth j (volume_vars q) d = nth j (volume_vars p) d) /\
    ((forall k, ~ index_of (length (volume_vars p)) i k) -> replace_volume_var p i v = None).
Proof.
  intros A d p i v. unfold replace_volume_var, py_set. split.
  - intros k Hk. pose proof Hk as HI. apply py_index_spec in Hk. rewrite Hk. eexists. split; [reflexivity|]. cbn [volume_vars surface_vars].
    split; [reflexivity|]. split; [apply upd_length|]. destruct HI as [HI _]. split.
    + rewrite nth_upd, Nat.eqb_refl. destruct (Nat.ltb_spec k (length (volume_vars p))); [reflexivity|lia].
    + intros j Hj. rewrite nth_upd. destruct (Nat.eqb_spec k j); [congruence|reflexivity].
  - intros H. apply py_index_none in H. rewrite H. reflexivity.
Qed.
Print Assumptions C19_replace_volume.
Theorem C19_replace_surface :
  forall (A : Type) (d : A) (p : params A) s i v,
    (forall k m, index_of (length (surface_vars p)) s k -> index_of (length (nth k (surface_vars p) [])) i m ->
       exists q, replace_surface_var p s i v = Some q /\ volume_vars q = volume_vars p /\
         map (@length A) (surface_vars q) = map (@length A) (surface_vars p) /\
         nth m (nth k (surface_vars q) []) d = v /\
         forall k' m', (k', m') <> (k, m) -> nth m' (nth k' (surface_vars q) []) d = nth m' (nth k' (surface_vars p) []) d) /\
    ((forall k m, index_of (length (surface_vars p)) s k -> ~ index_of (length (nth k (surface_vars p) [])) i m) -> replace_surface_var p s i v = None).
Proof.
  intros A d p s i v. unfold replace_surface_var, py_set. split.
  - intros k m Hk Hm. pose proof Hk as KI. pose proof Hm as MI. apply py_index_spec in Hk, Hm. rewrite Hk, Hm. eexists. split; [reflexivity|].
    cbn [volume_vars surface_vars]. split; [reflexivity|]. destruct KI as [KI _], MI as [MI _]. split; [|split].
    + apply (nth_ext _ _ 0 0); [rewrite !map_length, upd_length; reflexivity|]. intros j Hj. rewrite map_length, upd_length in Hj.
      rewrite !(nth_map_in _ _ [] 0) by (rewrite ?upd_length; exact Hj). rewrite nth_upd. destruct (Nat.eqb_spec k j) as [->|]; [|reflexivity]. cbn [andb].
      destruct (Nat.ltb_spec j (length (surface_vars p))); [apply upd_length|lia].
    + rewrite nth_upd, Nat.eqb_refl. destruct (Nat.ltb_spec k (length (surface_vars p))); [|lia]. cbn [andb]. rewrite nth_upd, Nat.eqb_refl. destruct (Nat.ltb_spec m (length (nth k (surface_vars p) []))); [reflexivity|lia].
    + intros k' m' Hne. rewrite nth_upd. destruct (Nat.eqb_spec k k') as [->|]; [|reflexivity]. destruct (Nat.ltb_spec k' (length (surface_vars p))); [|reflexivity]. cbn [andb].
      rewrite nth_upd. destruct (Nat.eqb_spec m m') as [->|]; [congruence|reflexivity].
  - intros H. destruct (py_index (length (surface_vars p)) s) as [k|] eqn:E; [|reflexivity]. apply py_index_spec in E.
    destruct (py_index (length (nth k (surface_vars p) [])) i) as [m|] eqn:F; [|reflexivity]. apply py_index_spec in F. exfalso. exact (H k m E F).
Qed.
Print Assumptions C19_replace_surface.
Example C19_example :
  let p := make [1; 2; 3] (Some [[4]; []; [5; 6]]) in
  tree_flatten p = ([1; 2; 3; 4; 5; 6], (3, [1; 0; 2])) /\
  replace_volume_var p (-1) 9 = Some (make [1; 2; 9] (Some [[4]; []; [5; 6]])) /\
  replace_surface_var p (-1) 0 9 = Some (make [1; 2; 3] (Some [[4]; []; [9; 6]])) /\
  replace_surface_var p 1 0 9 = None /\ replace_volume_var p 3 9 = None /\ index_of 3 (-1) 2.
Proof. repeat split; try reflexivity; try lia; right; reflexivity. Qed.

(** ** C20 *)
Section C20.
  Variable K : CRing.
  Add Ring Kring : (cth K).
  Local Open Scope ring_K.
  (** A problem whose variables have one row of connectivity per cell, of the right width and
      range, and shape tables of that width with the same number of quadrature points. *)
  Definition good_fe (P : problem K) (f : fe K) : Prop :=
    length (f_cells K f) = p_ncells K P /\
    (forall c, In c (f_cells K f) -> length c = f_npe K f /\ forall n, In n c -> (n < f_nodes K f)%nat) /\
    (forall r, In r (f_shape K f) -> length r = f_npe K f) /\ length (f_shape K f) = num_quads K P.
  Definition good (P : problem K) : Prop := p_fes K P <> [] /\ forall f, In f (p_fes K P) -> good_fe P f.
  (** Variable [i] is the first one with [n] nodes; no variable has [n] nodes. *)
  Definition first_with (P : problem K) (n i : nat) : Prop :=
    (i < length (p_fes K P))%nat /\ f_nodes K (fe_at K P i) = n /\ forall j, (j < i)%nat -> f_nodes K (fe_at K P j) <> n.
  Definition none_with (P : problem K) (n : nat) : Prop := forall f, In f (p_fes K P) -> f_nodes K f <> n.

  Lemma find_fe_first fes n : forall i,
    find_fe K fes n = Some i <-> (i < length fes)%nat /\ f_nodes K (nth i fes {| f_nodes := 0; f_npe := 0; f_cells := []; f_shape := [] |}) = n /\
      forall j, (j < i)%nat -> f_nodes K (nth j fes {| f_nodes := 0; f_npe := 0; f_cells := []; f_shape := [] |}) <> n.
  Proof.
    induction fes as [|f t IH]; intros i; cbn [find_fe length].
    - split; [discriminate|]. intros [H _]. lia.
    - destruct (Nat.eqb_spec n (f_nodes K f)) as [E|E].
      + split; [intros H; injection H as <-; split; [lia|]; split; [symmetry; exact E|intros j Hj; lia]|].
        intros (A & B & C). destruct i as [|i]; [reflexivity|]. exfalso. apply (C 0%nat); [lia|]. cbn. symmetry. exact E.
      + destruct (find_fe K t n) as [k|] eqn:F; cbn [option_map].
        * split.
          -- intros H. injection H as <-. destruct (proj1 (IH k) eq_refl) as (A & B & C). split; [lia|]. split; [exact B|]. intros [|j] Hj; [cbn; congruence|]. apply C. lia.
          -- intros (A & B & C). destruct i as [|i]; [exfalso; apply E; cbn in B; symmetry; exact B|]. f_equal. f_equal.
             assert (Some k = Some i); [|congruence]. apply IH. split; [lia|]. split; [exact B|]. intros j Hj. apply (C (S j)). lia.
        * split; [discriminate|]. intros (A & B & C). destruct i as [|i]; [exfalso; apply E; cbn in B; symmetry; exact B|].
          assert (None = Some i); [|discriminate]. apply IH. split; [lia|]. split; [exact B|]. intros j Hj. apply (C (S j)). lia.
  Qed.
  Lemma find_none fes n : (forall f, In f fes -> f_nodes K f <> n) -> find_fe K fes n = None.
  Proof.
    induction fes as [|f t IH]; intros H; [reflexivity|]. cbn. destruct (Nat.eqb_spec n (f_nodes K f)) as [E|E]; [exfalso; apply (H f (or_introl eq_refl)); symmetry; exact E|].
    rewrite IH; [reflexivity|]. intros g Hg. apply H. right. exact Hg.
  Qed.
  Lemma fe_in P i : (i < length (p_fes K P))%nat -> In (fe_at K P i) (p_fes K P).
  Proof. intros H. apply nth_In. exact H. Qed.
  Lemma cell_row P f c : good_fe P f -> (c < p_ncells K P)%nat -> In (nth c (f_cells K f) []) (f_cells K f).
  Proof. intros (A & _) H. apply nth_In. rewrite A. exact H. Qed.
  Lemma jget_in {B} (d : B) l n : (n < length l)%nat -> jget d l n = nth n l d.
  Proof. intros H. unfold jget. rewrite Nat.min_l by lia. reflexivity. Qed.
  Lemma shape_ok P f (m : nat) : good_fe P f -> m = f_npe K f -> forallb (fun row => Nat.eqb (length row) m) (f_shape K f) = true.
  Proof. intros (_ & _ & S & _) ->. apply forallb_forall. intros r Hr. apply Nat.eqb_eq, S, Hr. Qed.

  (** Meaning of a node-based array: interpolation with the shape functions. *)
  Definition interpolated (f : fe K) (c q : nat) (l : list K) : K :=
    sumf (fun a => get (nth q (f_shape K f) []) a * get l (nth a (nth c (f_cells K f) []) 0%nat)) (seq 0 (f_npe K f)).
  Lemma dot_seq (r v : list K) : length r = length v -> dotl K r v = sumf (fun a => get r a * get v a) (seq 0 (length r)).
  Proof.
    unfold dotl. revert v. induction r as [|x t IH]; intros [|y v] H; try discriminate H; [reflexivity|].
    cbn [combine sumf length seq fst snd]. cbn in H. rewrite (IH v) by lia. rewrite <- seq_shift, sumf_map. reflexivity.
  Qed.
  Lemma get_map_in (g : nat -> K) l a : (a < length l)%nat -> get (map g l) a = g (nth a l 0%nat).
  Proof. intros H. unfold get. apply nth_map_in. exact H. Qed.

  (** 1-D arrays with one value per node (of the first variable with that many nodes). *)
  Theorem C20_node :
    forall P l i c, good P -> first_with P (length l) i -> length l <> p_ncells K P -> (c < p_ncells K P)%nat ->
      exists vals, quad_values K P (A1 K l) c = Some vals /\ length vals = num_quads K P /\
        forall q, (q < num_quads K P)%nat -> nth q vals (QV K []) = QS K (interpolated (fe_at K P i) c q l).
  Proof.
    intros P l i c [_ G] F N Hc. pose proof F as F'. apply find_fe_first in F'. destruct F as (Li & Ln & _). assert (Gi := G _ (fe_in P i Li)).
    unfold quad_values, gather, classify. rewrite F'. destruct (Nat.eqb_spec (length l) (p_ncells K P)) as [E|_]; [contradiction|].
    cbn [interpolate shape_dot]. destruct Gi as (A & B & S & Q) eqn:GE. clear GE.
    assert (R := cell_row P _ c (conj A (conj B (conj S Q))) Hc). destruct (B _ R) as [W V].
    rewrite map_length, (shape_ok P _ _ (conj A (conj B (conj S Q))) W). eexists. split; [reflexivity|]. split; [rewrite map_length; exact Q|].
    intros q Hq. rewrite <- Q in Hq. rewrite (nth_map_in _ _ [] (QV K [])) by exact Hq. f_equal. unfold interpolated.
    assert (HR : length (nth q (f_shape K (fe_at K P i)) []) = f_npe K (fe_at K P i)) by (apply S, nth_In; exact Hq).
    rewrite dot_seq by (rewrite map_length, HR, W; reflexivity). rewrite HR. apply sumf_ext. intros a Ha. apply in_seq in Ha. f_equal.
    rewrite get_map_in by lia. apply jget_in. rewrite <- Ln. apply V, nth_In. lia.
  Qed.
  (** 2-D arrays with one row per node: every component is interpolated. *)
  Theorem C20_node_vector :
    forall P w rows i c, good P -> first_with P (length rows) i -> length rows <> p_ncells K P -> (c < p_ncells K P)%nat ->
      (forall r, In r rows -> length r = w) -> (0 < f_npe K (fe_at K P i))%nat ->
      exists vals, quad_values K P (A2 K w rows) c = Some vals /\ length vals = num_quads K P /\
        forall q, (q < num_quads K P)%nat -> nth q vals (QS K 0) = QV K (map (fun k => interpolated (fe_at K P i) c q (map (fun r => get r k) rows)) (seq 0 w)).
  Proof.
    intros P w rows i c [_ G] F N Hc Hw Hp. pose proof F as F'. apply find_fe_first in F'. destruct F as (Li & Ln & _). assert (Gi := G _ (fe_in P i Li)).
    unfold quad_values, gather, classify. rewrite F'. destruct (Nat.eqb_spec (length rows) (p_ncells K P)) as [E|_]; [contradiction|].
    cbn [interpolate shape_dot]. destruct Gi as (A & B & S & Q) eqn:GE. clear GE.
    assert (R := cell_row P _ c (conj A (conj B (conj S Q))) Hc). destruct (B _ R) as [W V].
    rewrite map_length, (shape_ok P _ _ (conj A (conj B (conj S Q))) W). eexists. split; [reflexivity|]. split; [rewrite map_length; exact Q|].
    intros q Hq. rewrite <- Q in Hq. rewrite (nth_map_in _ _ [] (QS K 0)) by exact Hq. f_equal.
    assert (NI : forall a, (a < f_npe K (fe_at K P i))%nat -> (nth a (nth c (f_cells K (fe_at K P i)) []) 0 < length rows)%nat).
    { intros a Ha. rewrite <- Ln. apply V, nth_In. lia. }
    assert (W0 : length (nth 0 (map (jget [] rows) (nth c (f_cells K (fe_at K P i)) [])) []) = w).
    { rewrite (nth_map_in _ _ 0%nat []) by lia. rewrite jget_in by (apply NI; exact Hp). apply Hw, nth_In, NI, Hp. }
    rewrite W0. apply map_ext. intros k. unfold interpolated.
    assert (HR : length (nth q (f_shape K (fe_at K P i)) []) = f_npe K (fe_at K P i)) by (apply S, nth_In; exact Hq).
    rewrite dot_seq by (rewrite !map_length, HR, W; reflexivity). rewrite HR. apply sumf_ext. intros a Ha. apply in_seq in Ha. f_equal.
    rewrite map_map, get_map_in by lia. rewrite jget_in by (apply NI; lia). unfold get at 2. rewrite (nth_map_in _ _ [] 0) by (apply NI; lia). reflexivity.
  Qed.
  (** 1-D arrays with one value per cell: that value at every quadrature point. *)
  Theorem C20_cell :
    forall P l c, good P -> length l = p_ncells K P -> none_with P (p_ncells K P) -> (c < p_ncells K P)%nat ->
      quad_values K P (A1 K l) c = Some (repeat (QS K (get l c)) (num_quads K P)).
  Proof.
    intros P l c G L N Hc. unfold quad_values, gather, classify. rewrite L, (find_none _ _ N), Nat.eqb_refl. reflexivity.
  Qed.
  (** 2-D arrays with one row per cell and one column per quadrature point. *)
  Theorem C20_quad :
    forall P rows c, good P -> length rows = p_ncells K P -> none_with P (p_ncells K P) -> (c < p_ncells K P)%nat ->
      (forall r, In r rows -> length r = num_quads K P) ->
      exists vals, quad_values K P (A2 K (num_quads K P) rows) c = Some vals /\ length vals = num_quads K P /\
        forall q, (q < num_quads K P)%nat -> nth q vals (QV K []) = QS K (get (nth c rows []) q).
  Proof.
    intros P rows c G L N Hc Hr. unfold quad_values, gather, classify. rewrite L, (find_none _ _ N), !Nat.eqb_refl. cbn [interpolate].
    assert (LR : length (nth c rows []) = num_quads K P) by (apply Hr, nth_In; lia).
    eexists. split; [reflexivity|]. rewrite map_length. split; [exact LR|]. intros q Hq. rewrite (nth_map_in _ _ 0 (QV K [])) by lia. reflexivity.
  Qed.
  (** The energy functional reads the same values, for a single-variable problem. *)
  Theorem C20_energy :
    forall P f l w rows c, good P -> p_fes K P = [f] -> f_nodes K f <> p_ncells K P -> (c < p_ncells K P)%nat ->
      (length l = f_nodes K f \/ length l = p_ncells K P -> energy_values K P (A1 K l) c = quad_values K P (A1 K l) c /\ energy_values K P (A1 K l) c <> None) /\
      (length rows = p_ncells K P -> w = num_quads K P -> energy_values K P (A2 K w rows) c = quad_values K P (A2 K w rows) c /\ energy_values K P (A2 K w rows) c <> None).
  Proof.
    intros P f l w rows c G Ef N Hc. assert (FA : fe_at K P 0 = f) by (unfold fe_at; rewrite Ef; reflexivity).
    assert (Gf : good_fe P f) by (apply G; rewrite Ef; left; reflexivity).
    assert (NW : none_with P (p_ncells K P)) by (intros g; rewrite Ef; intros [<-|[]]; exact N). split.
    - intros [L|L].
      + assert (F : find_fe K (p_fes K P) (length l) = Some 0%nat) by (rewrite Ef; cbn; rewrite L, Nat.eqb_refl; reflexivity).
        unfold quad_values, energy_values, gather, classify. rewrite F. destruct (Nat.eqb_spec (length l) (p_ncells K P)) as [E|_]; [congruence|].
        cbn [interpolate]. split; [reflexivity|]. cbn [shape_dot]. rewrite FA, map_length.
        rewrite (shape_ok P f _ Gf); [discriminate|]. destruct Gf as (A & B & S & Q). apply B, nth_In. rewrite A. exact Hc.
      + rewrite (C20_cell P l c G L NW Hc). unfold energy_values. rewrite L, Nat.eqb_refl. split; [reflexivity|discriminate].
    - intros L ->. unfold quad_values, energy_values, gather, classify. rewrite L, (find_none _ _ NW), !Nat.eqb_refl. cbn. split; [reflexivity|discriminate].
  Qed.
  (** The uniform constructors give the value at every quadrature point (for nodes: when the shape
      functions sum to one). *)
  Lemma dot_unity (r : list K) x : dotl K r (repeat x (length r)) = sumf (fun y => y) r * x.
  Proof. unfold dotl. induction r as [|y t IH]; cbn [length repeat combine sumf fst snd]; [ring|]. rewrite IH. ring. Qed.
  Theorem C20_uniform :
    forall P x c i, good P -> (forall j, (j < length (p_fes K P))%nat -> f_nodes K (fe_at K P j) <> p_ncells K P) -> (c < p_ncells K P)%nat ->
      (i < length (p_fes K P))%nat -> (forall f r, In f (p_fes K P) -> In r (f_shape K f) -> sumf (fun y => y) r = 1) ->
      let u := Some (repeat (QS K x) (num_quads K P)) in
      quad_values K P (create_node_var K P x i) c = u /\ quad_values K P (create_cell_var K P x) c = u /\ quad_values K P (create_uniform_volume_var K P x) c = u.
  Proof.
    intros P x c i G N Hc Hi U u.
    assert (NW : none_with P (p_ncells K P)). { intros f Hf. destruct (In_nth _ _ {| f_nodes := 0; f_npe := 0; f_cells := []; f_shape := [] |} Hf) as (j & Hj & <-). apply N. exact Hj. }
    split; [|split].
    - destruct (find_fe K (p_fes K P) (f_nodes K (fe_at K P i))) as [j|] eqn:F.
      2:{ exfalso. clear -F Hi. unfold fe_at in F. revert i Hi F. induction (p_fes K P) as [|f t IH]; intros i Hi F; [cbn in Hi; lia|]. destruct i as [|i]; cbn in F.
          - rewrite Nat.eqb_refl in F. discriminate. - destruct (Nat.eqb _ (f_nodes K f)); [discriminate|]. destruct (find_fe K t _) eqn:E; [discriminate|]. apply (IH i); [cbn in Hi; lia|exact E]. }
      assert (FW := F). apply find_fe_first in FW. destruct FW as (Lj & Ej & _).
      assert (Gj := proj2 G _ (fe_in P j Lj)). destruct Gj as (A & B & S & Q) eqn:GE. clear GE.
      unfold quad_values, create_node_var, gather, classify. rewrite repeat_length, F. destruct (Nat.eqb_spec (f_nodes K (fe_at K P i)) (p_ncells K P)) as [E|_]; [exfalso; apply (N i Hi E)|].
      assert (R := cell_row P _ c (conj A (conj B (conj S Q))) Hc). destruct (B _ R) as [W V]. cbn [interpolate shape_dot].
      rewrite map_length, (shape_ok P _ _ (conj A (conj B (conj S Q))) W). unfold u. f_equal.
      apply (nth_ext _ _ (QV K []) (QV K [])); [rewrite map_length, repeat_length; exact Q|]. intros q Hq. rewrite map_length in Hq.
      rewrite (nth_map_in _ _ [] (QV K [])) by exact Hq. rewrite nth_repeat_lt by lia. f_equal.
      assert (HR : In (nth q (f_shape K (fe_at K P j)) []) (f_shape K (fe_at K P j))) by (apply nth_In; exact Hq).
      assert (M : map (jget 0 (repeat x (f_nodes K (fe_at K P i)))) (nth c (f_cells K (fe_at K P j)) []) = repeat x (length (nth q (f_shape K (fe_at K P j)) []))).
      { rewrite (S _ HR), <- W. clear -V Ej. revert V. fold (fe_at K P j) in Ej. rewrite Ej. generalize (nth c (f_cells K (fe_at K P j)) []). intros l V. induction l as [|n t IH]; [reflexivity|].
        cbn [map length repeat]. rewrite IH by (intros y Hy; apply V; right; exact Hy). f_equal. rewrite jget_in by (rewrite repeat_length; apply V; left; reflexivity). apply nth_repeat_lt. apply V. left. reflexivity. }
      rewrite M, dot_unity, (U _ _ (fe_in P j Lj) HR). ring.
    - unfold create_cell_var. rewrite (C20_cell P _ c G (repeat_length _ _) NW Hc). unfold get. rewrite nth_repeat_lt by exact Hc. reflexivity.
    - unfold create_uniform_volume_var, quad_values, gather, classify. rewrite repeat_length, (find_none _ _ NW), !Nat.eqb_refl. cbn [interpolate].
      rewrite nth_repeat_lt by exact Hc. rewrite map_repeat. reflexivity.
  Qed.
End C20.
Print Assumptions C20_node.
Print Assumptions C20_node_vector.
Print Assumptions C20_cell.
Print Assumptions C20_quad.
Print Assumptions C20_energy.
Print Assumptions C20_uniform.

(** A single-variable Solution used as a coefficient is the node variable of its DOFs (one row of
    [v] components per node, or the bare values when [v = 1]); a Solution with any other number
    of variables is rejected; arrays are taken as they are. *)
Theorem C20_solution :
  forall (K : CRing) n v (dofs : list K), length dofs = n * v ->
    (v = 1 -> coerce K (Sol K [(n, v)] dofs) = Some (A1 K dofs)) /\
    (v <> 1 -> exists rows, coerce K (Sol K [(n, v)] dofs) = Some (A2 K v rows) /\ length rows = n /\
       (forall r, In r rows -> length r = v) /\ forall a k, a < n -> k < v -> get (nth a rows []) k = get dofs (a * v + k)) /\
    (forall L d, length L <> 1 -> coerce K (Sol K L d) = None) /\
    (forall a, coerce K (Arr K a) = Some a).
Proof.
  intros K n v dofs Hl. assert (T : length dofs = total_dofs [(n, v)]) by (unfold total_dofs, sizes; cbn; lia).
  destruct (C21_field (@c0 K) [(n, v)] dofs T) as [_ F]. destruct (F 0) as (u & E & _ & Lu & Lr & En); [cbn; lia|]. cbn [nth fst snd] in Lu, Lr.
  change (Z.of_nat 0) with 0%Z in E. unfold coerce. rewrite E.
  assert (EN : forall a k, a < n -> k < v -> get (nth a u []) k = get dofs (a * v + k)).
  { intros a k Ha Hk. unfold get. rewrite En; [|split; [cbn; lia|split; cbn; assumption]]. reflexivity. }
  split; [|split; [|split]].
  - intros ->. rewrite Nat.eqb_refl. f_equal. f_equal. apply (nth_ext _ _ (@c0 K) (@c0 K)); [rewrite map_length; lia|]. intros a Ha. rewrite map_length in Ha.
    rewrite (nth_map_in _ _ [] (@c0 K)) by exact Ha. rewrite EN by lia. unfold get. f_equal. lia.
  - intros Hv. apply Nat.eqb_neq in Hv. rewrite Hv. exists u. auto.
  - intros L d H. destruct L as [|[a b] [|x L]]; cbn in H; try reflexivity. congruence.
  - reflexivity.
Qed.
Print Assumptions C20_solution.

(** The agreement does need [num_nodes <> num_cells].  A ring of three 2-node bars has as many
    nodes as cells: a per-cell array is gathered as per-cell data but tagged as node data, and
    interpolation multiplies the whole shape table by the cell's value; the energy functional
    reads it as per-cell data. *)
Definition ring3 : problem ZK :=
  {| p_fes := [ {| f_nodes := 3; f_npe := 2; f_cells := [[0; 1]; [1; 2]; [2; 0]]; f_shape := [[1; 0]; [0; 1]]%Z |} ]; p_ncells := 3 |}.
Definition bar3 : problem ZK :=
  {| p_fes := [ {| f_nodes := 4; f_npe := 2; f_cells := [[0; 1]; [1; 2]; [2; 3]]; f_shape := [[1; 0]; [0; 1]]%Z |} ]; p_ncells := 3 |}.
Theorem C20_ambiguous_refuted :
  exists (P : problem ZK) (l : list Z) (c : nat), good ZK P /\ length l = p_ncells ZK P /\ c < p_ncells ZK P /\
    energy_values ZK P (A1 ZK l) c = Some [QS ZK 7%Z; QS ZK 7%Z] /\
    quad_values ZK P (A1 ZK l) c = Some [QV ZK [7; 0]%Z; QV ZK [0; 7]%Z].
Proof.
  exists ring3, [7; 8; 9]%Z, 0. split.
  - split; [discriminate|]. intros f [<-|[]]. split; [reflexivity|]. split; [|split; [|reflexivity]].
    + intros c [<-|[<-|[<-|[]]]]; (split; [reflexivity|]); intros n; cbn; lia.
    + intros r [<-|[<-|[]]]; reflexivity.
  - repeat split; cbn; try lia; reflexivity.
Qed.
Print Assumptions C20_ambiguous_refuted.
(** Shapes that fit none of the documented layouts are not rejected: a per-cell vector is cut to
    its first component, and a 1-D array of any other length is read through the connectivity with
    clamped indices. *)
Theorem C20_no_rejection_refuted :
  exists (P : problem ZK), good ZK P /\ f_nodes ZK (fe_at ZK P 0) <> p_ncells ZK P /\
    quad_values ZK P (A2 ZK 3 [[1; 2; 3]; [4; 5; 6]; [7; 8; 9]]%Z) 1 = Some [QS ZK 4%Z; QS ZK 4%Z] /\
    quad_values ZK P (A1 ZK [10; 20]%Z) 2 = Some [QS ZK 20%Z; QS ZK 20%Z].
Proof.
  exists bar3. split.
  - split; [discriminate|]. intros f [<-|[]]. split; [reflexivity|]. split; [|split; [|reflexivity]].
    + intros c [<-|[<-|[<-|[]]]]; (split; [reflexivity|]); intros n; cbn; lia.
    + intros r [<-|[<-|[]]]; reflexivity.
  - repeat split; cbn; try lia; reflexivity.
Qed.
Print Assumptions C20_no_rejection_refuted.

(** Mixed element orders: a quadratic and a linear bar variable on the same two cells. The
    hypotheses of the theorems hold and a node array of the linear variable is interpolated
    with the linear table. *)
Example C20_example :
  let P : problem ZK := {| p_fes := [ {| f_nodes := 5; f_npe := 3; f_cells := [[0; 1; 3]; [1; 2; 4]]; f_shape := [[1; 0; 0]; [0; 0; 1]]%Z |};
                         {| f_nodes := 3; f_npe := 2; f_cells := [[0; 1]; [1; 2]]; f_shape := [[1; 0]; [-1; 2]]%Z |} ]; p_ncells := 2 |} in
  good ZK P /\ first_with ZK P 3 1 /\ first_with ZK P 5 0 /\ none_with ZK P 2 /\
  (forall f r, In f (p_fes ZK P) -> In r (f_shape ZK f) -> sumf (K:=ZK) (fun y => y) r = 1%Z) /\
  quad_values ZK P (A1 ZK [10; 20; 30]%Z) 1 = Some [QS ZK 20%Z; QS ZK 40%Z] /\
  quad_values ZK P (A1 ZK [1; 2; 3; 4; 5]%Z) 1 = Some [QS ZK 2%Z; QS ZK 5%Z] /\
  coerce ZK (Sol ZK [(2, 2)] [1; 2; 3; 4]%Z) = Some (A2 ZK 2 [[1; 2]; [3; 4]]%Z).
Proof.
  cbv zeta. split.
  { split; [discriminate|]. intros f [<-|[<-|[]]]; (split; [reflexivity|]); (split; [|split; [|reflexivity]]).
    - intros c [<-|[<-|[]]]; (split; [reflexivity|]); intros n; cbn; lia.
    - intros r [<-|[<-|[]]]; reflexivity.
    - intros c [<-|[<-|[]]]; (split; [reflexivity|]); intros n; cbn; lia.
    - intros r [<-|[<-|[]]]; reflexivity. }
  split; [split; [cbn; lia|]; split; [reflexivity|]; intros [|j] Hj; [cbn; lia|lia]|].
  split; [split; [cbn; lia|]; split; [reflexivity|]; intros j Hj; lia|].
  split; [intros f [<-|[<-|[]]]; cbn; lia|].
  split; [intros f r [<-|[<-|[]]] [<-|[<-|[]]]; reflexivity|]. repeat split.
Qed.
