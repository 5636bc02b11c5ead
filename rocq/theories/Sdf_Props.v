(** C79: boolean operations on signed distance fields, their bounds and the sampling grid (feax/gene/sdf.py). *)
From Coq Require Import Reals List Arith Bool Lia Lra Psatz.
From Verif Require Import Sdf_Model.
Import ListNotations.
Open Scope R_scope.

(** ** Specification *)
Fixpoint prims (t : csg) : list prim :=
  match t with Prim q => [q] | Union a b | Inter a b | Diff a b => prims a ++ prims b end.
(** Strictly inside and strictly outside, from those of the primitives. *)
Fixpoint ins (t : csg) (p : point) : Prop :=
  match t with Prim q => pr_call q p < 0 | Union a b => ins a p \/ ins b p | Inter a b => ins a p /\ ins b p | Diff a b => ins a p /\ outs b p end
with outs (t : csg) (p : point) : Prop :=
  match t with Prim q => 0 < pr_call q p | Union a b => outs a p /\ outs b p | Inter a b => outs a p \/ outs b p | Diff a b => outs a p \/ ins b p end.
Definition in_box (b : list R * list R) (p : point) : Prop :=
  forall i, (i < length p)%nat -> nth i (fst b) 0 <= nth i p 0 <= nth i (snd b) 0.

Ltac mm := unfold Rmin, Rmax in *; repeat match goal with |- context [Rle_dec ?a ?b] => destruct (Rle_dec a b) | H : context [Rle_dec ?a ?b] |- _ => destruct (Rle_dec a b) end.
(** The sign of a boolean combination is the sign of the combined solid: negative strictly inside, positive
    strictly outside; a difference excludes the surface of the subtracted solid. *)
Theorem C79_sign t p : (call t p < 0 <-> ins t p) /\ (0 < call t p <-> outs t p).
Proof.
  induction t as [q|a [IA1 IA2] b [IB1 IB2]|a [IA1 IA2] b [IB1 IB2]|a [IA1 IA2] b [IB1 IB2]]; cbn [call ins outs]; [tauto| | |].
  - rewrite <- IA1, <- IA2, <- IB1, <- IB2. split; split; intros; mm; lra.
  - rewrite <- IA1, <- IA2, <- IB1, <- IB2. split; split; intros; mm; lra.
  - rewrite <- IA1, <- IA2, <- IB1, <- IB2. split; split; intros; mm; lra.
Qed.
Print Assumptions C79_sign.

Lemma zip_map {A} (f : R -> R -> R) (g h : A -> R) l : zipR f (map g l) (map h l) = map (fun x => f (g x) (h x)) l.
Proof. unfold zipR. induction l as [|x l IH]; [reflexivity|]. cbn. rewrite IH. reflexivity. Qed.
(** Batch evaluation is pointwise evaluation, if it is for the primitives. *)
Theorem C79_evaluate t ps : (forall q, In q (prims t) -> forall ps, pr_eval q ps = map (pr_call q) ps) -> evaluate t ps = map (call t) ps.
Proof.
  induction t as [q|a IA b IB|a IA b IB|a IA b IB]; cbn [prims evaluate call]; intros H.
  - apply H. left. reflexivity.
  - rewrite IA, IB, zip_map by (intros; apply H, in_or_app; auto). reflexivity.
  - rewrite IA, IB, zip_map by (intros; apply H, in_or_app; auto). reflexivity.
  - rewrite IA, IB, map_map, zip_map by (intros; apply H, in_or_app; auto). reflexivity.
Qed.
Print Assumptions C79_evaluate.

(** Boolean laws, as equalities of the fields themselves. *)
Theorem C79_laws a b c p :
  call (Union a b) p = call (Union b a) p /\ call (Inter a b) p = call (Inter b a) p /\
  call (Union (Union a b) c) p = call (Union a (Union b c)) p /\ call (Inter (Inter a b) c) p = call (Inter a (Inter b c)) p /\
  call (Inter a (Union b c)) p = call (Union (Inter a b) (Inter a c)) p /\
  call (Union a (Inter b c)) p = call (Inter (Union a b) (Union a c)) p /\
  call (Diff a (Union b c)) p = call (Diff (Diff a b) c) p /\
  call (Diff a (Inter b c)) p = call (Union (Diff a b) (Diff a c)) p /\
  call (Union a a) p = call a p /\ call (Inter a a) p = call a p.
Proof. cbn [call]. repeat split; mm; lra. Qed.
Print Assumptions C79_laws.

(** Combinations of distance bounds (1-Lipschitz fields, for any distance) are distance bounds. *)
Theorem C79_lipschitz (dist : point -> point -> R) t p q :
  (forall x, In x (prims t) -> Rabs (pr_call x p - pr_call x q) <= dist p q) -> Rabs (call t p - call t q) <= dist p q.
Proof.
  induction t as [x|a IA b IB|a IA b IB|a IA b IB]; cbn [prims call]; intros H; [apply H; left; reflexivity| | |];
  (assert (A : Rabs (call a p - call a q) <= dist p q) by (apply IA; intros; apply H, in_or_app; auto));
  (assert (B : Rabs (call b p - call b q) <= dist p q) by (apply IB; intros; apply H, in_or_app; auto));
  revert A B; generalize (call a p) (call a q) (call b p) (call b q) (dist p q); intros a1 a2 b1 b2 d A B;
  unfold Rabs in *; repeat match goal with |- context [Rcase_abs ?x] => destruct (Rcase_abs x) | H : context [Rcase_abs ?x] |- _ => destruct (Rcase_abs x) end; mm; lra.
Qed.
Print Assumptions C79_lipschitz.

Lemma zip_nth f l m i : (i < length l)%nat -> (i < length m)%nat -> nth i (zipR f l m) 0 = f (nth i l 0) (nth i m 0).
Proof.
  revert l m. induction i as [|i IH]; intros [|x l] [|y m] Hl Hm; cbn in Hl, Hm; try lia; [reflexivity|]. unfold zipR in *. cbn. apply IH; lia.
Qed.
Lemma zip_length f l m : length (zipR f l m) = Nat.min (length l) (length m).
Proof. unfold zipR. rewrite map_length, combine_length. reflexivity. Qed.
(** The default bounds of a combination contain its solid, if those of the primitives do. *)
Theorem C79_bounds dim t b : bounds t = Some b ->
  (forall q bq, In q (prims t) -> pr_bounds q = Some bq -> length (fst bq) = dim /\ length (snd bq) = dim /\ forall p, length p = dim -> pr_call q p < 0 -> in_box bq p) ->
  length (fst b) = dim /\ length (snd b) = dim /\ forall p, length p = dim -> call t p < 0 -> in_box b p.
Proof.
  revert b. induction t as [q|a IA c IB|a IA c IB|a IA c IB]; intros b E H; cbn [bounds prims call] in *.
  - apply (H q b); [left; reflexivity|exact E].
  - destruct (bounds a) as [[la ha]|]; [|discriminate]. destruct (bounds c) as [[lb hb]|]; [|discriminate]. injection E as <-.
    destruct (IA _ eq_refl) as (A1 & A2 & A3); [intros; apply H; [apply in_or_app; auto|assumption]|]. destruct (IB _ eq_refl) as (B1 & B2 & B3); [intros; apply H; [apply in_or_app; auto|assumption]|].
    cbn [fst snd] in *. rewrite !zip_length. split; [lia|]. split; [lia|]. intros p Lp Hp i Hi. cbn [fst snd]. rewrite !zip_nth by lia.
    assert (O : call a p < 0 \/ call c p < 0) by (mm; lra). destruct O as [O|O].
    + specialize (A3 p Lp O i Hi). cbn [fst snd] in A3. mm; lra.
    + specialize (B3 p Lp O i Hi). cbn [fst snd] in B3. mm; lra.
  - destruct (bounds a) as [[la ha]|]; [|discriminate]. destruct (bounds c) as [[lb hb]|]; [|discriminate]. injection E as <-.
    destruct (IA _ eq_refl) as (A1 & A2 & A3); [intros; apply H; [apply in_or_app; auto|assumption]|]. destruct (IB _ eq_refl) as (B1 & B2 & B3); [intros; apply H; [apply in_or_app; auto|assumption]|].
    cbn [fst snd] in *. rewrite !zip_length. split; [lia|]. split; [lia|]. intros p Lp Hp i Hi. cbn [fst snd]. rewrite !zip_nth by lia.
    assert (O : call a p < 0 /\ call c p < 0) by (mm; lra). destruct O as [O1 O2]. specialize (A3 p Lp O1 i Hi). specialize (B3 p Lp O2 i Hi). cbn [fst snd] in A3, B3. mm; lra.
  - destruct (IA b E) as (A1 & A2 & A3); [intros; apply H; [apply in_or_app; auto|assumption]|]. split; [exact A1|]. split; [exact A2|]. intros p Lp Hp. apply A3; [exact Lp|]. mm; lra.
Qed.
Print Assumptions C79_bounds.
(** The bounds of an intersection of disjoint solids are reversed: no box at all. *)
Theorem C79_disjoint_refuted : exists a b lo hi, bounds (Inter a b) = Some (lo, hi) /\
  (forall q bq, In q (prims (Inter a b)) -> pr_bounds q = Some bq -> nth 0 (fst bq) 0 <= nth 0 (snd bq) 0) /\ nth 0 hi 0 < nth 0 lo 0.
Proof.
  set (f := fun c => {| pr_call := fun p => Rabs (nth 0 p 0 - c) - 1; pr_eval := map (fun p => Rabs (nth 0 p 0 - c) - 1); pr_bounds := Some ([c - 1], [c + 1]) |}).
  exists (Prim (f 0)), (Prim (f 5)). do 2 eexists. split; [reflexivity|]. split.
  - intros q bq [<-|[<-|[]]] [= <-]; cbn; lra.
  - cbn. mm; lra.
Qed.
Print Assumptions C79_disjoint_refuted.

(** ** The grid *)
Lemma nth_flat_map {A B} (f : A -> list B) n dA dB : forall (l : list A) i j, (forall x, In x l -> length (f x) = n) -> (i < length l)%nat -> (j < n)%nat ->
  nth (i * n + j) (flat_map f l) dB = nth j (f (nth i l dA)) dB.
Proof.
  induction l as [|x l IH]; intros i j H Hi Hj; [cbn in Hi; lia|]. cbn [flat_map]. assert (Lx : length (f x) = n) by (apply H; left; reflexivity). destruct i as [|i].
  - cbn [Nat.mul Nat.add nth]. rewrite app_nth1 by lia. reflexivity.
  - rewrite app_nth2 by (cbn; lia). rewrite Lx. replace (S i * n + j - n)%nat with (i * n + j)%nat by (cbn; lia). cbn [nth]. apply IH; [intros y Hy; apply H; right; exact Hy|cbn in Hi; lia|exact Hj].
Qed.
Lemma flat_map_len {A B} (f : A -> list B) n l : (forall x, length (f x) = n) -> length (flat_map f l) = (length l * n)%nat.
Proof. intros H. induction l as [|x l IH]; [reflexivity|]. cbn. rewrite app_length, H, IH. reflexivity. Qed.
Lemma linspace_length lo hi n : length (linspace lo hi n) = n.
Proof. unfold linspace. now rewrite map_length, seq_length. Qed.
Lemma linspace_nth lo hi n i : (i < n)%nat -> nth i (linspace lo hi n) 0 = axis_point lo hi n i.
Proof.
  intros H. unfold linspace. rewrite (nth_indep _ 0 (axis_point lo hi n 0)) by (rewrite map_length, seq_length; exact H). rewrite map_nth, seq_nth by exact H. reflexivity.
Qed.
Lemma grid_nth lo hi n i j k : (i < n)%nat -> (j < n)%nat -> (k < n)%nat ->
  nth (i * n * n + j * n + k) (grid_points lo hi n) [] = [axis_point (nth 0 lo 0) (nth 0 hi 0) n i; axis_point (nth 1 lo 0) (nth 1 hi 0) n j; axis_point (nth 2 lo 0) (nth 2 hi 0) n k].
Proof.
  intros Hi Hj Hk. unfold grid_points. replace (i * n * n + j * n + k)%nat with (i * (n * n) + (j * n + k))%nat by ring.
  assert (Lz : forall x y, length (map (fun z => [x; y; z]) (linspace (nth 2 lo 0) (nth 2 hi 0) n)) = n) by (intros; rewrite map_length; apply linspace_length).
  rewrite (nth_flat_map _ (n * n)%nat 0); [|intros; rewrite (flat_map_len _ n) by (intros; apply Lz); rewrite linspace_length; reflexivity|rewrite linspace_length; exact Hi|nia].
  rewrite (nth_flat_map _ n 0); [|intros; apply Lz|rewrite linspace_length; exact Hj|exact Hk].
  rewrite (nth_indep _ [] ((fun z => [nth i (linspace (nth 0 lo 0) (nth 0 hi 0) n) 0; nth j (linspace (nth 1 lo 0) (nth 1 hi 0) n) 0; z]) 0)) by (rewrite map_length, linspace_length; exact Hk).
  rewrite (map_nth (fun z => [nth i (linspace (nth 0 lo 0) (nth 0 hi 0) n) 0; nth j (linspace (nth 1 lo 0) (nth 1 hi 0) n) 0; z])), !linspace_nth by assumption. reflexivity.
Qed.
Lemma grid_length lo hi n : length (grid_points lo hi n) = (n * n * n)%nat.
Proof.
  unfold grid_points. rewrite (flat_map_len _ (n * n)%nat).
  - rewrite linspace_length. ring.
  - intros x. rewrite (flat_map_len _ n); [rewrite linspace_length; reflexivity|]. intros y. rewrite map_length. apply linspace_length.
Qed.
(** The volume given to marching cubes holds, at grid index (i, j, k), the field at the world position that the
    code later assigns to that index; the first and last index sit on the bounds. *)
Theorem C79_grid t lo hi n i j k : (forall q, In q (prims t) -> forall ps, pr_eval q ps = map (pr_call q) ps) ->
  (i < n)%nat -> (j < n)%nat -> (k < n)%nat ->
  vol t lo hi n i j k = call t (world lo hi n [INR i; INR j; INR k]) /\
  forall a, (a < 3)%nat -> (2 <= n)%nat ->
    nth a (world lo hi n [0; 0; 0]) 0 = nth a lo 0 /\ nth a (world lo hi n [INR (n - 1); INR (n - 1); INR (n - 1)]) 0 = nth a hi 0.
Proof.
  intros H Hi Hj Hk. split.
  - unfold vol. rewrite (C79_evaluate t _ H). rewrite (nth_indep _ 0 (call t [])) by (rewrite map_length, grid_length; nia).
    rewrite (map_nth (call t)), grid_nth by assumption. f_equal. unfold world, axis_point. cbn [seq combine map fst snd]. f_equal; [ring|f_equal; [ring|f_equal; ring]].
  - intros a Ha Hn. assert (INR (n - 1) <> 0) by (apply not_0_INR; lia). destruct a as [|[|[|a]]]; try lia; unfold world; cbn [seq combine map fst snd nth]; split; field; assumption.
Qed.
Print Assumptions C79_grid.

(** Two unit "spheres" of the first coordinate, at 0 and 1, and their combinations. *)
Definition slab (c : R) : prim := {| pr_call := fun p => Rabs (nth 0 p 0 - c) - 1; pr_eval := map (fun p => Rabs (nth 0 p 0 - c) - 1); pr_bounds := Some ([c - 1; -5; -5], [c + 1; 5; 5]) |}.
Example C79_example : (forall q, In q (prims (Diff (Prim (slab 0)) (Prim (slab 1)))) -> forall ps, pr_eval q ps = map (pr_call q) ps) /\
  call (Diff (Prim (slab 0)) (Prim (slab 1))) [-1 / 2; 0; 0] < 0 /\ 0 < call (Diff (Prim (slab 0)) (Prim (slab 1))) [1 / 2; 0; 0] /\
  bounds (Diff (Prim (slab 0)) (Prim (slab 1))) = Some ([0 - 1; -5; -5], [0 + 1; 5; 5]).
Proof.
  split; [intros q [<-|[<-|[]]] ps; reflexivity|]. cbn [call slab pr_call nth].
  split; [|split; [|reflexivity]]; unfold Rabs; repeat destruct (Rcase_abs _); mm; lra.
Qed.
