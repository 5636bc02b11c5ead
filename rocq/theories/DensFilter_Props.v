(** C45: the distance-based density filter. *)
From Coq Require Import List Bool Arith ZArith QArith Qminmax Qabs Qround Lia Lqa Permutation.
From Verif Require Import Base ZArr Graph_Model Oc_Model Oc_Props Filter_Model SensFilter_Props.
Import ListNotations.
Open Scope Q_scope.

(** ** Specification vocabulary *)
(** The weight function by name. *)
Definition wfun (gauss : Q -> Q) (radius : Q) (wt : weight_type) (d : Q) : Q :=
  match wt with WCone => Qmax 0 (radius - d) | WGaussian => gauss d | _ => 1 end.
(** The weight of node j in the average at node i. *)
Definition W norm gauss radius wt (points : list (list Q)) (i j : nat) : Q :=
  let d := norm (diff (nth i points []) (nth j points [])) in
  if Qle_bool d radius then wfun gauss radius wt d else 0.
Definition sum_n (n : nat) (f : nat -> Q) : Q := fold_right Qplus 0 (map f (seq 0 n)).

(** ** Structure of the weight matrix *)
Lemma sequence_some {A B} (f : A -> B) l : sequence (map (fun a => Some (f a)) l) = Some (map f l).
Proof. induction l as [|a l IH]; cbn; [reflexivity|]. now rewrite IH. Qed.
Lemma sequence_ext {A B} (f h : A -> option B) l : (forall a, In a l -> f a = h a) -> sequence (map f l) = sequence (map h l).
Proof. intros H. f_equal. apply map_ext_in. exact H. Qed.
Lemma sequence_none {A B} (f : A -> option B) l a : In a l -> f a = None -> sequence (map f l) = None.
Proof.
  induction l as [|b l IH]; intros I N; [destruct I|]. cbn. destruct I as [->|I]; [rewrite N; reflexivity|].
  rewrite (IH I N). destruct (f b); reflexivity.
Qed.

Definition row_list (gauss : Q -> Q) radius wt (dists : list Q) (i : nat) : list (nat * nat * Q) :=
  map (fun j => (i, j, wfun gauss radius wt (nth j dists 0)))
      (filter (fun j => Qle_bool (nth j dists 0) radius) (seq 0 (length dists))).
Definition dists_of (norm : list Q -> Q) (points : list (list Q)) (i : nat) : list Q :=
  map (fun q => norm (diff (nth i points []) q)) points.

Lemma row_entries_known gauss radius wt dists i : wt <> WOther ->
  row_entries gauss radius wt dists i = Some (row_list gauss radius wt dists i).
Proof.
  intros K. unfold row_entries, row_list. rewrite <- sequence_some. apply sequence_ext. intros j _. destruct wt; try reflexivity. congruence.
Qed.

Lemma nth_firstn_lt {A} (l : list A) m k d : (k < m)%nat -> nth k (firstn m l) d = nth k l d.
Proof.
  revert m k. induction l as [|a l IH]; intros [|m] k H; try lia; [destruct k; reflexivity|].
  destruct k as [|k]; cbn; [reflexivity|]. apply IH. lia.
Qed.
Lemma nth_skipn_add {A} (l : list A) s k d : nth k (skipn s l) d = nth (s + k) l d.
Proof. revert l. induction s as [|s IH]; intros [|a l]; cbn; try reflexivity; [destruct k; reflexivity|apply IH]. Qed.

Lemma batch_entries_known norm gauss radius wt points bs start : wt <> WOther ->
  batch_entries norm gauss radius wt points bs start =
  Some (flat_map (fun i => row_list gauss radius wt (dists_of norm points i) i) (seq start (Nat.min (start + bs) (length points) - start))).
Proof.
  intros K. unfold batch_entries. set (m := (Nat.min (start + bs) (length points) - start)%nat).
  assert (E : sequence (map (fun local_i => row_entries gauss radius wt
      (nth local_i (map (fun p => map (fun q => norm (diff p q)) points) (firstn m (skipn start points))) []) (start + local_i)) (seq 0 m)) =
    Some (map (fun local_i => row_list gauss radius wt (dists_of norm points (start + local_i)) (start + local_i)) (seq 0 m))).
  { rewrite <- sequence_some. apply sequence_ext. intros k Hk. apply in_seq in Hk. rewrite row_entries_known by exact K. do 2 f_equal.
    assert (L : (k < length (firstn m (skipn start points)))%nat) by (rewrite firstn_length, skipn_length; unfold m in *; lia).
    rewrite (nth_indep _ [] (map (fun q => norm (diff [] q)) points)) by (rewrite map_length; exact L).
    rewrite (map_nth (fun p => map (fun q => norm (diff p q)) points)). rewrite nth_firstn_lt by lia. rewrite nth_skipn_add. reflexivity. }
  rewrite E. cbn [option_map]. f_equal. rewrite flat_map_concat_map. f_equal. clear E.
  assert (G : forall (f : nat -> list (nat * nat * Q)) (m0 s : nat), map (fun k => f (start + k)%nat) (seq s m0) = map f (seq (start + s) m0)).
  { intros f m0. induction m0 as [|m0 IH]; intros s; cbn; [reflexivity|]. f_equal. rewrite <- Nat.add_succ_r. apply IH. }
  rewrite (G (fun i => row_list gauss radius wt (dists_of norm points i) i)). rewrite Nat.add_0_r. reflexivity.
Qed.

Lemma starts_cover {A} (f : nat -> list A) n bs : (1 <= bs)%nat ->
  concat (map (fun s => flat_map f (seq s (Nat.min (s + bs) n - s))) (starts n bs)) = flat_map f (seq 0 n).
Proof.
  intros B. unfold starts. rewrite map_map.
  assert (G : forall m, concat (map (fun k => flat_map f (seq (k * bs) (Nat.min (k * bs + bs) n - k * bs))) (seq 0 m)) = flat_map f (seq 0 (Nat.min (m * bs) n))).
  { induction m as [|m IH]; [reflexivity|]. rewrite seq_S, map_app, concat_app, IH. cbn [map concat plus]. rewrite app_nil_r, <- flat_map_app. f_equal.
    destruct (Nat.le_gt_cases n (m * bs)) as [H|H].
    - replace (Nat.min (m * bs + bs) n - m * bs)%nat with 0%nat by lia. cbn [seq]. rewrite app_nil_r. f_equal. lia.
    - replace (Nat.min (m * bs) n) with (m * bs)%nat by lia. rewrite <- seq_app. f_equal. lia. }
  rewrite G. f_equal. f_equal. assert (n <= (n + bs - 1) / bs * bs)%nat; [|lia].
  pose proof (Nat.div_mod (n + bs - 1) bs ltac:(lia)). pose proof (Nat.mod_upper_bound (n + bs - 1) bs ltac:(lia)). lia.
Qed.

Lemma weight_matrix_known norm gauss radius wt points bs : wt <> WOther -> (1 <= bs)%nat ->
  weight_matrix norm gauss radius wt points bs =
  Some (flat_map (fun i => row_list gauss radius wt (dists_of norm points i) i) (seq 0 (length points))).
Proof.
  intros K B. unfold weight_matrix.
  rewrite (sequence_ext _ (fun s => Some (flat_map (fun i => row_list gauss radius wt (dists_of norm points i) i) (seq s (Nat.min (s + bs) (length points) - s))))).
  2: { intros s _. apply batch_entries_known. exact K. }
  rewrite sequence_some. cbn [option_map]. f_equal. apply starts_cover. exact B.
Qed.

Lemma sumQ_app l m : sumQ (l ++ m) == sumQ l + sumQ m.
Proof.
  induction l as [|a l IH]; [change (sumQ m == 0 + sumQ m); ring|].
  change (a + sumQ (l ++ m) == a + sumQ l + sumQ m). rewrite IH. ring.
Qed.

(** A sum over the entries of row i only sees that row. *)
Lemma row_select (rows : nat -> list (nat * nat * Q)) (h : nat * nat * Q -> Q) i n :
  (forall r e, In e (rows r) -> fst (fst e) = r) ->
  sumQ (map (fun e => if Nat.eqb (fst (fst e)) i then h e else 0) (flat_map rows (seq 0 n))) ==
  if Nat.ltb i n then sumQ (map h (rows i)) else 0.
Proof.
  intros R. induction n as [|n IH]; [reflexivity|]. rewrite seq_S, flat_map_app, map_app, sumQ_app, IH. cbn [flat_map plus]. rewrite app_nil_r.
  destruct (Nat.eq_dec n i) as [->|N].
  - rewrite Nat.ltb_irrefl. rewrite (proj2 (Nat.ltb_lt i (S i))) by lia. rewrite (sumQ_ext _ h); [lra|].
    intros e He. rewrite (R i e He), Nat.eqb_refl. lra.
  - rewrite (sumQ_ext _ (fun _ => 0) (rows n)).
    2: { intros e He. rewrite (R n e He). destruct (Nat.eqb_spec n i); [congruence|lra]. }
    assert (Z0 : sumQ (map (fun _ : nat * nat * Q => 0) (rows n)) == 0) by (induction (rows n) as [|? ? I]; cbn; [lra|unfold sumQ in I; lra]).
    rewrite Z0. destruct (Nat.ltb_spec i n), (Nat.ltb_spec i (S n)); try lia; lra.
Qed.

Lemma row_list_sum norm gauss radius wt points i (h : nat -> Q) :
  sumQ (map (fun e => snd e * h (snd (fst e))) (row_list gauss radius wt (dists_of norm points i) i)) ==
  sum_n (length points) (fun j => W norm gauss radius wt points i j * h j).
Proof.
  unfold row_list, sum_n. assert (L : length (dists_of norm points i) = length points) by (unfold dists_of; apply map_length). rewrite L.
  rewrite map_map. cbn [fst snd].
  assert (N : forall j, (j < length points)%nat -> nth j (dists_of norm points i) 0 = norm (diff (nth i points []) (nth j points []))).
  { intros j Hj. unfold dists_of. rewrite (nth_indep _ 0 (norm (diff (nth i points []) []))) by (rewrite map_length; exact Hj).
    apply (map_nth (fun q => norm (diff (nth i points []) q))). }
  fold (sumQ (map (fun j => W norm gauss radius wt points i j * h j) (seq 0 (length points)))).
  set (p := fun j => Qle_bool (nth j (dists_of norm points i) 0) radius).
  rewrite (sumQ_filter p (fun j => W norm gauss radius wt points i j * h j)).
  - apply sumQ_ext. intros j Hj. apply filter_In in Hj. destruct Hj as [Hj P]. apply in_seq in Hj. unfold p in P. rewrite N in * by lia.
    unfold W. rewrite P. lra.
  - intros j Hj P. apply in_seq in Hj. unfold p in P. rewrite N in P by lia. unfold W. rewrite P. lra.
Qed.

(** ** C45 *)
(** Every output is the weighted average of the documented formula (with 1e-12 added to
    the denominator), whatever the batch size. *)
Theorem C45_formula :
  forall norm gauss radius wt points bs rho, wt <> WOther -> (1 <= bs)%nat ->
  exists out, density_filter norm gauss radius wt points bs rho = Some out /\ length out = length points /\
  forall i, (i < length points)%nat ->
    nth i out 0 ==
    sum_n (length points) (fun j => W norm gauss radius wt points i j * nth j rho 0) /
    (sum_n (length points) (fun j => W norm gauss radius wt points i j) + (1 # 10 ^ 12)).
Proof.
  intros norm gauss radius wt points bs rho K B. unfold density_filter. rewrite weight_matrix_known by assumption. cbn [option_map].
  eexists. split; [reflexivity|]. split; [rewrite map_length, seq_length; reflexivity|]. intros i Hi.
  set (F := fun i => _ / _). rewrite (nth_indep _ 0 (F 0%nat)) by (rewrite map_length, seq_length; exact Hi). rewrite map_nth, seq_nth by exact Hi.
  cbn [plus]. unfold F, matvec, row_sum.
  assert (R : forall r e, In e (row_list gauss radius wt (dists_of norm points r) r) -> fst (fst e) = r).
  { intros r e He. unfold row_list in He. apply in_map_iff in He. destruct He as (j & <- & _). reflexivity. }
  rewrite (row_select _ (fun e => snd e * nth (snd (fst e)) rho 0) i (length points) R).
  rewrite (row_select _ (fun e => snd e) i (length points) R).
  rewrite (proj2 (Nat.ltb_lt i (length points)) Hi). rewrite (row_list_sum norm gauss radius wt points i (fun j => nth j rho 0)).
  assert (S1 : sumQ (map (fun e : nat * nat * Q => snd e) (row_list gauss radius wt (dists_of norm points i) i)) ==
    sum_n (length points) (fun j => W norm gauss radius wt points i j)).
  { rewrite (sumQ_ext _ (fun e => snd e * (fun _ => 1) (snd (fst e)))) by (intros; ring). rewrite (row_list_sum norm gauss radius wt points i (fun _ => 1)).
    apply sumQ_ext. intros; ring. }
  rewrite S1. reflexivity.
Qed.
Print Assumptions C45_formula.

Lemma sum_n_ext n f h : (forall i, (i < n)%nat -> f i == h i) -> sum_n n f == sum_n n h.
Proof. intros H. apply sumQ_ext. intros i Hi. apply in_seq in Hi. apply H. lia. Qed.
Lemma sum_n_add n f h : sum_n n (fun i => f i + h i) == sum_n n f + sum_n n h.
Proof. unfold sum_n. induction (seq 0 n) as [|a l IH]; cbn; [lra|]. rewrite IH. lra. Qed.
Lemma sum_n_scale n f k : sum_n n (fun i => f i * k) == sum_n n f * k.
Proof. apply sumQ_scale. Qed.
Lemma sum_n_le n f h : (forall i, (i < n)%nat -> f i <= h i) -> sum_n n f <= sum_n n h.
Proof.
  intros H. assert (G : forall l, (forall i, In i l -> f i <= h i) -> fold_right Qplus 0 (map f l) <= fold_right Qplus 0 (map h l)).
  { induction l as [|a l IH]; intros HL; cbn; [lra|]. assert (A := HL a (or_introl eq_refl)). assert (I := IH (fun b Hb => HL b (or_intror Hb))). lra. }
  apply G. intros i Hi. apply in_seq in Hi. apply H. lia.
Qed.
Lemma sum_n_swap n m f : sum_n n (fun i => sum_n m (fun j => f i j)) == sum_n m (fun j => sum_n n (fun i => f i j)).
Proof.
  unfold sum_n. induction (seq 0 n) as [|a l IH].
  - cbn [map fold_right]. induction (seq 0 m) as [|b l IH]; [reflexivity|]. cbn [map fold_right]. rewrite <- IH. reflexivity.
  - change (fold_right Qplus 0 (map (f a) (seq 0 m)) + fold_right Qplus 0 (map (fun i => fold_right Qplus 0 (map (fun j => f i j) (seq 0 m))) l) ==
            fold_right Qplus 0 (map (fun j => f a j + fold_right Qplus 0 (map (fun i => f i j) l)) (seq 0 m))).
    rewrite IH. symmetry. apply (sum_n_add m (f a)).
Qed.

Lemma W_nonneg norm gauss radius wt points i j : (forall d, 0 <= gauss d) -> 0 <= W norm gauss radius wt points i j.
Proof. intros G. unfold W. destruct (Qle_bool _ _); [|lra]. destruct wt; cbn; try lra; [apply Q.le_max_l|apply G]. Qed.
Lemma feps_pos : 0 < 1 # 10 ^ 12. Proof. reflexivity. Qed.

(** The filter is linear. *)
Theorem C45_linear :
  forall norm gauss radius wt points bs a b x y, wt <> WOther -> (1 <= bs)%nat ->
  length x = length points -> length y = length points ->
  forall fx fy fz, density_filter norm gauss radius wt points bs x = Some fx -> density_filter norm gauss radius wt points bs y = Some fy ->
  density_filter norm gauss radius wt points bs (map (fun p => a * fst p + b * snd p) (combine x y)) = Some fz ->
  forall i, (i < length points)%nat -> nth i fz 0 == a * nth i fx 0 + b * nth i fy 0.
Proof.
  intros norm gauss radius wt points bs a b x y K B Lx Ly fx fy fz Hx Hy Hz i Hi.
  destruct (C45_formula norm gauss radius wt points bs x K B) as (? & E1 & _ & F1). rewrite Hx in E1. injection E1 as <-.
  destruct (C45_formula norm gauss radius wt points bs y K B) as (? & E2 & _ & F2). rewrite Hy in E2. injection E2 as <-.
  destruct (C45_formula norm gauss radius wt points bs (map (fun p => a * fst p + b * snd p) (combine x y)) K B) as (? & E3 & _ & F3).
  rewrite Hz in E3. injection E3 as <-. rewrite (F1 i Hi), (F2 i Hi), (F3 i Hi).
  assert (N : sum_n (length points) (fun j => W norm gauss radius wt points i j * nth j (map (fun p => a * fst p + b * snd p) (combine x y)) 0) ==
    sum_n (length points) (fun j => W norm gauss radius wt points i j * nth j x 0) * a + sum_n (length points) (fun j => W norm gauss radius wt points i j * nth j y 0) * b).
  { rewrite <- !sum_n_scale, <- sum_n_add. apply sum_n_ext. intros j Hj.
    rewrite (nth_indep _ 0 ((fun p => a * fst p + b * snd p) (0, 0))) by (rewrite map_length, combine_length; lia).
    rewrite (map_nth (fun p => a * fst p + b * snd p)), combine_nth by lia. cbn [fst snd]. ring. }
  rewrite N. unfold Qdiv. ring.
Qed.
Print Assumptions C45_linear.

(** Fields between 0 and m stay between 0 and m. *)
Theorem C45_bounds :
  forall norm gauss radius wt points bs rho m out, wt <> WOther -> (1 <= bs)%nat -> (forall d, 0 <= gauss d) ->
  (forall j, (j < length points)%nat -> 0 <= nth j rho 0 <= m) ->
  density_filter norm gauss radius wt points bs rho = Some out ->
  forall i, (i < length points)%nat -> 0 <= nth i out 0 <= m.
Proof.
  intros norm gauss radius wt points bs rho m out K B G R H i Hi.
  destruct (C45_formula norm gauss radius wt points bs rho K B) as (? & E1 & _ & F1). rewrite H in E1. injection E1 as <-. rewrite (F1 i Hi).
  assert (M0 : 0 <= m) by (destruct (R i Hi); lra).
  assert (S0 : 0 <= sum_n (length points) (fun j => W norm gauss radius wt points i j)) by (apply sumQ_nonneg; intros; apply W_nonneg; exact G).
  assert (N0 : 0 <= sum_n (length points) (fun j => W norm gauss radius wt points i j * nth j rho 0)).
  { apply sumQ_nonneg. intros j Hj. apply in_seq in Hj. apply Qmult_le_0_compat; [apply W_nonneg; exact G|apply R; lia]. }
  assert (N1 : sum_n (length points) (fun j => W norm gauss radius wt points i j * nth j rho 0) <= sum_n (length points) (fun j => W norm gauss radius wt points i j) * m).
  { rewrite <- sum_n_scale. apply sum_n_le. intros j Hj. rewrite !(Qmult_comm (W _ _ _ _ _ _ _)). apply Qmult_le_compat_r; [apply R; exact Hj|apply W_nonneg; exact G]. }
  assert (E := feps_pos). generalize dependent (1 # 10 ^ 12). intros t _ T. 
  set (s := sum_n _ (fun j => W norm gauss radius wt points i j)) in *. set (v := sum_n _ _) in *. clearbody s v.
  split; [apply Qle_shift_div_l; [lra|]; lra|]. apply Qle_shift_div_r; [lra|].
  assert (0 <= t * m) by (apply Qmult_le_0_compat; lra). lra.
Qed.
Print Assumptions C45_bounds.

(** A constant field is reproduced up to the relative error 1e-12 / radius, for the cone
    weights and points at distance 0 from themselves. *)
Theorem C45_constant :
  forall norm gauss radius points bs c out, (1 <= bs)%nat -> 0 < radius ->
  (forall i, (i < length points)%nat -> norm (diff (nth i points []) (nth i points [])) == 0) ->
  density_filter norm gauss radius WCone points bs (repeat c (length points)) = Some out ->
  forall i, (i < length points)%nat -> Qabs (nth i out 0 - c) <= Qabs c * ((1 # 10 ^ 12) / radius).
Proof.
  intros norm gauss radius points bs c out B RP SELF H i Hi.
  destruct (C45_formula norm gauss radius WCone points bs (repeat c (length points))) as (? & E1 & _ & F1); [discriminate|exact B|].
  rewrite H in E1. injection E1 as <-. rewrite (F1 i Hi).
  assert (N : sum_n (length points) (fun j => W norm gauss radius WCone points i j * nth j (repeat c (length points)) 0) == sum_n (length points) (fun j => W norm gauss radius WCone points i j) * c).
  { rewrite <- sum_n_scale. apply sum_n_ext. intros j Hj. rewrite (nth_indep _ 0 c) by (rewrite repeat_length; exact Hj). rewrite nth_repeat. lra. }
  rewrite N. clear N F1.
  assert (SR : radius <= sum_n (length points) (fun j => W norm gauss radius WCone points i j)).
  { assert (WI : W norm gauss radius WCone points i i == radius).
    { unfold W. specialize (SELF i Hi). set (d := norm _) in *. clearbody d. rewrite (proj2 (Qle_bool_iff d radius)) by lra. cbn.
      rewrite Q.max_r; lra. }
    rewrite <- WI at 1. apply (sumQ_ge (fun j => W norm gauss radius WCone points i j)); [|apply in_seq; lia].
    intros b. unfold W. destruct (Qle_bool _ _); cbn; [apply Q.le_max_l|lra]. }
  assert (T := feps_pos). generalize dependent (1 # 10 ^ 12). intros t T. set (s := sum_n _ _) in *. clearbody s.
  assert (E : s * c / (s + t) - c == - (c * (t / (s + t)))) by (field; lra). rewrite E, Qabs_opp, Qabs_Qmult.
  assert (P : 0 <= t / (s + t)) by (apply Qle_shift_div_l; lra). rewrite (Qabs_pos _ P).
  rewrite !(Qmult_comm (Qabs c)). apply Qmult_le_compat_r; [|apply Qabs_nonneg].
  apply Qle_shift_div_l; [exact RP|]. setoid_replace (t / (s + t) * radius) with (t * radius / (s + t)) by (field; lra).
  apply Qle_shift_div_r; [lra|]. rewrite !(Qmult_comm t). apply Qmult_le_compat_r; lra.
Qed.
Print Assumptions C45_constant.

(** The total is preserved (up to the same factor) when all nodes have the same weight
    sum and distances are symmetric ... *)
Theorem C45_mass_uniform :
  forall norm gauss radius wt points bs rho out s, wt <> WOther -> (1 <= bs)%nat -> 0 <= s ->
  (forall i j, norm (diff (nth i points []) (nth j points [])) = norm (diff (nth j points []) (nth i points []))) ->
  (forall i, (i < length points)%nat -> sum_n (length points) (fun j => W norm gauss radius wt points i j) == s) ->
  density_filter norm gauss radius wt points bs rho = Some out ->
  sum_n (length points) (fun i => nth i out 0) == sum_n (length points) (fun i => nth i rho 0) * (s / (s + (1 # 10 ^ 12))).
Proof.
  intros norm gauss radius wt points bs rho out s K B S0 SYM ROW H.
  destruct (C45_formula norm gauss radius wt points bs rho K B) as (? & E1 & _ & F1). rewrite H in E1. injection E1 as <-.
  assert (T := feps_pos). generalize dependent (1 # 10 ^ 12). intros t F1 T.
  rewrite (sum_n_ext _ _ (fun i => sum_n (length points) (fun j => W norm gauss radius wt points i j * nth j rho 0) * (/ (s + t)))).
  2: { intros i Hi. rewrite (F1 i Hi). rewrite (ROW i Hi). reflexivity. }
  rewrite sum_n_scale, sum_n_swap.
  rewrite (sum_n_ext _ _ (fun j => nth j rho 0 * s)).
  - rewrite sum_n_scale. unfold Qdiv. ring.
  - intros j Hj. rewrite sum_n_scale. rewrite (sum_n_ext _ _ (fun i => W norm gauss radius wt points j i)).
    + rewrite (ROW j Hj). lra.
    + intros i _. unfold W. rewrite (SYM i j). lra.
Qed.
Print Assumptions C45_mass_uniform.

(** ... but not in general, although the documentation says so: near the ends of a bar
    material is lost. *)
Definition norm1 (v : list Q) : Q := Qabs (nth 0 v 0).
Theorem C45_mass_refuted :
  exists norm gauss radius points bs rho out,
  (forall i j, norm (diff (nth i points []) (nth j points [])) = norm (diff (nth j points []) (nth i points []))) /\
  (forall j, (j < length points)%nat -> 0 <= nth j rho 0 <= 1) /\
  density_filter norm gauss radius WCone points bs rho = Some out /\
  1 # 20 < Qabs (sum_n (length points) (fun i => nth i out 0) - sum_n (length points) (fun i => nth i rho 0)).
Proof.
  exists norm1, (fun _ => 1), (3 # 2), [[0]; [1]; [2]], 500%nat, [1; 0; 0]. eexists. split.
  { intros i j. generalize (nth i [[0]; [1]; [2]] []) (nth j [[0]; [1]; [2]] []). intros [|a p] [|b q]; try reflexivity.
    unfold norm1, diff. cbn [combine map nth fst snd]. apply Qabs_Qminus. }
  split. { intros [|[|[|j]]] H; cbn in *; try lra. lia. }
  split; [vm_compute; reflexivity|]. vm_compute. reflexivity.
Qed.
Print Assumptions C45_mass_refuted.

(** Radius 0 with cone weights is not the identity: every output is 0. *)
Theorem C45_zero_radius_refuted :
  exists norm gauss points bs rho out,
  (forall i, (i < length points)%nat -> norm (diff (nth i points []) (nth i points [])) == 0) /\
  density_filter norm gauss 0 WCone points bs rho = Some out /\ nth 0 rho 0 == 1 /\ nth 0 out 0 == 0.
Proof.
  exists norm1, (fun _ => 1), [[0]; [1]], 500%nat, [1; 1]. eexists. split.
  { intros [|[|i]] H; try (vm_compute; reflexivity). cbn in H. lia. }
  split; [vm_compute; reflexivity|]. vm_compute. auto.
Qed.
Print Assumptions C45_zero_radius_refuted.

(** An unknown weight name is rejected as soon as some node has a neighbour. *)
Theorem C45_unknown_weight :
  forall norm gauss radius points bs rho, (1 <= bs)%nat -> 0 <= radius -> (1 <= length points)%nat ->
  (forall i, (i < length points)%nat -> norm (diff (nth i points []) (nth i points [])) == 0) ->
  density_filter norm gauss radius WOther points bs rho = None.
Proof.
  intros norm gauss radius points bs rho B RP LP SELF. unfold density_filter.
  assert (E : weight_matrix norm gauss radius WOther points bs = None); [|rewrite E; reflexivity].
  unfold weight_matrix. rewrite (sequence_none _ _ 0%nat); [reflexivity| |].
  - unfold starts. apply in_map_iff. exists 0%nat. split; [reflexivity|]. apply in_seq. split; [lia|]. cbn [plus].
    apply Nat.div_str_pos. lia.
  - unfold batch_entries. rewrite (sequence_none _ _ 0%nat); [reflexivity|apply in_seq; lia|].
    destruct points as [|p0 points]; [cbn in LP; lia|]. replace (Nat.min (0 + bs) (length (p0 :: points)) - 0)%nat with (S (Nat.min (bs - 1) (length points))) by (cbn; lia).
    cbn [skipn firstn map nth plus]. unfold row_entries. rewrite (sequence_none _ _ 0%nat); [reflexivity| |reflexivity].
    apply filter_In. split; [apply in_seq; cbn; lia|]. cbn [nth map]. apply Qle_bool_iff. specialize (SELF 0%nat ltac:(cbn; lia)). cbn [nth] in SELF. lra.
Qed.
Print Assumptions C45_unknown_weight.

Example C45_example :
  exists out, density_filter norm1 (fun _ => 1) (3 # 2) WCone [[0]; [1]; [2]] 2 [1; 0; 0] = Some out /\
  map (fun q => Qle_bool (Qabs (fst q - snd q)) (1 # 10 ^ 9)) (combine out [3 # 4; 1 # 5; 0]) = [true; true; true].
Proof. eexists. split; vm_compute; reflexivity. Qed.
Example C45_mass_example :
  let W2 := W norm1 (fun _ => 1) 2 WCone [[0]; [1]] in
  (forall i, (i < 2)%nat -> sum_n 2 (fun j => W2 i j) == 3) /\
  (forall i j, norm1 (diff (nth i [[0]; [1]] []) (nth j [[0]; [1]] [])) = norm1 (diff (nth j [[0]; [1]] []) (nth i [[0]; [1]] []))).
Proof.
  split; [intros [|[|i]] H; try (vm_compute; reflexivity); lia|].
  intros i j. generalize (nth i [[0]; [1]] []) (nth j [[0]; [1]] []). intros [|a p] [|b q]; try reflexivity.
  unfold norm1, diff. cbn [combine map nth fst snd]. apply Qabs_Qminus.
Qed.
