(** C98: what the optional convergence check of a linear solve guarantees, what the Jacobi
    preconditioner is, and what a direct-solver closure returns over its history of calls. *)
From Coq Require Import Reals List Arith Bool Lra Lia.
From Verif Require Import Base Tmc_Model Tmc_Props LinCheck_Model.
Import ListNotations.
Open Scope R_scope.

(** ** Specification *)
(** the matrix entry a list of triples stands for *)
Definition dense (T : list entry) (i j : nat) : R :=
  fold_right (fun e a => (if (erow e =? i) && (ecol e =? j) then eval e else 0) + a) 0 T.
(** the operator the user means: the stored matrix, or the symmetric matrix with that triangle *)
Definition op (v : view) (T : list entry) (i j : nat) : R :=
  match v with
  | FULL => dense T i j
  | UPPER => if i <=? j then dense T i j else dense T j i
  | LOWER => if j <=? i then dense T i j else dense T j i
  end.
(** only that triangle is stored *)
Definition stored_as (v : view) (T : list entry) : Prop :=
  match v with
  | FULL => True
  | UPPER => forall e, In e T -> (erow e <= ecol e)%nat
  | LOWER => forall e, In e T -> (ecol e <= erow e)%nat
  end.
(** Euclidean norm *)
Definition nrm (n : nat) (f : nat -> R) : R := sqrt (rs n (fun i => f i * f i)).
(** matrix-vector product *)
Definition ap (n : nat) (M : nat -> nat -> R) (x : nat -> R) (i : nat) : R := rs n (fun j => M i j * x j).
(** the float vector [x] holds the finite numbers [y] *)
Definition holds (n : nat) (x : fvec) (y : nat -> R) : Prop := forall i, (i < n)%nat -> x i = Some (y i).
(** every entry is NaN *)
Definition all_nan (n : nat) (x : fvec) : Prop := forall i, (i < n)%nat -> x i = None.

(** ** Proofs *)
Lemma dense_cons e t i j : dense (e :: t) i j = (if (erow e =? i) && (ecol e =? j) then eval e else 0) + dense t i j.
Proof. reflexivity. Qed.

Lemma rs_pick n c v (y : nat -> R) : rs n (fun j => (if c =? j then v else 0) * y j) = (if c <? n then v * y c else 0).
Proof.
  destruct (Nat.ltb_spec c n) as [L|L].
  - rewrite <- (rs_delta n c (fun j => v * y j) L). apply rs_ext; intros j Hj. rewrite (Nat.eqb_sym c j). destruct (j =? c); ring.
  - apply rs_zero; intros j Hj. destruct (Nat.eqb_spec c j); [lia | ring].
Qed.

Lemma spmv_fin n T x y i : holds n x y -> spmv n T x i = Some (ap n (dense T) y i).
Proof.
  intros H. unfold ap. induction T as [|e t IH]; cbn [spmv].
  - f_equal. symmetry. apply rs_zero. intros. cbn. ring.
  - rewrite (rs_ext n (fun j => dense (e :: t) i j * y j) (fun j => (if ecol e =? j then (if erow e =? i then eval e else 0) else 0) * y j + dense t i j * y j)).
    2:{ intros j Hj. rewrite dense_cons. destruct (erow e =? i), (ecol e =? j); cbn [andb]; ring. }
    rewrite rs_plus, rs_pick, IH. destruct (erow e =? i); destruct (Nat.ltb_spec (ecol e) n) as [L|L]; cbn [andb].
    + rewrite (H _ L). cbn. reflexivity.
    + f_equal. ring.
    + f_equal. ring.
    + f_equal. ring.
Qed.

Lemma dense_transpose T i j : dense (transpose T) i j = dense T j i.
Proof.
  induction T as [|e t IH]; [reflexivity|]. cbn [transpose map]. fold (transpose t). rewrite !dense_cons, IH. f_equal.
  unfold erow, ecol, eval; cbn [fst snd]. destruct (snd (fst e) =? i), (fst (fst e) =? j); reflexivity.
Qed.

Lemma sp_diag_dense n T i : (i < n)%nat -> sp_diag n T i = dense T i i.
Proof.
  intros Hi. induction T as [|e t IH]; [reflexivity|]. cbn [sp_diag]. rewrite dense_cons, <- IH.
  destruct (Nat.eqb_spec (erow e) (ecol e)) as [E|E].
  - rewrite <- E. destruct (Nat.eqb_spec (erow e) i) as [F|F].
    + rewrite F. replace (i <? n) with true by (symmetry; apply Nat.ltb_lt; exact Hi). cbn [andb]. reflexivity.
    + rewrite andb_false_r. cbn [andb]. ring.
  - replace (n <? n) with false by (symmetry; apply Nat.ltb_irrefl). cbn [andb].
    destruct (Nat.eqb_spec (erow e) i); destruct (Nat.eqb_spec (ecol e) i); cbn [andb]; try ring. exfalso; apply E; congruence.
Qed.

Lemma dense_zero T i j : (forall e, In e T -> erow e = i -> ecol e = j -> False) -> dense T i j = 0.
Proof.
  induction T as [|e t IH]; intros H; [reflexivity|]. rewrite dense_cons, IH by (intros e' I; apply H; right; exact I).
  destruct (Nat.eqb_spec (erow e) i) as [E|E]; destruct (Nat.eqb_spec (ecol e) j) as [F|F]; cbn [andb]; try ring.
  exfalso. apply (H e); [left; reflexivity | exact E | exact F].
Qed.

Lemma view_fin n v T x y i : (i < n)%nat -> stored_as v T -> holds n x y -> view_mv n v T x i = Some (ap n (op v T) y i).
Proof.
  intros Hi S H. unfold view_mv. destruct v; [apply spmv_fin; exact H| |];
    rewrite !(spmv_fin n _ x y i H), (H i Hi), (sp_diag_dense n T i Hi); cbn [fadd fsub fmul]; f_equal;
    unfold ap; rewrite <- rs_plus;
    rewrite <- (rs_delta n i (fun j => dense T i i * y j) Hi), <- rs_minus; apply rs_ext; intros j Hj; rewrite dense_transpose; cbn [op stored_as] in *.
  - destruct (Nat.eqb_spec j i) as [->|N].
    + rewrite Nat.leb_refl. ring.
    + destruct (Nat.leb_spec i j).
      * rewrite (dense_zero T j i); [ring|]. intros e I A B. specialize (S e I). lia.
      * rewrite (dense_zero T i j); [ring|]. intros e I A B. specialize (S e I). lia.
  - destruct (Nat.eqb_spec j i) as [->|N].
    + rewrite Nat.leb_refl. ring.
    + destruct (Nat.leb_spec j i).
      * rewrite (dense_zero T j i); [ring|]. intros e I A B. specialize (S e I). lia.
      * rewrite (dense_zero T i j); [ring|]. intros e I A B. specialize (S e I). lia.
Qed.

Lemma fsq_fin n x y : holds n x y -> fsq n x = Some (rs n (fun i => y i * y i)).
Proof.
  induction n as [|k IH]; intros H; cbn [fsq rs]; [reflexivity|].
  rewrite IH by (intros i Hi; apply H; lia). rewrite (H k) by lia. reflexivity.
Qed.

Lemma fsq_nan n x j : (j < n)%nat -> x j = None -> fsq n x = None.
Proof.
  induction n as [|k IH]; intros Hj E; [lia|]. cbn [fsq]. destruct (Nat.eq_dec j k) as [->|N].
  - rewrite E. destruct (fsq k x); reflexivity.
  - rewrite IH by (try exact E; lia). reflexivity.
Qed.

Lemma nrm_pos n f : 0 <= nrm n f.
Proof. apply sqrt_pos. Qed.
Lemma floor_pos n f : 0 < nrm n f + / 10 ^ 12.
Proof. pose proof (nrm_pos n f). assert (0 < / 10 ^ 12) by (apply Rinv_0_lt_compat; apply pow_lt; lra). lra. Qed.

Lemma check_fin n v T x b y c thr : stored_as v T -> holds n x y -> holds n b c ->
  check_conv n v T x b thr = if Rlt_dec (nrm n (fun i => ap n (op v T) y i - c i) / (nrm n c + / 10 ^ 12)) thr then x else (fun _ => None).
Proof.
  intros S H B. unfold check_conv, fnorm.
  rewrite (fsq_fin n (fun i => fsub (view_mv n v T x i) (b i)) (fun i => ap n (op v T) y i - c i)).
  2:{ intros i Hi. rewrite (view_fin n v T x y i Hi S H), (B i Hi). reflexivity. }
  rewrite (fsq_fin n b c B). cbn [option_map]. reflexivity.
Qed.

(** With finite inputs the checked solution is the solver's own vector exactly when its residual, for
    the operator the user means, is below the threshold times the norm of the right-hand side plus
    1e-12; otherwise every entry is NaN. *)
Theorem C98_check n v T x b y c thr :
  stored_as v T -> holds n x y -> holds n b c ->
  let r := nrm n (fun i => ap n (op v T) y i - c i) in
  (r < thr * (nrm n c + / 10 ^ 12) -> forall i, check_conv n v T x b thr i = x i) /\
  (~ r < thr * (nrm n c + / 10 ^ 12) -> all_nan n (check_conv n v T x b thr)).
Proof.
  intros S H B. cbv zeta. rewrite (check_fin n v T x b y c thr S H B). pose proof (floor_pos n c) as P.
  assert (E : forall r, r / (nrm n c + / 10 ^ 12) < thr <-> r < thr * (nrm n c + / 10 ^ 12)).
  { intros r. split; intros L.
    - apply (Rmult_lt_compat_r _ _ _ P) in L. unfold Rdiv in L. rewrite Rmult_assoc, Rinv_l, Rmult_1_r in L by lra. exact L.
    - apply (Rmult_lt_reg_r _ _ _ P). unfold Rdiv. rewrite Rmult_assoc, Rinv_l, Rmult_1_r by lra. exact L. }
  destruct (Rlt_dec _ thr) as [L|L]; split; intros Q.
  - reflexivity.
  - exfalso. apply Q. apply E. exact L.
  - exfalso. apply L. apply E. exact Q.
  - intros i Hi. reflexivity.
Qed.
Print Assumptions C98_check.

Lemma spmv_nan n T x e : In e T -> (ecol e < n)%nat -> x (ecol e) = None -> spmv n T x (erow e) = None.
Proof.
  induction T as [|a t IH]; intros I C X; [destruct I|]. cbn [spmv]. destruct I as [->|I].
  - rewrite Nat.eqb_refl. replace (ecol e <? n) with true by (symmetry; apply Nat.ltb_lt; exact C). cbn [andb]. rewrite X. reflexivity.
  - rewrite (IH I C X). destruct ((erow a =? erow e) && (ecol a <? n)); [|reflexivity]. destruct (fmul _ _); reflexivity.
Qed.

Lemma check_nan n v T x b thr j : (j < n)%nat -> view_mv n v T x j = None \/ b j = None -> forall i, check_conv n v T x b thr i = None.
Proof.
  intros Hj D i. unfold check_conv, fnorm. rewrite (fsq_nan n _ j Hj); [reflexivity|].
  destruct D as [->| ->]; [reflexivity|]. destruct (view_mv n v T x j); reflexivity.
Qed.

(** A NaN anywhere that matters is never accepted: a NaN in the right-hand side, or in a component of
    the solution that some stored entry multiplies, makes the whole result NaN. *)
Theorem C98_nan n v T x b thr :
  (exists j, (j < n)%nat /\ b j = None) \/
  (exists e, In e T /\ (erow e < n)%nat /\ (ecol e < n)%nat /\ (x (ecol e) = None \/ (v <> FULL /\ x (erow e) = None))) ->
  all_nan n (check_conv n v T x b thr).
Proof.
  intros D i Hi. destruct D as [[j [Hj E]]|[e [I [R [C D]]]]].
  - apply (check_nan n v T x b thr j Hj). right; exact E.
  - destruct D as [X|[V X]].
    + apply (check_nan n v T x b thr (erow e) R). left. unfold view_mv. pose proof (spmv_nan n T x e I C X) as Z.
      destruct v; rewrite Z; reflexivity.
    + apply (check_nan n v T x b thr (erow e) R). left. unfold view_mv. destruct v; [congruence| |];
        rewrite X; cbn [fmul]; destruct (fadd _ _); reflexivity.
Qed.
Print Assumptions C98_nan.

(** ** error of an accepted solution *)
Lemma cs n f g : rs n (fun i => f i * g i) * rs n (fun i => f i * g i) <= rs n (fun i => f i * f i) * rs n (fun i => g i * g i).
Proof.
  set (a := rs n (fun i => f i * f i)). set (b := rs n (fun i => f i * g i)). set (c := rs n (fun i => g i * g i)).
  assert (P : forall t, 0 <= a * (t * t) + 2 * t * b + c).
  { intros t. replace (a * (t * t) + 2 * t * b + c) with (rs n (fun i => (t * f i + g i) * (t * f i + g i))).
    - apply rs_nonneg. intros. apply Rle_0_sqr.
    - unfold a, b, c. rewrite (rs_ext n _ (fun i => (t * t) * (f i * f i) + ((2 * t) * (f i * g i) + g i * g i))) by (intros; ring).
      rewrite !rs_plus, !rs_scale. ring. }
  assert (A : 0 <= a) by (apply rs_nonneg; intros; apply Rle_0_sqr).
  assert (C : 0 <= c) by (apply rs_nonneg; intros; apply Rle_0_sqr).
  destruct (Req_dec a 0) as [Z|Z].
  - assert (b = 0) as ->; [|nra]. unfold b. apply rs_zero. intros i Hi.
    assert (f i * f i = 0) by (apply (rs_zero_inv n (fun i => f i * f i)); [intros; apply Rle_0_sqr | exact Z | exact Hi]).
    assert (f i = 0) as -> by nra. ring.
  - specialize (P (- b / a)). assert (Pa : 0 < a) by lra.
    assert (E : a * (a * (- b / a * (- b / a)) + 2 * (- b / a) * b + c) = a * c - b * b) by (field; lra).
    assert (0 <= a * (a * (- b / a * (- b / a)) + 2 * (- b / a) * b + c)) by (apply Rmult_le_pos; assumption). lra.
Qed.

Lemma nrm_sq n f : nrm n f * nrm n f = rs n (fun i => f i * f i).
Proof. unfold nrm. apply sqrt_sqrt. apply rs_nonneg. intros; apply Rle_0_sqr. Qed.

Lemma cs_nrm n f g : rs n (fun i => f i * g i) <= nrm n f * nrm n g.
Proof.
  pose proof (cs n f g) as C. pose proof (nrm_pos n f). pose proof (nrm_pos n g).
  rewrite <- !nrm_sq in C. destruct (Rle_dec (rs n (fun i => f i * g i)) (nrm n f * nrm n g)) as [L|L]; [exact L|].
  assert (0 <= nrm n f * nrm n g) by (apply Rmult_le_pos; assumption).
  replace (nrm n f * nrm n f * (nrm n g * nrm n g)) with ((nrm n f * nrm n g) * (nrm n f * nrm n g)) in C by ring.
  set (p := nrm n f * nrm n g) in *. set (q := rs n (fun i => f i * g i)) in *. nra.
Qed.

(** If the operator is coercive with constant [m], an accepted solution is within
    [thr (|b| + 1e-12) / m] of the exact one. *)
Theorem C98_error n v T x b y c z thr m :
  stored_as v T -> holds n x y -> holds n b c ->
  0 < m -> (forall w, m * rs n (fun i => w i * w i) <= rs n (fun i => w i * ap n (op v T) w i)) ->
  (forall i, (i < n)%nat -> ap n (op v T) z i = c i) ->
  (exists i, (i < n)%nat /\ check_conv n v T x b thr i <> None) ->
  nrm n (fun i => y i - z i) <= thr * (nrm n c + / 10 ^ 12) / m.
Proof.
  intros S H B M Co Z [k [Hk A]].
  destruct (C98_check n v T x b y c thr S H B) as [_ N].
  destruct (Rlt_dec (nrm n (fun i => ap n (op v T) y i - c i)) (thr * (nrm n c + / 10 ^ 12))) as [L|L].
  2:{ exfalso. apply A. apply (N L). exact Hk. }
  set (e := fun i => y i - z i). fold e. specialize (Co e).
  assert (Ae : forall i, (i < n)%nat -> ap n (op v T) e i = ap n (op v T) y i - c i).
  { intros i Hi. rewrite <- (Z i Hi). unfold ap, e. rewrite <- rs_minus. apply rs_ext; intros; ring. }
  rewrite (rs_ext n (fun i => e i * ap n (op v T) e i) (fun i => e i * (ap n (op v T) y i - c i))) in Co by (intros i Hi; rewrite (Ae i Hi); reflexivity).
  pose proof (cs_nrm n e (fun i => ap n (op v T) y i - c i)) as CS.
  rewrite <- nrm_sq in Co. pose proof (nrm_pos n e) as Pe.
  set (q := nrm n (fun i => ap n (op v T) y i - c i)) in *.
  assert (K : m * nrm n e <= q).
  { destruct (Rle_lt_or_eq_dec _ _ Pe) as [P|P].
    - apply (Rmult_le_reg_r (nrm n e) _ _ P). lra.
    - rewrite <- P, Rmult_0_r. apply nrm_pos. }
  apply (Rmult_le_reg_l m _ _ M). unfold Rdiv. rewrite <- Rmult_assoc, (Rmult_comm m (thr * _)), Rmult_assoc, Rinv_r, Rmult_1_r by lra. lra.
Qed.
Print Assumptions C98_error.

(** The documented reading "relative residual below the threshold" fails for small right-hand sides:
    whatever the matrix, zero is accepted as soon as the right-hand side is shorter than the
    threshold times 1e-12, although the relative residual of zero is one. *)
Theorem C98_small_refuted n v T b c thr :
  stored_as v T -> holds n b c -> nrm n c < thr * / 10 ^ 12 -> 0 < thr ->
  (forall i, check_conv n v T (fun _ => Some 0) b thr i = Some 0) /\
  nrm n (fun i => ap n (op v T) (fun _ => 0) i - c i) = nrm n c.
Proof.
  intros S B L P.
  assert (E : nrm n (fun i => ap n (op v T) (fun _ => 0) i - c i) = nrm n c).
  { unfold nrm. f_equal. apply rs_ext. intros i Hi.
    replace (ap n (op v T) (fun _ => 0) i) with 0 by (symmetry; apply rs_zero; intros; ring). ring. }
  split; [|exact E].
  destruct (C98_check n v T (fun _ => Some 0) b (fun _ => 0) c thr S) as [Y _]; [intros i Hi; reflexivity | exact B |].
  intros i. rewrite Y; [reflexivity|]. rewrite E. pose proof (nrm_pos n c). nra.
Qed.
Print Assumptions C98_small_refuted.

(** For a right-hand side of norm at least 1e-12 an accepted solution has relative residual below
    twice the threshold. *)
Theorem C98_relative n v T x b y c thr :
  stored_as v T -> holds n x y -> holds n b c -> 0 < thr -> / 10 ^ 12 <= nrm n c ->
  (exists i, (i < n)%nat /\ check_conv n v T x b thr i <> None) ->
  nrm n (fun i => ap n (op v T) y i - c i) / nrm n c < 2 * thr.
Proof.
  intros S H B P F [k [Hk A]]. destruct (C98_check n v T x b y c thr S H B) as [_ N].
  destruct (Rlt_dec (nrm n (fun i => ap n (op v T) y i - c i)) (thr * (nrm n c + / 10 ^ 12))) as [L|L].
  2:{ exfalso. apply A. apply (N L). exact Hk. }
  assert (0 < / 10 ^ 12) by (apply Rinv_0_lt_compat; apply pow_lt; lra).
  assert (Q : 0 < nrm n c) by lra. apply (Rmult_lt_reg_r _ _ _ Q). unfold Rdiv. rewrite Rmult_assoc, Rinv_l, Rmult_1_r by lra. nra.
Qed.
Print Assumptions C98_relative.

(** ** the linear solve *)
(** For a problem whose residual is affine with Jacobian [J] at the starting point, a checked linear
    solve returns either NaN everywhere or a state whose residual is below
    [thr (|res(u0)| + 1e-12)] - whatever the linear solver did. *)
Theorem C98_linear_solve n v J (rf : (nat -> R) -> nat -> R) (u0 : nat -> R) res x0 solve thr y :
  stored_as v J ->
  (forall u i, (i < n)%nat -> rf u i = rf u0 i + ap n (op v J) (fun j => u j - u0 j) i) ->
  holds n res (rf u0) -> holds n x0 u0 ->
  holds n (solve J (fun i => fsub (Some 0) (res i))) y ->
  let sol := linear_solve n v J res x0 solve true thr in
  all_nan n sol \/
  exists u, holds n sol u /\ nrm n (rf u) < thr * (nrm n (rf u0) + / 10 ^ 12).
Proof.
  intros S Af HR H0 Hy. cbv zeta. unfold linear_solve.
  set (b := fun i => fsub (Some 0) (res i)) in *.
  assert (Hb : holds n b (fun i => - rf u0 i)).
  { intros i Hi. unfold b. rewrite (HR i Hi). cbn. f_equal. ring. }
  destruct (C98_check n v J (solve J b) b y (fun i => - rf u0 i) thr S Hy Hb) as [Y N].
  assert (En : nrm n (fun i => - rf u0 i) = nrm n (rf u0)) by (unfold nrm; f_equal; apply rs_ext; intros; ring).
  rewrite En in *.
  destruct (Rlt_dec (nrm n (fun i => ap n (op v J) y i - - rf u0 i)) (thr * (nrm n (rf u0) + / 10 ^ 12))) as [L|L].
  - right. exists (fun i => u0 i + y i). split.
    + intros i Hi. rewrite (Y L i), (H0 i Hi), (Hy i Hi). reflexivity.
    + replace (nrm n (rf (fun i => u0 i + y i))) with (nrm n (fun i => ap n (op v J) y i - - rf u0 i)); [exact L|].
      unfold nrm. f_equal. apply rs_ext. intros i Hi. rewrite (Af (fun i => u0 i + y i) i Hi).
      replace (ap n (op v J) (fun j => u0 j + y j - u0 j) i) with (ap n (op v J) y i) by (unfold ap; apply rs_ext; intros; f_equal; ring). ring.
  - left. intros i Hi. rewrite (N L i Hi). destruct (x0 i); reflexivity.
Qed.
Print Assumptions C98_linear_solve.

(** ** the Jacobi preconditioner *)
(** It divides by the assembled diagonal plus the shift, whatever the storage order, duplicates and
    padding; with a positive diagonal and a shift that is not negative it is positive definite; and
    applied after a diagonal matrix it leaves the relative error [shift / (d + shift)]. *)
Theorem C98_jacobi n T shift :
  (forall x i, (i < n)%nat -> jacobi n T shift x i = x i / (dense T i i + shift)) /\
  ((forall i, (i < n)%nat -> 0 < dense T i i) -> 0 <= shift ->
     forall x, (exists i, (i < n)%nat /\ x i <> 0) -> 0 < rs n (fun i => x i * jacobi n T shift x i)) /\
  ((forall i j, (i < n)%nat -> (j < n)%nat -> i <> j -> dense T i j = 0) ->
     forall x i, (i < n)%nat -> dense T i i + shift <> 0 ->
       jacobi n T shift (ap n (dense T) x) i = x i - shift / (dense T i i + shift) * x i).
Proof.
  assert (J : forall x i, (i < n)%nat -> jacobi n T shift x i = x i / (dense T i i + shift)).
  { intros x i Hi. unfold jacobi. rewrite (sp_diag_dense n T i Hi). unfold Rdiv. ring. }
  split; [exact J|]. split.
  - intros D Sh x [k [Hk Xk]].
    assert (G : forall i, (i < n)%nat -> 0 <= x i * jacobi n T shift x i).
    { intros i Hi. rewrite (J x i Hi). unfold Rdiv. rewrite <- Rmult_assoc. apply Rmult_le_pos; [nra|]. left. apply Rinv_0_lt_compat. specialize (D i Hi). lra. }
    pose proof (rs_nonneg n _ G) as NN. destruct (Rle_lt_or_eq_dec _ _ NN) as [L|E]; [exact L|].
    exfalso. symmetry in E. pose proof (rs_zero_inv n _ G E k Hk) as Z. cbv beta in Z. rewrite (J x k Hk) in Z.
    specialize (D k Hk). assert (I : 0 < / (dense T k k + shift)) by (apply Rinv_0_lt_compat; lra).
    assert (Q : 0 < x k * x k) by nra. unfold Rdiv in Z. rewrite <- Rmult_assoc in Z. nra.
  - intros Off x i Hi Ne. rewrite (J _ i Hi).
    replace (ap n (dense T) x i) with (dense T i i * x i); [field; exact Ne|].
    unfold ap. rewrite <- (rs_delta n i (fun j => dense T i i * x j) Hi). apply rs_ext; intros j Hj.
    destruct (Nat.eqb_spec j i) as [->|N]; [ring|]. rewrite (Off i j Hi Hj) by congruence. ring.
Qed.
Print Assumptions C98_jacobi.

(** A diagonal entry below minus the shift makes it indefinite: conjugate gradients then has no
    guarantee (saddle-point systems). *)
Theorem C98_jacobi_refuted n T shift i :
  (i < n)%nat -> dense T i i + shift < 0 ->
  exists x, rs n (fun k => x k * jacobi n T shift x k) < 0.
Proof.
  intros Hi L. exists (fun k => if k =? i then 1 else 0).
  rewrite (rs_delta n i (fun k => jacobi n T shift (fun k => if k =? i then 1 else 0) k) Hi).
  destruct (C98_jacobi n T shift) as [J _]. rewrite (J _ i Hi), Nat.eqb_refl. unfold Rdiv. rewrite Rmult_1_l. apply Rinv_lt_0_compat. exact L.
Qed.
Print Assumptions C98_jacobi_refuted.

(** ** the direct closure *)
(** what a direct backend is asked to solve for a matrix: its own pattern, padding cut off *)
Definition fresh (be : list nat -> list nat -> list R -> list R -> list R) (A : csr) (b : list R) : list R :=
  be (c_offs A) (firstn (last (c_offs A) 0%nat) (c_cols A)) (firstn (last (c_offs A) 0%nat) (c_data A)) b.
(** two matrices have one pattern: equal offsets and equal columns, up to padding *)
Definition same_pattern (A B : csr) : Prop :=
  c_offs A = c_offs B /\ firstn (last (c_offs A) 0%nat) (c_cols A) = firstn (last (c_offs B) 0%nat) (c_cols B).

Lemma run_state be s calls A0 :
  s = mkSt (c_offs A0) (firstn (last (c_offs A0) 0%nat) (c_cols A0)) (last (c_offs A0) 0%nat) ->
  forall k A b, nth_error calls k = Some (A, b) -> same_pattern A A0 ->
  nth_error (cudss_run be (Some s) calls) k = Some (fresh be A b).
Proof.
  intros E. induction calls as [|[A1 b1] t IH]; intros k A b G P; [destruct k; discriminate|].
  cbn [cudss_run cudss_call]. destruct k as [|k]; cbn [nth_error] in *.
  - inversion G; subst A1 b1. rewrite E. cbn [s_offs s_cols s_nnz]. unfold fresh. destruct P as [P1 P2]. rewrite P1 in *. rewrite P2. reflexivity.
  - apply (IH k A b G P).
Qed.

(** In every history of calls of one direct closure, a call whose matrix has the pattern of the first
    call's matrix gets the answer of a solver built for that very matrix, padding ignored. *)
Theorem C98_closure be calls A0 b0 k A b :
  nth_error calls 0 = Some (A0, b0) -> nth_error calls k = Some (A, b) -> same_pattern A A0 ->
  nth_error (cudss_run be None calls) k = Some (fresh be A b).
Proof.
  destruct calls as [|[A1 b1] t]; intros G0 G P; [discriminate|]. cbn in G0. inversion G0; subst A1 b1.
  cbn [cudss_run cudss_call]. destruct k as [|k]; cbn [nth_error] in *.
  - inversion G; subst. reflexivity.
  - apply (run_state be _ t A0 eq_refl k A b G P).
Qed.
Print Assumptions C98_closure.

(** the matrix of CSR arrays applied to a vector, row by row *)
Fixpoint csr_rows (offs : list nat) (cols : list nat) (vals : list R) (x : list R) : list R :=
  match offs with
  | a :: ((b :: _) as t) =>
      fold_right Rplus 0 (map (fun k => nth k vals 0 * nth (nth k cols 0%nat) x 0) (seq a (b - a))) :: csr_rows t cols vals x
  | _ => []
  end.

(** A call with another pattern is silently answered for the first pattern: after a solve with the
    identity, a backend that is right about the identity returns, for the matrix that swaps two
    unknowns, a vector that does not solve the system. *)
Theorem C98_closure_refuted be :
  (forall b, length b = 2%nat -> csr_rows [0; 1; 2]%nat [0; 1]%nat [1; 1] (be [0; 1; 2]%nat [0; 1]%nat [1; 1] b) = b) ->
  exists A0 A b x,
    nth_error (cudss_run be None [(A0, b); (A, b)]) 1 = Some x /\
    length (c_data A) = length (c_data A0) /\ c_offs A = c_offs A0 /\
    csr_rows (c_offs A) (c_cols A) (c_data A) x <> b /\
    exists y, csr_rows (c_offs A) (c_cols A) (c_data A) y = b.
Proof.
  intros H. exists (mkCsr [1; 1] [0; 1; 2]%nat [0; 1]%nat), (mkCsr [1; 1] [0; 1; 2]%nat [1; 0]%nat), [1; 0].
  exists (be [0; 1; 2]%nat [0; 1]%nat [1; 1] [1; 0]). split; [reflexivity|]. split; [reflexivity|]. split; [reflexivity|].
  specialize (H [1; 0] eq_refl). set (x := be _ _ _ _) in *. cbn [c_offs c_cols c_data]. split.
  - intros E.
    change ([1 * nth 0 x 0 + 0; 1 * nth 1 x 0 + 0] = [1; 0]) in H. change ([1 * nth 1 x 0 + 0; 1 * nth 0 x 0 + 0] = [1; 0]) in E.
    apply (f_equal (fun l => nth 1 l 0)) in H. apply (f_equal (fun l => nth 0 l 0)) in E. cbv beta in H, E.
    change (1 * nth 1 x 0 + 0 = 0) in H. change (1 * nth 1 x 0 + 0 = 1) in E. lra.
  - exists [0; 1]. cbn. f_equal; [ring|]. f_equal. ring.
Qed.
Print Assumptions C98_closure_refuted.

(** Pre-warming with the problem's sample Jacobian makes each direct closure, forward and adjoint,
    answer every later call on that pattern as a solver built for the call's matrix would. *)
Theorem C98_prewarm be fd ad same J zero fwd adj :
  prewarm be true fd ad same J zero None None = (fwd, adj) ->
  (fd = true -> forall calls k A b, nth_error calls k = Some (A, b) -> same_pattern A J ->
     nth_error (cudss_run be fwd calls) k = Some (fresh be A b)) /\
  (ad = true -> same = false -> forall calls k A b, nth_error calls k = Some (A, b) -> same_pattern A J ->
     nth_error (cudss_run be adj calls) k = Some (fresh be A b)) /\
  (same = true -> fd = true -> adj = fwd) /\
  (fd = false -> ad = false -> fwd = None /\ adj = None).
Proof.
  unfold prewarm. cbn [negb]. intros E.
  split; [|split; [|split]].
  - intros -> calls k A b G P. destruct ad, same; cbn in E; inversion E; subst fwd; exact (run_state be _ calls J eq_refl k A b G P).
  - intros -> -> calls k A b G P. destruct fd; cbn in E; inversion E; subst adj; exact (run_state be _ calls J eq_refl k A b G P).
  - intros -> ->. destruct ad; cbn in E; inversion E; reflexivity.
  - intros -> ->. cbn in E. inversion E; auto.
Qed.
Print Assumptions C98_prewarm.

(** A concrete case: a 2 by 2 symmetric matrix stored by its upper triangle with a padding entry, an
    exact solution, and a wrong one. *)
Example C98_example :
  let T := [((0, 0)%nat, 2); ((0, 1)%nat, 1); ((1, 1)%nat, 2); ((2, 2)%nat, 0)] in
  stored_as UPPER T /\ op UPPER T 1 0 = 1 /\
  (forall i, check_conv 2 UPPER T (fun _ => Some 1) (fun _ => Some 3) (1 / 10) i = Some 1) /\
  all_nan 2 (check_conv 2 UPPER T (fun _ => Some 0) (fun _ => Some 3) (1 / 10)).
Proof.
  intros T.
  assert (S : stored_as UPPER T) by (intros e [<-|[<-|[<-|[<-|[]]]]]; cbn; lia).
  assert (O : op UPPER T 0 0 = 2 /\ op UPPER T 0 1 = 1 /\ op UPPER T 1 0 = 1 /\ op UPPER T 1 1 = 2) by (repeat split; cbn; ring).
  destruct O as [O1 [O2 [O3 O4]]].
  assert (F : 0 < / 10 ^ 12) by (apply Rinv_0_lt_compat; apply pow_lt; lra).
  assert (F1 : / 10 ^ 12 <= 1) by (rewrite <- Rinv_1; apply Rinv_le_contravar; [lra | apply pow_R1_Rle; lra]).
  split; [exact S|]. split; [exact O3|]. split.
  - destruct (C98_check 2 UPPER T (fun _ => Some 1) (fun _ => Some 3) (fun _ => 1) (fun _ => 3) (1 / 10) S) as [Y _]; [intros i Hi; reflexivity | intros i Hi; reflexivity |].
    intros i. rewrite Y; [reflexivity|].
    replace (nrm 2 (fun i0 => ap 2 (op UPPER T) (fun _ => 1) i0 - 3)) with 0.
    + pose proof (nrm_pos 2 (fun _ => 3)). lra.
    + unfold nrm. cbn [rs]. unfold ap. cbn [rs]. rewrite O1, O2, O3, O4.
      replace (0 + _ + _) with 0 by ring. symmetry. apply sqrt_0.
  - destruct (C98_check 2 UPPER T (fun _ => Some 0) (fun _ => Some 3) (fun _ => 0) (fun _ => 3) (1 / 10) S) as [_ N]; [intros i Hi; reflexivity | intros i Hi; reflexivity |].
    apply N. replace (nrm 2 (fun i0 => ap 2 (op UPPER T) (fun _ => 0) i0 - 3)) with (nrm 2 (fun _ => 3)).
    + assert (3 <= nrm 2 (fun _ => 3)).
      { unfold nrm. cbn [rs]. rewrite <- (sqrt_square 3) at 1 by lra. apply sqrt_le_1_alt. lra. }
      lra.
    + unfold nrm. f_equal. cbn [rs]. unfold ap. cbn [rs]. ring.
Qed.
