(** C99: the Arnoldi process of the GPU buckling solver, its Ritz pairs and its outputs; the captured sparsity structure. *)
From Coq Require Import Reals List Arith Bool Lra Lia.
From Verif Require Import Base Tmc_Model Tmc_Props LinCheck_Model LinCheck_Props Eigen_Model Eigen_Props Krylov_Model.
Import ListNotations.
Open Scope R_scope.

(** ** Norms *)
Lemma vn_nrm n x : vnorm n x = nrm n x.
Proof. reflexivity. Qed.
Lemma vn_pos n x : 0 <= vnorm n x. Proof. apply sqrt_pos. Qed.
Lemma vn_sq n x : vnorm n x * vnorm n x = dotp n x x. Proof. apply nrm_sq. Qed.
Lemma dot_pos n x : 0 <= dotp n x x. Proof. apply rs_nonneg. intros; apply Rle_0_sqr. Qed.
Lemma vn_zero n x : vnorm n x = 0 -> forall i, (i < n)%nat -> x i = 0.
Proof.
  intros E i Hi. assert (D : dotp n x x = 0) by (rewrite <- vn_sq, E; ring).
  assert (x i * x i = 0) by (apply (rs_zero_inv n (fun i => x i * x i)); [intros; apply Rle_0_sqr | exact D | exact Hi]). nra.
Qed.
Lemma vn_ext n x y : (forall i, (i < n)%nat -> x i = y i) -> vnorm n x = vnorm n y.
Proof. intros E. unfold vnorm. f_equal. apply rs_ext; intros i Hi. rewrite (E i Hi). reflexivity. Qed.
Lemma vn_of_zero n x : (forall i, (i < n)%nat -> x i = 0) -> vnorm n x = 0.
Proof. intros E. unfold vnorm. replace (dotp n x x) with 0; [apply sqrt_0|]. symmetry. apply rs_zero. intros i Hi. rewrite (E i Hi). ring. Qed.
Lemma vn_scale n c x : vnorm n (fun i => c * x i) = Rabs c * vnorm n x.
Proof.
  unfold vnorm. rewrite <- (sqrt_Rsqr_abs c), <- sqrt_mult; [|apply Rle_0_sqr | apply dot_pos]. f_equal. unfold dotp, Rsqr. rewrite <- rs_scale. apply rs_ext; intros; ring.
Qed.
Lemma vn_add n x y : vnorm n (fun i => x i + y i) <= vnorm n x + vnorm n y.
Proof.
  pose proof (cs_nrm n x y) as C. change (rs n (fun i => x i * y i) <= vnorm n x * vnorm n y) in C. pose proof (vn_pos n x). pose proof (vn_pos n y).
  apply Rsqr_incr_0_var; [|lra]. unfold Rsqr. rewrite vn_sq. unfold dotp.
  rewrite (rs_ext n _ (fun i => x i * x i + (2 * (x i * y i) + y i * y i))) by (intros; ring).
  rewrite !rs_plus, rs_scale. pose proof (vn_sq n x) as A. pose proof (vn_sq n y) as B. unfold dotp in A, B. rewrite <- A, <- B.
  set (a := vnorm n x) in *. set (b := vnorm n y) in *. set (q := rs n (fun i => x i * y i)) in *. clearbody a b q. nra.
Qed.
Lemma vn_sum n m (f : nat -> vec) : vnorm n (fun i => rs m (fun c => f c i)) <= rs m (fun c => vnorm n (f c)).
Proof.
  induction m as [|k IH]; cbn [rs]; [right; apply vn_of_zero; reflexivity|].
  eapply Rle_trans; [apply (vn_add n (fun i => rs k (fun c => f c i)) (f k)) | lra].
Qed.

Lemma dot_sub_sum n m (x w : vec) (h : nat -> R) (V : nat -> vec) :
  dotp n x (fun i => w i - rs m (fun k => h k * V k i)) = dotp n x w - rs m (fun k => h k * dotp n x (V k)).
Proof.
  unfold dotp. rewrite (rs_ext n _ (fun i => x i * w i - rs m (fun k => h k * (x i * V k i)))).
  2:{ intros i Hi. rewrite Rmult_minus_distr_l, <- rs_scale. f_equal. apply rs_ext; intros; ring. }
  rewrite rs_minus, rs_swap. f_equal. apply rs_ext; intros k Hk. rewrite <- rs_scale. reflexivity.
Qed.

(** ** Specification of the basis *)
(** a row is zero *)
Definition zrow (V : nat -> vec) (r : nat) : Prop := forall i, V r i = 0.
(** rows have length one or are zero, and distinct rows are orthogonal *)
Definition orthonormal_or_zero (n : nat) (V : nat -> vec) : Prop :=
  (forall r, dotp n (V r) (V r) = 1 \/ zrow V r) /\ (forall r s, r <> s -> dotp n (V r) (V s) = 0).

Lemma dot_zrow n V r x : zrow V r -> dotp n (V r) x = 0.
Proof. intros Z. apply rs_zero. intros i Hi. rewrite Z. ring. Qed.
Lemma dot_comm n x y : dotp n x y = dotp n y x.
Proof. apply rs_ext; intros; ring. Qed.
Lemma mv_zrow n A V r i : zrow V r -> mv n A (V r) i = 0.
Proof. intros Z. apply rs_zero. intros k Hk. rewrite Z. ring. Qed.

Lemma gs_orth n m V w k : orthonormal_or_zero n V -> (k <= m)%nat ->
  dotp n (V k) (fun i => w i - rs (S m) (fun l => dotp n (V l) w * V l i)) = 0.
Proof.
  intros [U O] Hk. rewrite dot_sub_sum.
  rewrite (rs_ext (S m) _ (fun l => (if l =? k then 1 else 0) * (dotp n (V k) w * dotp n (V k) (V k)))).
  2:{ intros l Hl. destruct (Nat.eqb_spec l k) as [->|N]; [ring|]. rewrite (O k l) by congruence. ring. }
  rewrite (rs_delta (S m) k (fun _ => dotp n (V k) w * dotp n (V k) (V k))) by lia.
  destruct (U k) as [E|Z]; [rewrite E; ring|]. rewrite !(dot_zrow n V k _ Z). ring.
Qed.

(** state after the columns 0..j-1 *)
Record inv (n m : nat) (A : mat) (eps : R) (j : nat) (V : nat -> vec) (H : mat) : Prop := {
  i_on : orthonormal_or_zero n V;
  i_late : forall r, (j < r)%nat -> zrow V r;
  i_hess : forall r c, (c < j)%nat -> (S c < r)%nat -> H r c = 0;
  i_rowz : forall r c, (c < j)%nat -> r <> S c -> zrow V r -> H r c = 0;
  i_sub : forall c, (c < j)%nat -> 0 <= H (S c) c /\ (H (S c) c <= eps -> zrow V (S c)) /\ (zrow V c -> H (S c) c = 0) /\ (eps < H (S c) c -> dotp n (V (S c)) (V (S c)) = 1);
  i_rel : forall c, (c < j)%nat -> exists e : vec,
      (forall i, (i < n)%nat -> mv n A (V c) i = rs (S m) (fun r => H r c * V r i) + e i) /\
      vnorm n e <= eps /\ (H (S c) c = 0 \/ eps < H (S c) c -> forall i, (i < n)%nat -> e i = 0)
}.

Lemma inv_step n m A eps j V H : 0 <= eps -> (j < m)%nat -> inv n m A eps j V H ->
  let st := arnoldi_step n m A eps (V, H) j in inv n m A eps (S j) (fst st) (snd st).
Proof.
  intros Pe Hj I.
  set (w := mv n A (V j)). set (h1 := fun k => dotp n (V k) w).
  set (w1 := fun i => w i - rs (S m) (fun k => h1 k * V k i)).
  set (h2 := fun k => dotp n (V k) w1).
  set (w2 := fun i => w1 i - rs (S m) (fun k => h2 k * V k i)).
  set (beta := vnorm n w2). set (s := if Rlt_dec eps beta then 1 / beta else 0).
  change (inv n m A eps (S j) (fun r => if r =? S j then (fun i => s * w2 i) else V r) (fun r c => if c =? j then (if r =? S j then beta else h1 r + h2 r) else H r c)).
  destruct I as [On La He Rz Su Re].
  assert (Zj : zrow V (S j)) by (apply La; lia).
  assert (O2 : forall k, dotp n (V k) w2 = 0).
  { intros k. destruct (le_lt_dec k m) as [L|L].
    - unfold w2, h2. apply (gs_orth n m V w1 k On L).
    - apply dot_zrow. apply La. lia. }
  assert (Pb : 0 <= beta) by apply vn_pos.
  assert (Sb : s <> 0 -> s * s * dotp n w2 w2 = 1 /\ s * beta = 1).
  { unfold s. destruct (Rlt_dec eps beta) as [L|L]; [|congruence]. intros _. rewrite <- vn_sq. fold beta. split; field; lra. }
  assert (S0 : beta <= eps -> s = 0) by (intros L; unfold s; destruct (Rlt_dec eps beta); lra).
  assert (S1 : eps < beta -> s <> 0) by (intros L; unfold s; destruct (Rlt_dec eps beta) as [Q|Q]; [intros E; apply (f_equal (fun t => t * beta)) in E; unfold Rdiv in E; rewrite Rmult_assoc, Rinv_l in E; lra | lra]).
  constructor.
  - (* orthonormal *) destruct On as [U O]. split.
    + intros r. destruct (Nat.eqb_spec r (S j)) as [->|N].
      * destruct (Req_dec s 0) as [E|E].
        -- right. intros i. rewrite Nat.eqb_refl, E. ring.
        -- left. destruct (Sb E) as [Q _]. rewrite <- Q. unfold dotp. rewrite <- rs_scale. apply rs_ext; intros; ring.
      * destruct (U r) as [E|Z]; [left; exact E|]. right. intros i. destruct (Nat.eqb_spec r (S j)); [congruence|]. apply Z.
    + assert (G : forall r, dotp n (V r) (fun i => s * w2 i) = 0).
      { intros r. rewrite <- (Rmult_0_r s), <- (O2 r). unfold dotp. rewrite <- rs_scale. apply rs_ext; intros; ring. }
      intros r t N. destruct (Nat.eqb_spec r (S j)) as [->|Nr]; destruct (Nat.eqb_spec t (S j)) as [->|Nt];
        first [ apply G | rewrite dot_comm; apply G | apply O; exact N | congruence ].
  - intros r L i. destruct (Nat.eqb_spec r (S j)); [lia|]. apply La. lia.
  - intros r c Hc Hr. destruct (Nat.eqb_spec c j) as [->|N].
    + destruct (Nat.eqb_spec r (S j)); [lia|]. unfold h1, h2. rewrite !(dot_zrow n V r); [ring | apply La; lia | apply La; lia].
    + apply He; lia.
  - intros r c Hc Nr Z.
    destruct (Nat.eqb_spec c j) as [->|N].
    + destruct (Nat.eqb_spec r (S j)); [congruence|].
      assert (Z' : zrow V r) by (intros i; specialize (Z i); cbv beta in Z; destruct (Nat.eqb_spec r (S j)); [congruence | exact Z]).
      unfold h1, h2. rewrite !(dot_zrow n V r _ Z'). ring.
    + destruct (Nat.eq_dec r (S j)) as [->|Nr']; [apply He; lia|].
      apply Rz; [lia | exact Nr |]. intros i. specialize (Z i). cbv beta in Z. destruct (Nat.eqb_spec r (S j)); [congruence | exact Z].
  - intros c Hc. destruct (Nat.eqb_spec c j) as [->|N].
    + rewrite Nat.eqb_refl. split; [exact Pb|]. split; [|split].
      * intros L i. rewrite Nat.eqb_refl, (S0 L). ring.
      * intros Z. assert (Z' : zrow V j) by (intros i; specialize (Z i); cbv beta in Z; destruct (Nat.eqb_spec j (S j)); [lia | exact Z]).
        apply vn_of_zero. intros i Hi.
        assert (W : forall i, w i = 0) by (intros; apply mv_zrow; exact Z').
        assert (W1 : forall i, w1 i = 0).
        { intros i'. unfold w1. rewrite W, (rs_zero (S m)); [ring|]. intros k Hk. unfold h1. replace (dotp n (V k) w) with 0; [ring|]. symmetry. apply rs_zero. intros q Hq. rewrite W. ring. }
        unfold w2. rewrite W1, (rs_zero (S m)); [ring|]. intros k Hk. unfold h2. replace (dotp n (V k) w1) with 0; [ring|]. symmetry. apply rs_zero. intros q Hq. rewrite W1. ring.
      * intros L. try (cbv beta; rewrite Nat.eqb_refl). destruct (Sb (S1 L)) as [Q _]. rewrite <- Q. unfold dotp. rewrite <- rs_scale. apply rs_ext; intros; ring.
    + destruct (Su c ltac:(lia)) as [P [Q [T Y]]]. split; [exact P|]. split; [|split].
      * intros L i. destruct (Nat.eqb_spec (S c) (S j)); [lia|]. apply (Q L).
      * intros Z. apply T. intros i. specialize (Z i). cbv beta in Z. destruct (Nat.eqb_spec c (S j)); [lia | exact Z].
      * intros L. destruct (Nat.eqb_spec (S c) (S j)); [lia|]. apply (Y L).
  - intros c Hc. destruct (Nat.eqb_spec c j) as [->|N].
    + exists (fun i => w2 i - beta * (s * w2 i)). split.
      * intros i Hi. destruct (Nat.eqb_spec j (S j)); [lia|]. fold w.
        rewrite (rs_ext (S m) _ (fun r => (h1 r * V r i + h2 r * V r i) + (if r =? S j then 1 else 0) * (beta * (s * w2 i)))).
        2:{ intros r Hr. destruct (Nat.eqb_spec r (S j)) as [->|Nr]; [rewrite (Zj i); ring | ring]. }
        rewrite rs_plus, rs_plus, (rs_delta (S m) (S j) (fun _ => beta * (s * w2 i))) by lia.
        unfold w2, w1. ring.
      * rewrite Nat.eqb_refl. destruct (Rle_lt_dec beta eps) as [L|L].
        -- split.
           ++ rewrite (vn_ext n _ w2); [exact L|]. intros i Hi. rewrite (S0 L). ring.
           ++ intros [E|E]; [|lra]. intros i Hi. rewrite (vn_zero n w2 E i Hi). ring.
        -- destruct (Sb (S1 L)) as [_ Q]. assert (E : forall i, w2 i - beta * (s * w2 i) = 0).
           { intros i. replace (beta * (s * w2 i)) with ((s * beta) * w2 i) by ring. rewrite Q. ring. }
           split; [|intros _ i _; apply E]. rewrite vn_of_zero; [exact Pe | intros i _; apply E].
    + destruct (Re c ltac:(lia)) as [e [E1 E2]]. exists e. split; [|exact E2].
      intros i Hi. destruct (Nat.eqb_spec c (S j)); [lia|]. rewrite (E1 i Hi). f_equal. apply rs_ext; intros r Hr.
      destruct (Nat.eqb_spec r (S j)) as [->|Nr]; [|reflexivity]. rewrite (He (S j) c) by lia. ring.
Qed.

Lemma inv_run n m A eps v0 : 0 <= eps -> vnorm n v0 <> 0 -> forall j, (j <= m)%nat ->
  let st := fold_left (arnoldi_step n m A eps) (seq 0 j) (arnoldi_start n v0) in inv n m A eps j (fst st) (snd st).
Proof.
  intros Pe Nz. induction j as [|j IH]; intros Hj; cbv zeta.
  - cbn [seq fold_left]. unfold arnoldi_start; cbn [fst snd].
    assert (U0 : dotp n (fun i => v0 i / vnorm n v0) (fun i => v0 i / vnorm n v0) = 1).
    { unfold dotp. rewrite (rs_ext n _ (fun i => (/ vnorm n v0 * / vnorm n v0) * (v0 i * v0 i))) by (intros; unfold Rdiv; ring).
      rewrite rs_scale. pose proof (vn_sq n v0) as Q. unfold dotp in Q. rewrite <- Q. field. exact Nz. }
    constructor; try (intros; lia).
    + split.
      * intros r. destruct (Nat.eqb_spec r 0) as [->|N]; [left; exact U0|].
        right. intros i. destruct (Nat.eqb_spec r 0); [congruence | reflexivity].
      * intros r s N. destruct (Nat.eqb_spec r 0) as [->|Nr].
        -- destruct (Nat.eqb_spec s 0); [congruence|]. apply rs_zero; intros; ring.
        -- apply rs_zero; intros; ring.
    + intros r L i. destruct (Nat.eqb_spec r 0); [lia | reflexivity].
  - rewrite seq_S, fold_left_app. cbn [fold_left Nat.add].
    specialize (IH ltac:(lia)). cbv zeta in IH. destruct (fold_left _ (seq 0 j) _) as [V H]. apply (inv_step n m A eps j V H Pe ltac:(lia) IH).
Qed.

Lemma inv_final n m A eps v0 V H : 0 <= eps -> vnorm n v0 <> 0 -> arnoldi n m A eps v0 = (V, H) -> inv n m A eps m V H.
Proof. intros Pe Nz E. pose proof (inv_run n m A eps v0 Pe Nz m (le_n m)) as I. cbv zeta in I. unfold arnoldi in E. rewrite E in I. exact I. Qed.

(** For every operator, start vector that is not zero and number of steps: the basis rows are orthonormal until the process
    breaks down and zero afterwards; [H] is upper Hessenberg; and [T V_c = sum_r H_rc V_r] up to [eps] (1e-30), exactly
    unless the column's new direction has length in (0, eps]. *)
Theorem C99_arnoldi n m A eps v0 V H : 0 <= eps -> vnorm n v0 <> 0 -> arnoldi n m A eps v0 = (V, H) ->
  dotp n (V 0%nat) (V 0%nat) = 1 /\
  (forall r, dotp n (V r) (V r) = 1 \/ forall i, V r i = 0) /\
  (forall r s, r <> s -> dotp n (V r) (V s) = 0) /\
  (forall r, (r < m)%nat -> (forall i, V r i = 0) -> forall i, V (S r) i = 0) /\
  (forall r c, (c < m)%nat -> (S c < r)%nat -> H r c = 0) /\
  (forall c, (c < m)%nat -> exists e : vec,
     (forall i, (i < n)%nat -> mv n A (V c) i = rs (S m) (fun r => H r c * V r i) + e i) /\
     vnorm n e <= eps /\ (H (S c) c = 0 \/ eps < H (S c) c -> forall i, (i < n)%nat -> e i = 0)).
Proof.
  intros Pe Nz E. pose proof (inv_final n m A eps v0 V H Pe Nz E) as [On La He Rz Su Re].
  split.
  { assert (G : forall j st, dotp n (fst st 0%nat) (fst st 0%nat) = 1 -> dotp n (fst (fold_left (arnoldi_step n m A eps) (seq j (m - j)) st) 0%nat) (fst (fold_left (arnoldi_step n m A eps) (seq j (m - j)) st) 0%nat) = 1).
    { intros j. generalize (m - j)%nat as k. intros k. revert j. induction k as [|k IH]; intros j st Q; [exact Q|]. cbn [seq fold_left]. apply IH. destruct st as [V' H']. exact Q. }
    specialize (G 0%nat (arnoldi_start n v0)). rewrite Nat.sub_0_r in G. unfold arnoldi in E. rewrite E in G. apply G.
    cbn [fst arnoldi_start]. cbn [Nat.eqb]. unfold dotp. rewrite (rs_ext n _ (fun i => (/ vnorm n v0 * / vnorm n v0) * (v0 i * v0 i))) by (intros; unfold Rdiv; ring).
    rewrite rs_scale. pose proof (vn_sq n v0) as Q. unfold dotp in Q. rewrite <- Q. field. exact Nz. }
  destruct On as [U O]. split; [exact U|]. split; [exact O|]. split; [|split; [exact He | exact Re]].
  intros r Hr Z. destruct (Su r Hr) as [_ [Q [T _]]]. apply Q. rewrite (T Z). exact Pe.
Qed.
Print Assumptions C99_arnoldi.

(** ** Ritz pairs *)
(** the eigenpairs NumPy returns for the square part of [H] *)
Definition eig_pair (m : nat) (H : mat) (mu : R) (y : vec) : Prop := forall r, (r < m)%nat -> rs m (fun c => H r c * y c) = mu * y r.
(** the vector with coordinates [y] in the basis *)
Definition lift (m : nat) (V : nat -> vec) (y : vec) : vec := fun i => rs m (fun c => y c * V c i).

Lemma ritz_id n m A eps V H mu y : inv n (S m) A eps (S m) V H -> eig_pair (S m) H mu y ->
  exists d : vec, (forall i, (i < n)%nat -> mv n A (lift (S m) V y) i - mu * lift (S m) V y i = H (S m) m * y m * V (S m) i + d i) /\
    vnorm n d <= eps * rs (S m) (fun c => Rabs (y c)) /\
    ((forall c, (c < S m)%nat -> H (S c) c = 0 \/ eps < H (S c) c) -> forall i, (i < n)%nat -> d i = 0).
Proof.
  intros [On La He Rz Su Re] Ey.
  assert (C : exists e : nat -> vec, forall c, (c < S m)%nat ->
     (forall i, (i < n)%nat -> mv n A (V c) i = rs (S (S m)) (fun r => H r c * V r i) + e c i) /\
     vnorm n (e c) <= eps /\ (H (S c) c = 0 \/ eps < H (S c) c -> forall i, (i < n)%nat -> e c i = 0)).
  { exists (fun c i => mv n A (V c) i - rs (S (S m)) (fun r => H r c * V r i)). intros c Hc. destruct (Re c Hc) as [e [E1 [E2 E3]]].
    split; [intros; ring|].
    assert (X : forall i, (i < n)%nat -> mv n A (V c) i - rs (S (S m)) (fun r => H r c * V r i) = e i) by (intros i Hi; rewrite (E1 i Hi); ring).
    split; [rewrite (vn_ext n _ e X); exact E2|]. intros Q i Hi. rewrite (X i Hi). apply (E3 Q i Hi). }
  destruct C as [e Ce]. exists (fun i => rs (S m) (fun c => y c * e c i)). split; [|split].
  - intros i Hi.
    assert (M : mv n A (lift (S m) V y) i = rs (S m) (fun c => y c * mv n A (V c) i)).
    { unfold mv, lift. rewrite (rs_ext n _ (fun k => rs (S m) (fun c => y c * (A i k * V c k)))).
      - rewrite rs_swap. apply rs_ext; intros c Hc. rewrite rs_scale. reflexivity.
      - intros k Hk. rewrite <- rs_scale. apply rs_ext; intros; ring. }
    rewrite M, (rs_ext (S m) _ (fun c => rs (S (S m)) (fun r => (H r c * y c) * V r i) + y c * e c i)).
    2:{ intros c Hc. destruct (Ce c Hc) as [E1 _]. rewrite (E1 i Hi), Rmult_plus_distr_l, <- rs_scale. f_equal. apply rs_ext; intros; ring. }
    rewrite rs_plus, rs_swap, (rs_ext (S (S m)) _ (fun r => rs (S m) (fun c => H r c * y c) * V r i)).
    2:{ intros r Hr. rewrite <- rs_scale_r. reflexivity. }
    set (D := rs (S m) (fun c => y c * e c i)).
    change (rs (S (S m)) (fun r => rs (S m) (fun c => H r c * y c) * V r i)) with (rs (S m) (fun r => rs (S m) (fun c => H r c * y c) * V r i) + rs (S m) (fun c => H (S m) c * y c) * V (S m) i).
    rewrite (rs_ext (S m) (fun r => rs (S m) (fun c => H r c * y c) * V r i) (fun r => mu * (y r * V r i))).
    2:{ intros r Hr. rewrite (Ey r Hr). ring. }
    rewrite rs_scale. fold (lift (S m) V y i).
    replace (rs (S m) (fun c => H (S m) c * y c)) with (H (S m) m * y m).
    2:{ cbn [rs]. rewrite (rs_zero m); [ring|]. intros c Hc. rewrite (He (S m) c) by lia. ring. }
    ring.
  - eapply Rle_trans; [apply (vn_sum n (S m) (fun c i => y c * e c i))|].
    rewrite <- rs_scale. apply rs_le. intros c Hc. rewrite vn_scale. destruct (Ce c Hc) as [_ [E2 _]]. rewrite Rmult_comm. apply Rmult_le_compat_r; [apply Rabs_pos | exact E2].
  - intros Q i Hi. apply rs_zero. intros c Hc. destruct (Ce c Hc) as [_ [_ E3]]. rewrite (E3 (Q c Hc) i Hi). ring.
Qed.

(** Each eigenpair [(mu, y)] of the small matrix gives a vector whose eigen-residual for [T] is at most the last subdiagonal
    entry times the last coefficient, up to 1e-30 times the coefficients. *)
Theorem C99_ritz n m A eps v0 V H mu y : 0 <= eps -> vnorm n v0 <> 0 -> arnoldi n (S m) A eps v0 = (V, H) -> eig_pair (S m) H mu y ->
  vnorm n (fun i => mv n A (lift (S m) V y) i - mu * lift (S m) V y i) <= H (S m) m * Rabs (y m) + eps * rs (S m) (fun c => Rabs (y c)).
Proof.
  intros Pe Nz E Ey. pose proof (inv_final n (S m) A eps v0 V H Pe Nz E) as I.
  destruct (ritz_id n m A eps V H mu y I Ey) as [d [D1 [D2 _]]].
  rewrite (vn_ext n _ (fun i => (H (S m) m * y m) * V (S m) i + d i)) by (intros i Hi; apply (D1 i Hi)).
  eapply Rle_trans; [apply (vn_add n (fun i => (H (S m) m * y m) * V (S m) i) d)|].
  apply Rplus_le_compat; [|exact D2]. rewrite vn_scale, Rabs_mult. destruct I as [[U _] _ _ _ Su _].
  destruct (Su m ltac:(lia)) as [P _]. rewrite (Rabs_pos_eq _ P).
  rewrite <- (Rmult_1_r (H (S m) m * Rabs (y m))) at 2. apply Rmult_le_compat_l; [apply Rmult_le_pos; [exact P | apply Rabs_pos]|].
  unfold vnorm. destruct (U (S m)) as [Q|Z]; [rewrite Q, sqrt_1; lra|]. rewrite (dot_zrow n V (S m) _ Z), sqrt_0. lra.
Qed.
Print Assumptions C99_ritz.

Lemma zrow_on n m A eps V H : 0 <= eps -> inv n m A eps m V H -> forall c d, (c <= d <= m)%nat -> zrow V c -> zrow V d.
Proof.
  intros Pe I c d L Z. destruct L as [L1 L2]. induction L1 as [|d L1 IH]; [exact Z|].
  specialize (IH ltac:(lia)). destruct (i_sub _ _ _ _ _ _ _ I d ltac:(lia)) as [_ [Q [T _]]]. apply Q. rewrite (T IH). exact Pe.
Qed.

(** If the Krylov space becomes invariant - some subdiagonal entry is zero - the eigenpairs of the small matrix with [mu <> 0]
    are exact: the lifted vector is not zero, has the length of its coefficients, and solves [K x + lambda Kg x = 0] with
    [lambda = 1 / mu]. The zero columns after the breakdown only produce [mu = 0], which the selection drops. *)
Theorem C99_exact n m A Kf Gf eps v0 V H mu y : 0 <= eps -> vnorm n v0 <> 0 -> arnoldi n (S m) A eps v0 = (V, H) -> eig_pair (S m) H mu y ->
  (forall i j, (i < n)%nat -> (j < n)%nat -> mmul n Kf A i j = - Gf i j) ->
  (forall c, (c < S m)%nat -> H (S c) c = 0 \/ eps < H (S c) c) ->
  (exists c, (c < S m)%nat /\ H (S c) c = 0) ->
  mu <> 0 -> (exists r, (r < S m)%nat /\ y r <> 0) ->
  let x := lift (S m) V y in
  dotp n x x = dotp (S m) y y /\ (exists i, (i < n)%nat /\ x i <> 0) /\
  forall i, (i < n)%nat -> mv n A x i = mu * x i /\ mv n Kf x i + / mu * mv n Gf x i = 0.
Proof.
  intros Pe Nz E Ey KA Gap [c0 [Hc0 Br]] Mu [r0 [Hr0 Yr]] x.
  pose proof (inv_final n (S m) A eps v0 V H Pe Nz E) as I.
  assert (Zm : zrow V (S m)).
  { apply (zrow_on n (S m) A eps V H Pe I (S c0) (S m)); [lia|].
    destruct (i_sub _ _ _ _ _ _ _ I c0 Hc0) as [_ [Q _]]. apply Q. rewrite Br. exact Pe. }
  assert (Ax : forall i, (i < n)%nat -> mv n A x i = mu * x i).
  { intros i Hi. destruct (ritz_id n m A eps V H mu y I Ey) as [d [D1 [_ D3]]].
    specialize (D1 i Hi). rewrite (D3 Gap i Hi), (Zm i) in D1. fold x in D1. lra. }
  assert (Supp : forall r, (r < S m)%nat -> zrow V r -> y r = 0).
  { intros r Hr Z. assert (Q : rs (S m) (fun c => H r c * y c) = 0).
    { apply rs_zero. intros c Hc. replace (H r c) with 0; [ring|]. symmetry. destruct (Nat.eq_dec r (S c)) as [->|N].
      - destruct (Gap c Hc) as [G|G]; [exact G|]. exfalso.
        destruct (i_sub _ _ _ _ _ _ _ I c Hc) as [_ [_ [_ Y]]]. specialize (Y G). rewrite (dot_zrow n V (S c) _ Z) in Y. lra.
      - apply (i_rowz _ _ _ _ _ _ _ I r c Hc N Z). }
    rewrite (Ey r Hr) in Q. apply Rmult_integral in Q. tauto. }
  assert (Len : dotp n x x = dotp (S m) y y).
  { destruct (i_on _ _ _ _ _ _ _ I) as [U O]. unfold dotp at 1, x, lift.
    rewrite (rs_ext n _ (fun i => rs (S m) (fun c => y c * (rs (S m) (fun d => y d * (V c i * V d i)))))).
    2:{ intros i Hi. rewrite <- rs_scale_r. apply rs_ext; intros c Hc. rewrite Rmult_assoc. f_equal. rewrite <- rs_scale. apply rs_ext; intros; ring. }
    rewrite rs_swap. unfold dotp. apply rs_ext; intros c Hc. rewrite rs_scale. f_equal. rewrite rs_swap.
    rewrite (rs_ext (S m) _ (fun d => (if d =? c then 1 else 0) * y c)).
    - apply (rs_delta (S m) c (fun _ => y c) Hc).
    - intros d Hd. rewrite rs_scale. change (y d * dotp n (V c) (V d) = (if d =? c then 1 else 0) * y c).
      destruct (Nat.eqb_spec d c) as [->|N].
      + destruct (U c) as [Q|Z]; [rewrite Q; ring|]. rewrite (Supp c Hc Z). ring.
      + rewrite (O c d) by congruence. ring. }
  split; [exact Len|]. split.
  - destruct (Req_dec (vnorm n x) 0) as [Q|Q].
    + exfalso. pose proof (vn_sq n x) as S1. rewrite Q, Len in S1.
      assert (y r0 * y r0 = 0) by (apply (rs_zero_inv (S m) (fun r => y r * y r)); [intros; apply Rle_0_sqr | unfold dotp in S1; lra | exact Hr0]). nra.
    + assert (D : forall k, (forall i, (i < k)%nat -> x i = 0) \/ exists i, (i < k)%nat /\ x i <> 0).
      { induction k as [|k IHk]; [left; intros; lia|]. destruct IHk as [A0|[i [Hi Xi]]]; [|right; exists i; split; [lia | exact Xi]].
        destruct (Req_dec (x k) 0) as [X0|X0]; [|right; exists k; split; [lia | exact X0]].
        left. intros i Hi. destruct (Nat.eq_dec i k) as [->|]; [exact X0 | apply A0; lia]. }
      destruct (D n) as [A0|D0]; [exfalso; apply Q; apply vn_of_zero; exact A0 | exact D0].
  - intros i Hi. split; [apply Ax; exact Hi|].
    assert (G : mv n Gf x i = - (mu * mv n Kf x i)).
    { rewrite <- (Ropp_involutive (mv n Gf x i)). f_equal.
      rewrite <- mv_scale, <- (mv_ext n Kf (mv n A x) (fun k => mu * x k) i Ax), <- mv_mmul.
      unfold mv. rewrite <- (Rmult_1_l (rs n (fun k => Gf i k * x k))), Ropp_mult_distr_l, <- rs_scale. apply rs_ext; intros k Hk. rewrite (KA i k Hi Hk). ring. }
    rewrite G. field. exact Mu.
Qed.
Print Assumptions C99_exact.


(** ** The outputs *)
(** What a call that does not raise returns: as many entries as modes asked for; first the finite factors in ascending order,
    each above [tiny] and the inverse of an eigenvalue [mu] of the small matrix, with a mode proportional to the lifted
    eigenvector and of K-norm [e / (e + floor)] (one up to 1e-300) when its energy [e] is positive; then infinity with zero
    modes; and with a tolerance there is at least one factor and the eigen-residual of the first, scaled, mode is at most the
    tolerance. *)
Theorem C99_gpu n m mo A Kf eps floor tiny tol v0 eig out V H :
  0 <= floor -> arnoldi n m A eps v0 = (V, H) ->
  gpu_forward n m mo A Kf eps floor tiny tol v0 eig = Some out ->
  exists fin : list (R * vec),
    out = map (fun p => (Fin (fst p), snd p)) fin ++ repeat (Inf, fun _ => 0) (mo - length fin) /\
    length out = mo /\ ascending (map fst fin) /\
    (forall l phi, In (l, phi) fin ->
       tiny < l /\ exists mu y c, In (mu, y) (eig H) /\ mu <> 0 /\ l = / mu /\
         (forall i, phi i = c * lift m V y i) /\
         let x := fun i => lift m V y i / (vnorm m y + eps) in let e := dotp n x (mv n Kf x) in
         (0 < e -> dotp n phi (mv n Kf phi) = e / (e + floor)) /\ (e <= 0 -> forall i, phi i = 0)) /\
    (forall t, tol = Some t -> fin <> [] /\ forall l phi, nth_error fin 0 = Some (l, phi) ->
       vnorm n (fun i => mv n A (fun k => phi k / (vnorm n phi + eps)) i - / l * (phi i / (vnorm n phi + eps))) <= t).
Proof.
  intros Fl Ar G. unfold gpu_forward in G. rewrite Ar in G. unfold host_ritz in G.
  destruct (select_spec mo (keep (sparse_factor tiny) (eig H))) as [Asc [Len [Sub _]]].
  set (sel := select mo (keep (sparse_factor tiny) (eig H))) in *.
  set (mk := fun p : pair => (fst p, fun i => ritz_vec m eps V (snd p) i * k_scale n Kf floor (ritz_vec m eps V (snd p)))).
  assert (G' : out = map (fun p => (Fin (fst p), snd p)) (map mk sel) ++ repeat (Inf, fun _ => 0) (mo - length sel) /\
     (forall t, tol = Some t -> exists p l, sel = p :: l /\ ~ t < resid0 n A eps (/ fst (mk p)) (snd (mk p)))).
  { fold mk in G. destruct sel as [|p l] eqn:Es.
    - destruct tol as [t|]; [discriminate|]. cbn [map] in *. inversion G. split; [reflexivity|]. intros t Et; discriminate.
    - assert (Q : (match tol with Some _ => Some (p :: l) | None => Some (p :: l) end) = Some (p :: l)) by (destruct tol; reflexivity).
      destruct tol as [t|].
      + cbn [map] in G. fold (mk p) in G. destruct (Rlt_dec t _) as [L|L] in G; [discriminate|]. inversion G. split; [reflexivity|].
        intros t' Et; inversion Et; subst t'. exists p, l. split; [reflexivity | exact L].
      + inversion G. split; [reflexivity|]. intros t Et; discriminate. }
  destruct G' as [Eo Et]. exists (map mk sel). rewrite map_length. split; [exact Eo|]. split; [|split; [|split]].
  - rewrite Eo, app_length, !map_length, repeat_length, Len. lia.
  - rewrite map_map. cbn [mk fst]. exact Asc.
  - intros l phi I. apply in_map_iff in I. destruct I as [p [Ep Ip]]. apply Sub in Ip. apply keep_in in Ip.
    destruct Ip as [[mu y] [Ia Ef]]. unfold sparse_factor in Ef. cbn [fst snd] in Ef.
    destruct (Req_EM_T mu 0) as [|Nm]; [discriminate|]. destruct (Rlt_dec tiny (/ mu)) as [Lt|]; [|discriminate]. inversion Ef; subst p.
    unfold mk in Ep. cbn [fst snd] in Ep. inversion Ep; subst l phi. split; [exact Lt|].
    set (sc := k_scale n Kf floor (ritz_vec m eps V y)).
    assert (Rz : forall i, ritz_vec m eps V y i = lift m V y i / (vnorm m y + eps)).
    { intros i. unfold ritz_vec, lift, Rdiv. rewrite <- rs_scale_r. apply rs_ext; intros; ring. }
    exists mu, y, (sc / (vnorm m y + eps)). split; [exact Ia|]. split; [exact Nm|]. split; [reflexivity|]. split.
    { intros i. rewrite Rz. unfold Rdiv. ring. }
    cbv zeta. set (x := fun i => lift m V y i / (vnorm m y + eps)).
    assert (Ee : dotp n (ritz_vec m eps V y) (mv n Kf (ritz_vec m eps V y)) = dotp n x (mv n Kf x)).
    { apply dot_ext; intros k Hk; [apply Rz|]. apply mv_ext. intros q Hq. apply Rz. }
    assert (Q : dotp n (fun i => ritz_vec m eps V y i * sc) (mv n Kf (fun i => ritz_vec m eps V y i * sc)) = sc * sc * dotp n x (mv n Kf x)).
    { rewrite <- Ee. unfold dotp, mv. rewrite <- rs_scale. apply rs_ext; intros i Hi.
      rewrite (rs_ext n (fun k => Kf i k * (ritz_vec m eps V y k * sc)) (fun k => sc * (Kf i k * ritz_vec m eps V y k))) by (intros; ring). rewrite rs_scale. ring. }
    unfold sc, k_scale in *. rewrite Ee in *. set (e := dotp n x (mv n Kf x)) in *. clearbody e. split.
    + intros Pe. rewrite Q. destruct (Rlt_dec 0 e) as [_|]; [|lra]. rewrite Rabs_pos_eq by lra.
      assert (Pf : 0 < e + floor) by lra. pose proof (sqrt_lt_R0 _ Pf) as Ps.
      replace (1 / sqrt (e + floor) * (1 / sqrt (e + floor)) * e) with (e / (sqrt (e + floor) * sqrt (e + floor))) by (field; lra).
      rewrite sqrt_sqrt by lra. reflexivity.
    + intros Ne i. destruct (Rlt_dec 0 e) as [|_]; [lra|]. ring.
  - intros t E0. destruct (Et t E0) as [p [l [Es L]]]. rewrite Es. split; [discriminate|]. intros l0 phi N. cbn [map nth_error] in N.
    inversion N as [[N1 N2]]. subst l0 phi. apply Rnot_lt_le in L. exact L.
Qed.
Print Assumptions C99_gpu.

(** ** The captured structure *)
(** strict lexicographic order: the slots of a CSR matrix with sorted indices *)
Definition lex_lt (a b : nat * nat) : Prop := (fst a < fst b)%nat \/ (fst a = fst b /\ (snd a < snd b)%nat).
Inductive sorted_lex : list (nat * nat) -> Prop :=
| sl_nil : sorted_lex []
| sl_cons a l : (forall b, In b l -> lex_lt a b) -> sorted_lex l -> sorted_lex (a :: l).

Lemma lex_irr a : ~ lex_lt a a. Proof. unfold lex_lt; lia. Qed.
Lemma lex_trans a b c : lex_lt a b -> lex_lt b c -> lex_lt a c. Proof. unfold lex_lt; lia. Qed.

Lemma sorted_unique l : forall l', sorted_lex l -> sorted_lex l' -> (forall a, In a l <-> In a l') -> l = l'.
Proof.
  induction l as [|a l IH]; intros l' S S' E.
  - destruct l' as [|b l']; [reflexivity|]. destruct (proj2 (E b)); left; reflexivity.
  - destruct l' as [|b l']; [destruct (proj1 (E a)); left; reflexivity|].
    inversion S as [|? ? Sa Sl]; subst. inversion S' as [|? ? Sb Sl']; subst.
    assert (a = b) as ->.
    { destruct (proj1 (E a) (or_introl eq_refl)) as [Q|Q]; [congruence|]. destruct (proj2 (E b) (or_introl eq_refl)) as [P|P]; [congruence|].
      exfalso. apply (lex_irr a). eapply lex_trans; [apply Sa; exact P | apply Sb; exact Q]. }
    f_equal. apply IH; [exact Sl | exact Sl' |]. intros c. split; intros I.
    + destruct (proj1 (E c) (or_intror I)) as [Q|Q]; [|exact Q]. subst c. exfalso. apply (lex_irr b). apply Sa. exact I.
    + destruct (proj2 (E c) (or_intror I)) as [Q|Q]; [|exact Q]. subst c. exfalso. apply (lex_irr b). apply Sb. exact I.
Qed.

Lemma insert_in x l z : In z (lex_insert x l) <-> z = x \/ In z l.
Proof.
  induction l as [|y t IH]; cbn [lex_insert]; [cbn; intuition congruence|].
  destruct (lex_le (snd x) (snd y)); cbn [In]; [intuition congruence|]. rewrite IH. intuition congruence.
Qed.

Lemma lex_le_spec a b : lex_le a b = true <-> lex_lt a b \/ a = b.
Proof.
  unfold lex_le, lex_lt. rewrite orb_true_iff, andb_true_iff, Nat.ltb_lt, Nat.eqb_eq, Nat.leb_le. destruct a as [a1 a2], b as [b1 b2]. cbn [fst snd].
  split.
  - intros [L|[E L]]; [left; left; exact L|]. destruct (Nat.eq_dec a2 b2) as [->|N]; [right; congruence | left; right; lia].
  - intros [[L|L]|E]; [left; exact L | right; lia | inversion E; right; lia].
Qed.

Lemma insert_sorted x l : sorted_lex (map snd l) -> ~ In (snd x) (map snd l) -> sorted_lex (map snd (lex_insert x l)).
Proof.
  induction l as [|y t IH]; intros S N; cbn [lex_insert map]; [constructor; [intros b []| constructor]|].
  cbn [map] in S. inversion S as [|? ? Sa Sl]; subst. destruct (lex_le (snd x) (snd y)) eqn:E.
  - apply lex_le_spec in E. destruct E as [E|E]; [|exfalso; apply N; left; congruence].
    cbn [map]. constructor; [|exact S]. intros b [<-|I]; [exact E|]. eapply lex_trans; [exact E | apply Sa; exact I].
  - cbn [map]. constructor; [|apply IH; [exact Sl | intros I; apply N; right; exact I]].
    intros b I. apply in_map_iff in I. destruct I as [z [<- Iz]]. apply insert_in in Iz. destruct Iz as [->|Iz]; [|apply Sa; apply in_map; exact Iz].
    assert (NE : snd x <> snd y) by (intros Q; apply N; left; congruence).
    destruct (lex_le (snd x) (snd y)) eqn:E2 in E; [discriminate|].
    assert (~ (lex_lt (snd x) (snd y) \/ snd x = snd y)) by (intros Q; apply lex_le_spec in Q; congruence).
    destruct (snd x) as [x1 x2], (snd y) as [y1 y2]. unfold lex_lt in *; cbn [fst snd] in *.
    assert (~ (x1 = y1 /\ x2 = y2)) by (intros [-> ->]; apply NE; reflexivity).
    assert (~ ((x1 < y1)%nat \/ x1 = y1 /\ (x2 < y2)%nat)) by tauto. lia.
Qed.

Lemma sort_spec l : NoDup (map snd l) -> sorted_lex (map snd (fold_right lex_insert [] l)) /\ (forall z, In z (fold_right lex_insert [] l) <-> In z l).
Proof.
  induction l as [|x t IH]; intros D; cbn [fold_right]; [split; [constructor | tauto]|].
  cbn [map] in D. inversion D as [|? ? Nx Dt]; subst. destruct (IH Dt) as [S E]. split.
  - apply insert_sorted; [exact S|]. intros I. apply Nx. apply in_map_iff in I. destruct I as [z [Ez Iz]]. rewrite <- Ez. apply in_map. apply E. exact Iz.
  - intros z. rewrite insert_in, E. cbn [In]. intuition congruence.
Qed.

Lemma sorted_nodup l : sorted_lex l -> NoDup l.
Proof. induction 1 as [|a l H S IH]; constructor; [intros I; apply (lex_irr a); apply H; exact I | exact IH]. Qed.

Lemma combine_seq_nth {A} (l : list A) k s x : In (k, x) (combine (seq s (length l)) l) -> (s <= k < s + length l)%nat /\ forall d, nth (k - s) l d = x.
Proof.
  revert s. induction l as [|a l IH]; intros s I; [destruct I|]. cbn [length seq combine In] in I. destruct I as [E|I].
  - inversion E; subst. cbn [length]. split; [lia|]. intros d. rewrite Nat.sub_diag. reflexivity.
  - destruct (IH (S s) I) as [L N]. cbn [length]. split; [lia|]. intros d. replace (k - s)%nat with (S (k - S s)) by lia. apply N.
Qed.

Lemma tperm_spec red : sorted_lex red -> (forall a b, In (a, b) red -> In (b, a) red) ->
  length (tperm red) = length red /\
  forall q a b, nth_error red q = Some (a, b) -> exists k, nth_error (tperm red) q = Some k /\ nth_error red k = Some (b, a).
Proof.
  intros S Sy. unfold tperm. set (sw := map (fun e : nat * nat => (snd e, fst e)) red).
  set (src := combine (seq 0 (length red)) sw).
  assert (Lsw : length sw = length red) by apply map_length.
  assert (Esrc : map snd src = sw).
  { unfold src. rewrite <- Lsw. clear. generalize 0%nat as s. induction sw as [|x t IH]; intros s; [reflexivity|]. cbn [length seq combine map snd]. f_equal. apply IH. }
  assert (Dsw : NoDup sw).
  { unfold sw. apply FinFun.Injective_map_NoDup; [|apply sorted_nodup; exact S]. intros [x1 x2] [y1 y2] E. cbn in E. congruence. }
  destruct (sort_spec src) as [So Eo]; [rewrite Esrc; exact Dsw|].
  set (out := fold_right lex_insert [] src) in *.
  assert (Eout : map snd out = red).
  { apply sorted_unique; [exact So | exact S |]. intros [a b]. split; intros I.
    - apply in_map_iff in I. destruct I as [z [Ez Iz]]. apply Eo in Iz. assert (J : In (a, b) sw) by (rewrite <- Esrc, <- Ez; apply in_map; exact Iz).
      unfold sw in J. apply in_map_iff in J. destruct J as [[c d] [Ec Ic]]. cbn in Ec. inversion Ec; subst. apply Sy. exact Ic.
    - assert (J : In (a, b) sw) by (unfold sw; apply in_map_iff; exists (b, a); split; [reflexivity | apply Sy; exact I]).
      rewrite <- Esrc in J. apply in_map_iff in J. destruct J as [z [Ez Iz]]. apply in_map_iff. exists z. split; [exact Ez | apply Eo; exact Iz]. }
  split.
  - rewrite map_length, <- (map_length snd out), Eout. reflexivity.
  - intros q a b N. rewrite <- Eout in N. rewrite nth_error_map in N. destruct (nth_error out q) as [[k e]|] eqn:Eq; [|discriminate]. cbn in N. inversion N; subst e.
    exists k. split; [rewrite nth_error_map, Eq; reflexivity|].
    apply nth_error_In in Eq. apply Eo in Eq. unfold src in Eq. rewrite <- Lsw in Eq. apply combine_seq_nth in Eq. destruct Eq as [L Nq].
    specialize (Nq (0, 0)%nat). rewrite Nat.sub_0_r in Nq. rewrite Lsw in L.
    destruct (nth_error red k) as [[c d]|] eqn:Ek; [|apply nth_error_None in Ek; lia].
    unfold sw in Nq. rewrite (nth_indep _ (0, 0)%nat (snd (0, 0)%nat, fst (0, 0)%nat)) in Nq by (rewrite map_length; lia).
    rewrite (map_nth (fun e : nat * nat => (snd e, fst e))) in Nq. rewrite (nth_error_nth red k (0, 0)%nat Ek) in Nq. cbn in Nq. congruence.
Qed.

(** On a structurally symmetric sorted reduced pattern, slot [q] at (a, b) of the symmetrised values is the mean of the
    entries at (a, b) and (b, a). *)
Theorem C99_symmetrised red kf (Kf : mat) :
  sorted_lex red -> (forall a b, In (a, b) red -> In (b, a) red) ->
  length kf = length red -> (forall q a b, nth_error red q = Some (a, b) -> nth_error kf q = Some (Kf a b)) ->
  forall q a b, nth_error red q = Some (a, b) -> nth_error (sym_values red kf) q = Some (1 / 2 * (Kf a b + Kf b a)).
Proof.
  intros S Sy L Kv q a b N. destruct (tperm_spec red S Sy) as [Lt T]. destruct (T q a b N) as [k [Tk Nk]].
  unfold sym_values. rewrite nth_error_map.
  assert (Hq : (q < length kf)%nat) by (rewrite L; apply nth_error_Some; congruence).
  assert (C : nth_error (combine (seq 0 (length kf)) (tperm red)) q = Some (q, k)).
  { clear - Hq Tk. assert (G : forall s n (l : list nat) q k, (q < n)%nat -> nth_error l q = Some k -> nth_error (combine (seq s n) l) q = Some (s + q, k)%nat).
    { intros s n l. revert s n. induction l as [|x l IH]; intros s n q0 k0 H0 E0; [destruct q0; discriminate|]. destruct n as [|n]; [lia|].
      cbn [seq combine]. destruct q0 as [|q0]; cbn [nth_error] in *; [inversion E0; rewrite Nat.add_0_r; reflexivity|].
      replace (s + Datatypes.S q0)%nat with (Datatypes.S s + q0)%nat by lia. apply IH; [lia | exact E0]. }
    apply (G 0%nat (length kf) (tperm red) q k Hq Tk). }
  rewrite C. cbn [option_map fst snd]. f_equal. f_equal. f_equal; apply nth_error_nth; apply Kv; assumption.
Qed.
Print Assumptions C99_symmetrised.

(** The gathered slots are the stored entries whose row and column are both free, at their new numbers. *)
Theorem C99_gather free pattern data (M : mat) :
  NoDup free -> (forall q r c, nth_error pattern q = Some (r, c) -> nth_error data q = Some (M r c)) ->
  (forall a b, In (a, b) (map snd (restrict_map free pattern)) <-> (a < length free)%nat /\ (b < length free)%nat /\ In (nth a free 0%nat, nth b free 0%nat) pattern) /\
  (forall q a b, nth_error (map snd (restrict_map free pattern)) q = Some (a, b) ->
     nth_error (gather (map fst (restrict_map free pattern)) data) q = Some (M (nth a free 0%nat) (nth b free 0%nat))).
Proof.
  intros D Mv.
  assert (R : forall k a b, In (k, (a, b)) (restrict_map free pattern) <-> exists r c, nth_error pattern k = Some (r, c) /\ position r free = Some a /\ position c free = Some b).
  { intros k a b. unfold restrict_map. rewrite in_flat_map. split.
    - intros [[k' [r c]] [I J]]. cbn [fst snd] in J. destruct (position r free) as [a'|] eqn:Pa; [|destruct J]. destruct (position c free) as [b'|] eqn:Pb; [|destruct J].
      destruct J as [J|[]]. inversion J; subst. exists r, c. apply combine_seq_nth in I. destruct I as [L N]. rewrite Nat.sub_0_r in N. split; [|split; assumption].
      destruct (nth_error pattern k) as [e|] eqn:E; [|apply nth_error_None in E; lia]. rewrite <- (N (0, 0)%nat). rewrite (nth_error_nth pattern k _ E). reflexivity.
    - intros [r [c [N [Pa Pb]]]]. exists (k, (r, c)). split.
      + clear - N. assert (G : forall s (l : list (nat * nat)) k e, nth_error l k = Some e -> In (s + k, e)%nat (combine (seq s (length l)) l)).
        { intros s l. revert s. induction l as [|x l IH]; intros s k0 e E; [destruct k0; discriminate|]. cbn [length seq combine]. destruct k0 as [|k0]; cbn [nth_error] in E.
          - inversion E; subst. left. rewrite Nat.add_0_r. reflexivity.
          - right. replace (s + S k0)%nat with (S s + k0)%nat by lia. apply IH. exact E. }
        apply (G 0%nat pattern k (r, c) N).
      + cbn [fst snd]. rewrite Pa, Pb. left. reflexivity. }
  split.
  - intros a b. rewrite in_map_iff. split.
    + intros [[k [a' b']] [E I]]. cbn in E. inversion E; subst. apply R in I. destruct I as [r [c [N [Pa Pb]]]].
      apply position_some in Pa. apply position_some in Pb. destruct Pa as [La Na], Pb as [Lb Nb]. split; [exact La|]. split; [exact Lb|].
      rewrite Na, Nb. apply (nth_error_In pattern k N).
    + intros [La [Lb I]]. apply In_nth_error in I. destruct I as [k N]. exists (k, (a, b)). split; [reflexivity|]. apply R. exists (nth a free 0%nat), (nth b free 0%nat).
      split; [exact N|]. split; apply position_nth; assumption.
  - intros q a b N. unfold gather. rewrite map_map, nth_error_map. rewrite nth_error_map in N.
    destruct (nth_error (restrict_map free pattern) q) as [[k [a' b']]|] eqn:E; [|discriminate]. cbn in N. inversion N; subst. cbn [option_map fst].
    apply nth_error_In in E. apply R in E. destruct E as [r [c [Nk [Pa Pb]]]]. apply position_some in Pa. apply position_some in Pb. destruct Pa as [La Na], Pb as [Lb Nb].
    rewrite Na, Nb. f_equal. apply nth_error_nth. apply Mv. exact Nk.
Qed.
Print Assumptions C99_gather.

(** Without structural symmetry the transposed order does not match and values are mixed up: on the cyclic pattern
    (0,1), (1,2), (2,0) slot (0,1) receives the mean of two unrelated entries. *)
Theorem C99_unsymmetric_refuted : exists red kf (Kf : mat) q a b,
  sorted_lex red /\ length kf = length red /\ (forall q a b, nth_error red q = Some (a, b) -> nth_error kf q = Some (Kf a b)) /\
  nth_error red q = Some (a, b) /\ nth_error (sym_values red kf) q <> Some (1 / 2 * (Kf a b + Kf b a)).
Proof.
  exists [(0, 1); (1, 2); (2, 0)]%nat, [1; 5; 7], (fun a b => match a, b with 0%nat, 1%nat => 1 | 1%nat, 2%nat => 5 | 2%nat, 0%nat => 7 | _, _ => 0 end), 0%nat, 0%nat, 1%nat.
  split.
  { repeat (apply sl_cons; [intros b I; unfold lex_lt; repeat (destruct I as [<-|I]; [cbn; lia|]); destruct I|]). apply sl_nil. }
  split; [reflexivity|]. split.
  { intros q a b N. destruct q as [|[|[|q]]]; cbn in N; try (inversion N; subst; reflexivity). destruct q; discriminate. }
  split; [reflexivity|]. cbn. intros E. inversion E. lra.
Qed.
Print Assumptions C99_unsymmetric_refuted.

(** ** The index cache of the host backends *)
(** If every eager call of a history, and the pattern in the cache, is [p], each call is answered for [p]. *)
Theorem C99_cache {P D O} (solve : P -> D -> O) (p : P) calls :
  (forall q d, In (Eager q d) calls -> q = p) ->
  forall cache, (cache = Some p \/ (cache = None /\ exists d t, calls = Eager p d :: t)) ->
  brun solve cache calls = map (fun c => Some (solve p match c with Eager _ d => d | Compiled d => d end)) calls.
Proof.
  induction calls as [|c t IH]; intros E cache K; [reflexivity|]. cbn [brun map].
  destruct c as [q d|d]; cbn [bstep].
  - rewrite (E q d (or_introl eq_refl)). f_equal. apply IH; [intros q' d' I; apply (E q' d'); right; exact I | left; reflexivity].
  - destruct K as [->|[_ [d' [t' Q]]]]; [|discriminate]. cbn [option_map]. f_equal. apply IH; [intros q' d' I; apply (E q' d'); right; exact I | left; reflexivity].
Qed.
Print Assumptions C99_cache.

(** A compiled function traced for one pattern, called after an eager call with another, is evaluated with the other one. *)
Theorem C99_cache_refuted {P D O} (solve : P -> D -> O) (p q : P) (d e : D) : solve p d <> solve q d ->
  exists o, nth_error (brun solve None [Eager p d; Compiled d; Eager q e; Compiled d]) 1 = Some (Some (solve p d)) /\
    nth_error (brun solve None [Eager p d; Compiled d; Eager q e; Compiled d]) 3 = Some o /\ o <> Some (solve p d).
Proof. intros N. exists (Some (solve q d)). cbn. split; [reflexivity|]. split; [reflexivity|]. congruence. Qed.
Print Assumptions C99_cache_refuted.

(** A concrete run: a diagonal operator with the first unit vector as start breaks down at once; the only eigenvalue of the small
    matrix that is not zero is exact, the hypotheses of the theorems hold. *)
Example C99_example :
  let A : mat := fun i j => if i =? j then (if i =? 0 then 1 / 2 else 3) else 0 in
  let v0 : vec := fun i => if i =? 0 then 1 else 0 in
  exists V H, arnoldi 2 2 A (/ 10 ^ 30) v0 = (V, H) /\ H 0%nat 0%nat = 1 / 2 /\ H 1%nat 0%nat = 0 /\ H 2%nat 1%nat = 0 /\ eig_pair 2 H (1 / 2) (fun c => if c =? 0 then 1 else 0).
Proof.
  intros A v0. set (eps := / 10 ^ 30).
  assert (Pe : 0 < eps) by (apply Rinv_0_lt_compat; apply pow_lt; lra).
  assert (Nv : vnorm 2 v0 = 1) by (unfold vnorm, dotp, v0; cbn [rs Nat.eqb]; replace (0 + 1 * 1 + 0 * 0) with 1 by ring; apply sqrt_1).
  assert (Nz : vnorm 2 v0 <> 0) by lra.
  destruct (arnoldi_step 2 2 A eps (arnoldi_start 2 v0) 0) as [V1 H1] eqn:E1.
  destruct (arnoldi 2 2 A eps v0) as [V H] eqn:E. exists V, H. split; [reflexivity|].
  pose proof (inv_final 2 2 A eps v0 V H (Rlt_le _ _ Pe) Nz E) as I.
  assert (Q1 : H1 0%nat 0%nat = 1 / 2 /\ H1 1%nat 0%nat = 0).
  { unfold arnoldi_start, arnoldi_step in E1. rewrite Nv in E1. inversion E1 as [[EV EH]]. clear E1 EV EH. split.
    - unfold dotp, mv, A, v0. cbn [rs Nat.eqb]. field.
    - apply vn_of_zero. intros i Hi. unfold dotp, mv, A, v0. destruct i as [|[|i]]; [| |lia]; cbn [rs Nat.eqb]; field. }
  destruct Q1 as [Q0 Q1].
  assert (Keep : H 0%nat 0%nat = H1 0%nat 0%nat /\ H 1%nat 0%nat = H1 1%nat 0%nat).
  { unfold arnoldi in E. cbn [seq fold_left] in E. rewrite E1 in E. unfold arnoldi_step in E. inversion E as [[EV EH]]. split; reflexivity. }
  destruct Keep as [K0 K1]. rewrite Q0 in K0. rewrite Q1 in K1.
  assert (Z1 : zrow V 1) by (destruct (i_sub _ _ _ _ _ _ _ I 0%nat ltac:(lia)) as [_ [Q _]]; apply Q; rewrite K1; lra).
  assert (H21 : H 2%nat 1%nat = 0) by (destruct (i_sub _ _ _ _ _ _ _ I 1%nat ltac:(lia)) as [_ [_ [T _]]]; apply T; exact Z1).
  split; [exact K0|]. split; [exact K1|]. split; [exact H21|].
  intros r Hr. destruct r as [|[|r]]; [| |lia]; cbn [rs Nat.eqb]; [rewrite K0 | rewrite K1]; ring.
Qed.

(** The Krylov space never exceeds the free unknowns, takes at least the requested number of products and
    at least twice the modes plus ten as far as unknowns allow, and only a problem with fewer than two free
    unknowns is refused. *)
Theorem C99_size :
  forall nf num_modes num_matvecs : nat,
  match krylov_size nf num_modes num_matvecs with
  | Some m => (2 <= m <= nf)%nat /\ (m = nf \/ (num_matvecs <= m /\ 2 * num_modes + 10 <= m /\ (m = num_matvecs \/ m = 2 * num_modes + 10)))%nat
  | None => (nf < 2)%nat
  end.
Proof.
  intros nf k m. unfold krylov_size. cbv zeta. destruct (Nat.ltb_spec (Nat.min nf (Nat.max m (2 * k + 10))) 2); lia.
Qed.
Print Assumptions C99_size.
Example C99_size_example : krylov_size 500 3 0 = Some 16%nat /\ krylov_size 500 3 40 = Some 40%nat /\ krylov_size 9 3 40 = Some 9%nat /\ krylov_size 1 1 1 = None.
Proof. vm_compute. auto. Qed.
