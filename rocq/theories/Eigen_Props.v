(** Property C88: linear buckling factors, modes and their sensitivities. *)
From Coq Require Import Reals List Arith Bool Lia Lra Permutation.
From Verif Require Import Tmc_Model Tmc_Props Eigen_Model.
Import ListNotations.
Open Scope R_scope.

(** Specification: [lam] is a buckling factor with mode [phi] when [phi] is zero on the constrained degrees of freedom,
    not zero, and [(K + lam Kg) phi] vanishes on the free ones. *)
Definition over (l : list nat) (f : nat -> R) : R := fold_right (fun c a => f c + a) 0 l.
Definition buckles (K Kg : mat) (free : list nat) (lam : R) (phi : vec) : Prop :=
  (forall j, ~ In j free -> phi j = 0) /\ (exists j, In j free /\ phi j <> 0) /\ forall r, In r free -> over free (fun c => (K r c + lam * Kg r c) * phi c) = 0.
Definition energy_of (K : mat) (free : list nat) (phi : vec) : R := over free (fun r => phi r * over free (fun c => K r c * phi c)).
Fixpoint ascending (l : list R) : Prop := match l with [] => True | x :: l => (forall y, In y l -> x <= y) /\ ascending l end.

(** ** Matrix algebra *)
Lemma mv_ext n A x y i : (forall k, (k < n)%nat -> x k = y k) -> mv n A x i = mv n A y i.
Proof. intros H. apply rs_ext. intros k Hk. rewrite H by exact Hk. reflexivity. Qed.
Lemma mv_mat n A B x i : (forall k, (k < n)%nat -> A i k = B i k) -> mv n A x i = mv n B x i.
Proof. intros H. apply rs_ext. intros k Hk. rewrite H by exact Hk. reflexivity. Qed.
Lemma mv_mmul n A B x i : mv n (mmul n A B) x i = mv n A (mv n B x) i.
Proof.
  unfold mv, mmul. rewrite (rs_ext n _ (fun k => rs n (fun j => A i j * B j k * x k))) by (intros k _; rewrite <- rs_scale_r; reflexivity).
  rewrite rs_swap. apply rs_ext. intros j _. rewrite <- rs_scale. apply rs_ext. intros; ring.
Qed.
Lemma mv_scale n A c x i : mv n A (fun k => c * x k) i = c * mv n A x i.
Proof. unfold mv. rewrite <- rs_scale. apply rs_ext. intros; ring. Qed.
Lemma mv_minus n A x y i : mv n A (fun k => x k - y k) i = mv n A x i - mv n A y i.
Proof. unfold mv. rewrite <- rs_minus. apply rs_ext. intros; ring. Qed.
Lemma dot_mv n A x y : dotp n x (mv n A y) = dotp n y (mv n (tr A) x).
Proof.
  unfold dotp, mv, tr. rewrite (rs_ext n _ (fun i => rs n (fun k => x i * A i k * y k))) by (intros i _; rewrite <- rs_scale; apply rs_ext; intros; ring).
  rewrite rs_swap. apply rs_ext. intros k _. rewrite <- rs_scale. apply rs_ext. intros; ring.
Qed.
Lemma dot_ext n x y x' y' : (forall k, (k < n)%nat -> x k = x' k) -> (forall k, (k < n)%nat -> y k = y' k) -> dotp n x y = dotp n x' y'.
Proof. intros H G. apply rs_ext. intros k Hk. rewrite H, G by exact Hk. reflexivity. Qed.
Lemma rs_single n f i : (i < n)%nat -> (forall k, (k < n)%nat -> k <> i -> f k = 0) -> rs n f = f i.
Proof.
  induction n as [|n IH]; intros Hi H; [lia|]. cbn [rs]. destruct (Nat.eq_dec i n) as [->|Hn].
  - rewrite rs_zero; [ring|]. intros k Hk. apply H; lia.
  - rewrite IH by (try lia; intros; apply H; lia). rewrite (H n) by lia. ring.
Qed.
Lemma lower_inj n L x : (forall i j, (i < j)%nat -> L i j = 0) -> (forall i, (i < n)%nat -> 0 < L i i) -> (forall i, (i < n)%nat -> mv n L x i = 0) -> forall i, (i < n)%nat -> x i = 0.
Proof.
  intros T P H. assert (G : forall m i, (i < m)%nat -> (i < n)%nat -> x i = 0); [|intros i Hi; apply (G n); assumption].
  induction m as [|m IH]; intros i Hm Hi; [lia|]. destruct (Nat.eq_dec i m) as [->|]; [|apply IH; lia].
  specialize (H m Hi). unfold mv in H. rewrite (rs_single n _ m Hi) in H.
  - specialize (P m Hi). apply Rmult_integral in H. destruct H; [lra|assumption].
  - intros k Hk Hne. destruct (le_lt_dec k m); [rewrite IH by lia; ring|rewrite T by lia; ring].
Qed.
Lemma upper_inj n L x : (forall i j, (i < j)%nat -> L i j = 0) -> (forall i, (i < n)%nat -> 0 < L i i) -> (forall i, (i < n)%nat -> mv n (tr L) x i = 0) -> forall i, (i < n)%nat -> x i = 0.
Proof.
  intros T P H. assert (G : forall m i, (n - m <= i)%nat -> (i < n)%nat -> x i = 0); [|intros i Hi; apply (G n); lia].
  induction m as [|m IH]; intros i Hm Hi; [lia|]. destruct (le_lt_dec (n - m) i); [apply IH; assumption|].
  specialize (H i Hi). unfold mv, tr in H. rewrite (rs_single n _ i Hi) in H.
  - specialize (P i Hi). apply Rmult_integral in H. destruct H; [lra|assumption].
  - intros k Hk Hne. destruct (le_lt_dec k i); [rewrite T by lia; ring|rewrite IH by lia; ring].
Qed.

(** What a run of the generalized eigensolver gives: the reduction [C] with its factor. *)
Lemma geigh_core n A B w X : geigh n A B w X -> exists L C U, cholesky n B L /\ eigh n C w U /\ meq n (mmul n (tr L) X) U /\ meq n C (tr C) /\
  (forall x i, (i < n)%nat -> mv n (half A) x i = mv n L (mv n C (mv n (tr L) x)) i) /\ (forall x i, (i < n)%nat -> mv n B x i = mv n L (mv n (tr L) x) i).
Proof.
  intros (L & Y & Z & U & (T & P & HB) & HY & HZ & HE & HX). exists L, (tr Z), U.
  assert (EY : forall i j, (i < n)%nat -> (j < n)%nat -> Y i j = mmul n (tr Z) (tr L) i j).
  { intros i j Hi Hj. change (Y i j) with (tr Y j i). rewrite <- (HZ j i Hj Hi). unfold mmul, tr. apply rs_ext. intros; ring. }
  assert (EA : forall x i, (i < n)%nat -> mv n (half A) x i = mv n L (mv n (tr Z) (mv n (tr L) x)) i).
  { intros x i Hi. rewrite (mv_mat n (half A) (mmul n L Y)) by (intros k Hk; symmetry; apply HY; assumption). rewrite mv_mmul. apply mv_ext. intros k Hk.
    rewrite (mv_mat n Y (mmul n (tr Z) (tr L))) by (intros l Hl; apply EY; assumption). apply mv_mmul. }
  assert (Sy : meq n (tr Z) (tr (tr Z))).
  { (* half A is symmetric, so L (C - C') L' = 0, and L is injective on both sides. *)
    assert (S1 : forall i j, (i < n)%nat -> (j < n)%nat -> rs n (fun k => L i k * rs n (fun l => (Z l k - Z k l) * L j l)) = 0).
    { intros i j Hi Hj. assert (E1 : half A i j = rs n (fun k => L i k * rs n (fun l => Z l k * L j l))).
      { rewrite <- (HY i j Hi Hj). unfold mmul. apply rs_ext. intros k Hk. rewrite (EY k j Hk Hj). reflexivity. }
      assert (E2 : half A j i = rs n (fun k => L j k * rs n (fun l => Z l k * L i l))).
      { rewrite <- (HY j i Hj Hi). unfold mmul. apply rs_ext. intros k Hk. rewrite (EY k i Hk Hi). reflexivity. }
      assert (E3 : rs n (fun k => L j k * rs n (fun l => Z l k * L i l)) = rs n (fun k => L i k * rs n (fun l => Z k l * L j l))).
      { rewrite (rs_ext n _ (fun k => rs n (fun l => L j k * Z l k * L i l))) by (intros k _; rewrite <- rs_scale; apply rs_ext; intros; ring).
        rewrite rs_swap. apply rs_ext. intros k _. rewrite <- rs_scale. apply rs_ext. intros; ring. }
      assert (E4 : half A i j = half A j i) by (unfold half; ring). rewrite E1, E2, E3 in E4.
      transitivity (rs n (fun k => L i k * rs n (fun l => Z l k * L j l)) - rs n (fun k => L i k * rs n (fun l => Z k l * L j l))); [|lra].
      rewrite <- rs_minus. apply rs_ext. intros k _. rewrite <- Rmult_minus_distr_l. f_equal. rewrite <- rs_minus. apply rs_ext. intros; ring. }
    assert (S2 : forall j k, (j < n)%nat -> (k < n)%nat -> rs n (fun l => (Z l k - Z k l) * L j l) = 0).
    { intros j k Hj Hk. apply (lower_inj n L (fun k => rs n (fun l => (Z l k - Z k l) * L j l)) T P); [|exact Hk]. intros i Hi. apply S1; assumption. }
    intros i j Hi Hj. unfold tr. assert (D : Z j i - Z i j = 0); [|lra].
    apply (lower_inj n L (fun l => Z l i - Z i l) T P); [|exact Hj]. intros q Hq. rewrite <- (S2 q i Hq Hi). unfold mv. apply rs_ext. intros; ring. }
  assert (HC : meq n (half (tr Z)) (tr Z)). { intros i j Hi Hj. unfold half. rewrite (Sy i j Hi Hj). unfold tr. assert (X1 : Z i j = Z j i) by (symmetry; apply (Sy i j Hi Hj)). rewrite X1. field. }
  split; [split; [exact T|split; [exact P|exact HB]]|]. split.
  - destruct HE as (E1 & E2 & E3 & E4). split; [|split; [exact E2|split; [exact E3|exact E4]]]. intros i j Hi Hj. rewrite <- (E1 i j Hi Hj). unfold mmul. apply rs_ext. intros k Hk. rewrite (HC i k Hi Hk). reflexivity.
  - split; [exact HX|]. split; [exact Sy|]. split; [exact EA|]. intros x i Hi. rewrite (mv_mat n B (mmul n L (tr L))) by (intros k Hk; symmetry; apply HB; assumption). apply mv_mmul.
Qed.
Lemma eig_col n C w U k i : eigh n C w U -> (i < n)%nat -> (k < n)%nat -> mv n C (fun i => U i k) i = w k * U i k.
Proof.
  intros (E & _) Hi Hk. change (mv n C (fun i => U i k) i) with (mmul n C U i k). rewrite (E i k Hi Hk). unfold mmul, diag. rewrite (rs_single n _ k Hk).
  - rewrite Nat.eqb_refl. ring.
  - intros j Hj Hne. apply Nat.eqb_neq in Hne. rewrite Hne. ring.
Qed.
(** Every column is an eigenvector of the pencil, the columns are B-orthonormal, and no eigenvalue is missing. *)
Theorem C88_generalized n A B w X : geigh n A B w X ->
  (forall k i, (k < n)%nat -> (i < n)%nat -> mv n (half A) (fun i => X i k) i = w k * mv n B (fun i => X i k) i) /\
  (forall k l, (k < n)%nat -> (l < n)%nat -> dotp n (fun i => X i k) (mv n B (fun i => X i l)) = eye k l) /\
  (forall i j, (i <= j < n)%nat -> w i <= w j) /\
  (forall g x, (exists i, (i < n)%nat /\ x i <> 0) -> (forall i, (i < n)%nat -> mv n (half A) x i = g * mv n B x i) -> exists k, (k < n)%nat /\ w k = g).
Proof.
  intros H. destruct (geigh_core n A B w X H) as (L & C & U & (T & P & HB) & HE & HX & Sy & EA & EB).
  assert (Ux : forall k i, (k < n)%nat -> (i < n)%nat -> mv n (tr L) (fun i => X i k) i = U i k) by (intros k i Hk Hi; apply (HX i k Hi Hk)).
  split; [|split; [|split]].
  - intros k i Hk Hi. rewrite EA, EB by exact Hi. rewrite <- mv_scale. apply mv_ext. intros j Hj.
    rewrite (mv_ext n C _ (fun i => U i k)) by (intros q Hq; apply Ux; assumption). rewrite (eig_col n C w U k j HE Hj Hk), Ux by assumption. reflexivity.
  - intros k l Hk Hl. rewrite (dot_ext n _ _ (fun i => X i k) (mv n L (mv n (tr L) (fun i => X i l)))) by (intros; try reflexivity; apply EB; assumption).
    rewrite dot_mv. rewrite (dot_ext n _ _ (fun i => U i l) (fun i => U i k)) by (intros; apply Ux; assumption).
    destruct HE as (_ & O1 & _). rewrite <- (O1 k l Hk Hl). unfold dotp, mmul, tr. apply rs_ext. intros; ring.
  - apply HE.
  - intros g x (i0 & Hi0 & Nz) Hx. set (u := mv n (tr L) x).
    assert (Cu : forall i, (i < n)%nat -> mv n C u i = g * u i).
    { assert (D : forall i, (i < n)%nat -> (fun i => mv n C u i - g * u i) i = 0).
      { apply (lower_inj n L (fun i => mv n C u i - g * u i) T P). intros i Hi. rewrite (mv_minus n L (mv n C u) (fun i => g * u i) i), mv_scale. fold u in EA. unfold u at 1. rewrite <- EA by exact Hi. rewrite (Hx i Hi), (EB x i Hi). fold u. ring. }
      intros i Hi. specialize (D i Hi). cbn beta in D. lra. }
    set (c := mv n (tr U) u).
    assert (Wc : forall k, (k < n)%nat -> w k * c k = g * c k).
    { intros k Hk. transitivity (dotp n (fun i => U i k) (mv n C u)).
      - rewrite dot_mv. unfold c. change (mv n (tr U) u k) with (dotp n (fun i => U i k) u). unfold dotp. rewrite <- rs_scale. apply rs_ext. intros j Hj.
        rewrite (mv_mat n (tr C) C (fun i => U i k) j) by (intros q Hq; symmetry; apply (Sy j q Hj Hq)). rewrite (eig_col n C w U k j HE Hj Hk). ring.
      - unfold c. change (mv n (tr U) u k) with (dotp n (fun i => U i k) u). unfold dotp. rewrite <- rs_scale. apply rs_ext. intros j Hj. rewrite (Cu j Hj). ring. }
    destruct (Forall_Exists_dec (fun k => w k = g) (fun k => Req_EM_T (w k) g) (seq 0 n)) as [F|E] eqn:Q; clear Q.
    + destruct n as [|n']; [lia|]. exists 0%nat. split; [lia|]. rewrite Forall_forall in F. apply F. apply in_seq. lia.
    + destruct (Exists_dec (fun k => w k = g) (seq 0 n) (fun k => Req_EM_T (w k) g)) as [Ex|Nx]; [apply Exists_exists in Ex; destruct Ex as (k & Hk & Hw); apply in_seq in Hk; exists k; split; [lia|exact Hw]|].
      exfalso. apply Nz. apply (upper_inj n L x T P); [|exact Hi0]. intros i Hi. change (u i = 0).
      assert (c0 : forall k, (k < n)%nat -> c k = 0).
      { intros k Hk. assert (Hw : w k <> g) by (intros Hw; apply Nx; apply Exists_exists; exists k; split; [apply in_seq; lia|exact Hw]). specialize (Wc k Hk).
        assert (Z : (w k - g) * c k = 0) by lra. apply Rmult_integral in Z. destruct Z; [lra|assumption]. }
      transitivity (mv n U c i).
      * unfold c. rewrite <- mv_mmul. destruct HE as (_ & _ & O2 & _). rewrite (mv_mat n _ eye) by (intros k Hk; apply O2; assumption). unfold mv, eye. rewrite (rs_single n _ i Hi); [rewrite Nat.eqb_refl; ring|].
        intros k Hk Hne. assert (Hne' : i <> k) by auto. apply Nat.eqb_neq in Hne'. rewrite Hne'. ring.
      * unfold mv. apply rs_zero. intros k Hk. rewrite c0 by exact Hk. ring.
Qed.
Print Assumptions C88_generalized.

(** ** Selection *)
Lemma insert_perm p l : Permutation (insert p l) (p :: l).
Proof. induction l as [|q l IH]; cbn [insert]; [reflexivity|]. destruct (Rlt_dec _ _); [reflexivity|]. rewrite IH. apply perm_swap. Qed.
Lemma insert_asc p l : ascending (map fst l) -> ascending (map fst (insert p l)).
Proof.
  induction l as [|q l IH]; intros H; cbn [insert]; [split; [intros y []|exact I]|]. destruct H as [H1 H2]. destruct (Rlt_dec (fst p) (fst q)) as [Hl|Hl].
  - split; [|split; assumption]. intros y [<-|Hy]; [cbn; lra|]. specialize (H1 y Hy). lra.
  - split; [|apply IH; exact H2]. intros y Hy. apply in_map_iff in Hy. destruct Hy as (z & <- & Hz). apply (Permutation_in _ (insert_perm p l)) in Hz. destruct Hz as [<-|Hz]; [lra|]. apply H1, in_map, Hz.
Qed.
Lemma select_spec m l : ascending (map fst (select m l)) /\ (length (select m l) = Nat.min m (length l))%nat /\ (forall p, In p (select m l) -> In p l) /\
  forall p, In p l -> In p (select m l) \/ (length (select m l) = m /\ forall q, In q (select m l) -> fst q <= fst p).
Proof.
  unfold select. set (s := fold_right insert [] l). assert (P : Permutation s l) by (unfold s; clear s; induction l as [|p l IH]; cbn [fold_right]; [reflexivity|rewrite insert_perm, IH; reflexivity]).
  assert (A : ascending (map fst s)) by (unfold s; clear; induction l as [|p l IH]; cbn [fold_right]; [exact I|apply insert_asc, IH]).
  assert (G : forall (m : nat) (s : list pair), ascending (map fst s) -> ascending (map fst (firstn m s)) /\ forall p, In p s -> In p (firstn m s) \/ (length (firstn m s) = m /\ forall q, In q (firstn m s) -> fst q <= fst p)).
  { clear. induction m as [|m IH]; intros s A; [split; [exact I|intros p _; right; split; [reflexivity|intros q []]]|]. destruct s as [|q s]; [split; [exact I|intros p []]|]. destruct A as [A1 A2]. cbn [firstn map].
    destruct (IH s A2) as [I1 I2]. split.
    - split; [|exact I1]. intros y Hy. apply in_map_iff in Hy. destruct Hy as (z & <- & Hz). apply A1, in_map. rewrite <- (firstn_skipn m s). apply in_or_app. left; exact Hz.
    - intros p [<-|Hp]; [left; left; reflexivity|]. destruct (I2 p Hp) as [H|[H1 H2]]; [left; right; exact H|]. right. split; [cbn [length]; lia|]. intros z [<-|Hz]; [apply A1, in_map, Hp|apply H2, Hz]. }
  destruct (G m s A) as [G1 G2]. split; [exact G1|]. split; [rewrite firstn_length, (Permutation_length P); reflexivity|]. split.
  - intros p Hp. apply (Permutation_in _ P). rewrite <- (firstn_skipn m s). apply in_or_app. left; exact Hp.
  - intros p Hp. apply G2. apply (Permutation_in _ (Permutation_sym P)). exact Hp.
Qed.
Lemma keep_in {A} (f : A -> option pair) l p : In p (keep f l) <-> exists a, In a l /\ f a = Some p.
Proof.
  unfold keep. rewrite in_flat_map. split; intros (a & H1 & H2); exists a; (split; [exact H1|]).
  - destruct (f a); [destruct H2 as [<-|[]]; reflexivity|destruct H2].
  - rewrite H2. left; reflexivity.
Qed.

(** ** Restriction and scattering *)
Lemma over_nth l f : over l f = rs (length l) (fun b => f (nth b l 0%nat)).
Proof.
  induction l as [|x l IH] using rev_ind; [reflexivity|]. unfold over in *. rewrite fold_right_app. cbn [fold_right]. rewrite app_length, Nat.add_1_r. cbn [rs].
  assert (E : forall l a, fold_right (fun c a => f c + a) a l = fold_right (fun c a => f c + a) 0 l + a) by (clear; induction l as [|y l IH]; intros a; cbn [fold_right]; [ring|rewrite IH; ring]).
  rewrite E, IH. f_equal.
  - apply rs_ext. intros k Hk. rewrite app_nth1 by exact Hk. reflexivity.
  - rewrite app_nth2, Nat.sub_diag by lia. cbn [nth]. ring.
Qed.
Lemma position_nth l : NoDup l -> forall a, (a < length l)%nat -> position (nth a l 0%nat) l = Some a.
Proof.
  induction 1 as [|x l Hx Hn IH]; intros a Ha; [cbn in Ha; lia|]. destruct a as [|a]; cbn [nth position]; [rewrite Nat.eqb_refl; reflexivity|]. cbn [length] in Ha.
  assert (E : x <> nth a l 0%nat) by (intros ->; apply Hx, nth_In; lia). apply Nat.eqb_neq in E. rewrite E, IH by lia. reflexivity.
Qed.
Lemma position_some l j a : position j l = Some a -> (a < length l)%nat /\ nth a l 0%nat = j.
Proof.
  revert a. induction l as [|x l IH]; intros a; cbn [position]; [discriminate|]. destruct (Nat.eqb x j) eqn:E.
  - apply Nat.eqb_eq in E. intros [= <-]. split; [cbn; lia|exact E].
  - destruct (position j l) as [b|]; [|discriminate]. intros [= <-]. destruct (IH b eq_refl). cbn [length nth]. split; [lia|assumption].
Qed.
Lemma position_in l j : In j l -> exists a, position j l = Some a.
Proof. induction l as [|x l IH]; [intros []|]. intros H. cbn [position]. destruct (Nat.eqb x j) eqn:E; [eauto|]. apply Nat.eqb_neq in E. destruct H as [H|H]; [contradiction|]. destruct (IH H) as [a ->]. cbn. eauto. Qed.
Lemma scatter_nth free x a : NoDup free -> (a < length free)%nat -> scatter free x (nth a free 0%nat) = x a.
Proof. intros N Ha. unfold scatter. rewrite position_nth by assumption. reflexivity. Qed.
Lemma buckles_local K Kg free lam phi : NoDup free -> let n := length free in let x := fun a => phi (nth a free 0%nat) in
  (forall j, ~ In j free -> phi j = 0) ->
  (buckles K Kg free lam phi <-> (exists a, (a < n)%nat /\ x a <> 0) /\ forall a, (a < n)%nat -> mv n (restrict free K) x a + lam * mv n (restrict free Kg) x a = 0).
Proof.
  intros N n x Z.
  assert (E : forall a, (a < n)%nat -> over free (fun c => (K (nth a free 0%nat) c + lam * Kg (nth a free 0%nat) c) * phi c) = mv n (restrict free K) x a + lam * mv n (restrict free Kg) x a).
  { intros a Ha. rewrite over_nth. unfold mv, restrict. fold n. rewrite <- rs_scale, <- rs_plus. apply rs_ext. intros b _. unfold x. ring. }
  split.
  - intros (_ & (j & Hj & Nz) & H). split.
    + apply (In_nth _ _ 0%nat) in Hj. destruct Hj as (a & Ha & <-). exists a. split; assumption.
    + intros a Ha. rewrite <- E by exact Ha. apply H. apply nth_In. exact Ha.
  - intros ((a & Ha & Nz) & H). split; [exact Z|]. split; [exists (nth a free 0%nat); split; [apply nth_In; exact Ha|exact Nz]|]. intros r Hr. apply (In_nth _ _ 0%nat) in Hr. destruct Hr as (b & Hb & <-). rewrite E by exact Hb. apply H. exact Hb.
Qed.
Lemma scatter_out free x j : ~ In j free -> scatter free x j = 0.
Proof. intros H. unfold scatter. destruct (position j free) as [a|] eqn:E; [|reflexivity]. apply position_some in E. destruct E as [E1 E2]. exfalso. apply H. rewrite <- E2. apply nth_In. exact E1. Qed.

(** The dense solver returns genuine factors with unit-energy modes, ascending and above the threshold; and it misses none:
    any factor above the threshold is returned, unless [m] not larger ones are. *)
Theorem C88_dense K Kg free m zero_tol out : dense_buckling K Kg free m zero_tol out -> NoDup free -> 0 <= zero_tol ->
  (forall r c, In r free -> In c free -> Kg r c = Kg c r) ->
  (forall p, In p out -> zero_tol < fst p /\ buckles K Kg free (fst p) (snd p) /\ energy_of K free (snd p) = 1) /\
  ascending (map fst out) /\ (length out <= m)%nat /\
  forall lam phi, zero_tol < lam -> buckles K Kg free lam phi -> In lam (map fst out) \/ (length out = m /\ forall p, In p out -> fst p <= lam).
Proof.
  intros (gamma & V & HG & ->) N T S. set (n := length free) in *. set (cand := keep (dense_factor zero_tol gamma V) (seq 0 n)).
  destruct (C88_generalized n _ _ _ _ HG) as (G1 & G2 & _ & G4).
  assert (Sg : forall x i, (i < n)%nat -> mv n (half (restrict free Kg)) x i = mv n (restrict free Kg) x i).
  { intros x i Hi. apply mv_mat. intros k Hk. unfold half, restrict. rewrite (S (nth k free 0%nat) (nth i free 0%nat)) by (apply nth_In; assumption). field. }
  destruct (select_spec m cand) as (S1 & S2 & S3 & S4). split; [|split; [|split]].
  - intros p Hp. apply in_map_iff in Hp. destruct Hp as (q & <- & Hq). apply S3 in Hq. unfold cand in Hq. apply keep_in in Hq. destruct Hq as (k & Hk & Hf). apply in_seq in Hk. unfold dense_factor in Hf.
    destruct (Req_EM_T (gamma k) 0) as [|Nz]; [discriminate|]. destruct (Rlt_dec zero_tol (-1 / gamma k)) as [Hl|]; [|discriminate]. inversion Hf; subst q. cbn [fst snd]. clear Hf.
    set (x := fun i => V i k). assert (Ex : forall a, (a < n)%nat -> scatter free x (nth a free 0%nat) = x a) by (intros a Ha; apply scatter_nth; assumption).
    assert (En : energy_of K free (scatter free x) = 1).
    { unfold energy_of. rewrite over_nth. fold n. transitivity (dotp n x (mv n (restrict free K) x)); [|unfold x; rewrite (G2 k k) by lia; unfold eye; rewrite Nat.eqb_refl; reflexivity].
      apply rs_ext. intros a Ha. rewrite Ex by exact Ha. f_equal. rewrite over_nth. fold n. apply rs_ext. intros b Hb. rewrite Ex by exact Hb. reflexivity. }
    split; [exact Hl|]. split; [|exact En]. apply buckles_local; [exact N|intros j Hj; apply scatter_out; exact Hj|]. fold n. split.
    + destruct (Exists_dec (fun a => scatter free x (nth a free 0%nat) <> 0) (seq 0 n) (fun a => match Req_EM_T (scatter free x (nth a free 0%nat)) 0 with left e => right (fun f => f e) | right e => left e end)) as [Ex'|Nx].
      * apply Exists_exists in Ex'. destruct Ex' as (a & Ha & Hn). apply in_seq in Ha. exists a. split; [lia|exact Hn].
      * exfalso. assert (Z : energy_of K free (scatter free x) = 0); [|lra]. unfold energy_of. rewrite over_nth. fold n. apply rs_zero. intros a Ha.
        destruct (Req_EM_T (scatter free x (nth a free 0%nat)) 0) as [->|Hne]; [ring|]. exfalso. apply Nx. apply Exists_exists. exists a. split; [apply in_seq; lia|exact Hne].
    + intros a Ha. rewrite !(mv_ext n _ (fun a => scatter free x (nth a free 0%nat)) x) by exact Ex. rewrite <- (Sg x a Ha). unfold x. rewrite (G1 k a) by lia. field. exact Nz.
  - rewrite map_map. cbn [fst]. exact S1.
  - eapply Nat.le_trans; [apply Nat.eq_le_incl; rewrite map_length; exact S2|lia].
  - intros lam phi Hl Hb. assert (Lp : 0 < lam) by lra. pose proof Hb as Hb0. apply (buckles_local K Kg free lam phi N (proj1 Hb0)) in Hb. fold n in Hb. destruct Hb as [Nz Hb]. set (x := fun a => phi (nth a free 0%nat)) in *.
    destruct (G4 (- / lam) x Nz) as (k & Hk & Hw).
    { intros i Hi. rewrite Sg by exact Hi. specialize (Hb i Hi). assert (E : mv n (restrict free K) x i = - lam * mv n (restrict free Kg) x i) by lra. rewrite E. field. lra. }
    assert (Hc : In (lam, fun i => V i k) cand).
    { unfold cand. apply keep_in. exists k. split; [apply in_seq; lia|]. unfold dense_factor. rewrite Hw. assert (Il : 0 < / lam) by (apply Rinv_0_lt_compat; exact Lp).
      destruct (Req_EM_T (- / lam) 0) as [E|_]; [lra|]. replace (-1 / - / lam) with lam by (field; lra). destruct (Rlt_dec zero_tol lam); [reflexivity|contradiction]. }
    destruct (S4 _ Hc) as [H|[H1 H2]].
    + left. apply in_map_iff. exists (lam, scatter free (fun i => V i k)). split; [reflexivity|]. apply in_map_iff. exists (lam, fun i => V i k). split; [reflexivity|exact H].
    + right. split; [rewrite map_length; exact H1|]. intros p Hp. apply in_map_iff in Hp. destruct Hp as (q & <- & Hq). cbn [fst]. apply (H2 q Hq).
Qed.
Print Assumptions C88_dense.
