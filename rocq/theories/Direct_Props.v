(** C40: batched direct solves; C41: the factorisation cache. *)
From Verif Require Import Base Assembly_Model Assembly_Proofs Band_Proofs Direct_Model.
From Coq Require Import Lia.
Import ListNotations.

(** ** Specification *)
Section Spec.
  Variable K : CRing.
  Local Open Scope ring_K.
  (** The matrix a CSR triple stands for. *)
  Definition dense (vals : list K) (cols ptr : list nat) (i j : nat) : K :=
    sumf (fun s => if (nth s cols 0 =? j)%nat then get vals s else 0) (seq (nth i ptr 0%nat) (nth (S i) ptr 0 - nth i ptr 0)%nat).
  (** A well-formed n x n CSR pattern (entries past the last pointer are ignored). *)
  Definition wf_pat (n : nat) (cols ptr : list nat) : Prop :=
    length ptr = (n + 1)%nat /\ nth 0 ptr 0%nat = 0%nat /\ (forall i, (i < n)%nat -> (nth i ptr 0 <= nth (S i) ptr 0)%nat) /\
    (nth n ptr 0 <= length cols)%nat /\ (forall s, (s < nth n ptr 0)%nat -> (nth s cols 0 < n)%nat).
  (** How a backend reads the matrix: as is, transposed, or one triangle mirrored. *)
  Inductive reading := RPlain | RTrans | RLower | RUpper.
  Definition read (r : reading) (A : nat -> nat -> K) (i j : nat) : K :=
    match r with
    | RPlain => A i j | RTrans => A j i
    | RLower => if (j <=? i)%nat then A i j else A j i
    | RUpper => if (i <=? j)%nat then A i j else A j i
    end.
  Definition solves (n : nat) (A : nat -> nat -> K) (x b : list K) : Prop :=
    length x = n /\ forall i, (i < n)%nat -> sumf (fun j => A i j * get x j) (seq 0 n) = get b i.
  (** A correct library solver for that reading: every returned column solves. *)
  Definition correct (r : reading) (S : host_solver K) : Prop :=
    forall n vals cols ptr bs xs, wf_pat n cols ptr -> S n vals cols ptr bs = Some xs ->
      length xs = length bs /\ forall k, (k < length bs)%nat -> solves n (read r (dense vals cols ptr)) (nth k xs []) (nth k bs []).
  Definition regular (n : nat) (A : nat -> nat -> K) : Prop := forall b, exists x, solves n A x b /\ forall y, solves n A y b -> y = x.
  (** ... that does not fail on regular matrices. *)
  Definition complete (r : reading) (S : host_solver K) : Prop :=
    forall n vals cols ptr bs, wf_pat n cols ptr -> regular n (read r (dense vals cols ptr)) -> exists xs, S n vals cols ptr bs = Some xs.
End Spec.
Arguments dense {K}. Arguments read {K}. Arguments solves {K}. Arguments correct {K}. Arguments complete {K}. Arguments regular {K}.

(** ** The assembled block system *)
Lemma last_nth (l : list nat) n : length l = (n + 1)%nat -> last l 0%nat = nth n l 0%nat.
Proof.
  revert n. induction l as [|a l IH]; intros n H; [cbn in H; lia|]. destruct l as [|b l]; [cbn in H; replace n with 0%nat by lia; reflexivity|].
  destruct n as [|n]; [cbn in H; lia|]. change (last (a :: b :: l) 0%nat) with (last (b :: l) 0%nat). cbn [nth]. apply IH. cbn in *. lia.
Qed.
Lemma wf_le n cols ptr : wf_pat n cols ptr -> forall i j : nat, (i <= j)%nat -> (j <= n)%nat -> (nth i ptr 0 <= nth j ptr 0)%nat.
Proof.
  intros (_ & _ & M & _) i j Hij Hj. induction j as [|j IH]; [replace i with 0%nat by lia; lia|].
  destruct (Nat.eq_dec i (S j)) as [->|]; [lia|]. specialize (M j ltac:(lia)). specialize (IH ltac:(lia) ltac:(lia)). lia.
Qed.
Lemma in_firstn_length {A} (blocks : list (list A)) m r : (forall x, In x blocks -> (m <= length x)%nat) -> In r (map (firstn m) blocks) -> length r = m.
Proof. intros H Hr. apply in_map_iff in Hr. destruct Hr as (x & <- & Hx). rewrite firstn_length. specialize (H x Hx). lia. Qed.
Lemma nth_firstn {A} (l : list A) m i d : (i < m)%nat -> nth i (firstn m l) d = nth i l d.
Proof. revert m i. induction l as [|a l IH]; intros m i H; [rewrite firstn_nil; reflexivity|]. destruct m; [lia|]. destruct i; [reflexivity|]. cbn. apply IH. lia. Qed.
Section Assembled.
  Context {K : CRing}.
  Local Open Scope ring_K.
  Add Ring KRd : (cth K).
  Variables (blocks : list (list K)) (cols ptr : list nat) (n : nat).
  Hypothesis W : wf_pat n cols ptr.
  Let nnz := nth n ptr 0%nat.
  Hypothesis HB : forall r, In r blocks -> (nnz <= length r)%nat.
  Variables (d : list K) (ix p : list nat).
  Hypothesis HA : assemble_batched blocks cols ptr n = Some (d, ix, p).
  Let Bn := length blocks.
  Lemma asm_parts : d = concat (map (firstn nnz) blocks) /\
    ix = concat (map (fun k => map (fun c => c + k * n)%nat (firstn nnz cols)) (seq 0 Bn)) /\
    p = hd 0%nat ptr :: concat (map (fun k => map (fun q => q + k * nnz)%nat (tl ptr)) (seq 0 Bn)).
  Proof.
    destruct W as (L & _). revert HA. unfold assemble_batched. rewrite (last_nth ptr n L). fold nnz.
    destruct (_ <? nnz)%nat; [discriminate|]. destruct (existsb _ _); [discriminate|]. rewrite map_length. intros H. injection H as <- <- <-. auto.
  Qed.
  Lemma asm_data k s : (k < Bn)%nat -> (s < nnz)%nat -> get d (k * nnz + s)%nat = get (nth k blocks []) s.
  Proof.
    intros Hk Hs. destruct asm_parts as (-> & _). unfold get. rewrite (nth_concat_rows nnz); [|intros r Hr; eapply in_firstn_length; [exact HB|exact Hr]|rewrite map_length; exact Hk|exact Hs].
    rewrite (nth_map_in _ _ [] []) by exact Hk. apply nth_firstn. exact Hs.
  Qed.
  Lemma asm_cols k s : (k < Bn)%nat -> (s < nnz)%nat -> nth (k * nnz + s) ix 0%nat = (nth s cols 0 + k * n)%nat.
  Proof.
    intros Hk Hs. destruct W as (_ & _ & _ & LC & _). destruct asm_parts as (_ & -> & _).
    assert (LF : length (firstn nnz cols) = nnz) by (rewrite firstn_length; fold nnz in LC; lia).
    rewrite (nth_concat_rows nnz).
    - rewrite (nth_map_in _ _ 0%nat []) by (rewrite seq_length; exact Hk). rewrite seq_nth by exact Hk. rewrite (nth_map_in _ _ 0%nat 0%nat) by lia. rewrite nth_firstn by exact Hs. reflexivity.
    - intros r Hr. apply in_map_iff in Hr. destruct Hr as (x & <- & _). rewrite map_length. exact LF.
    - rewrite map_length, seq_length. exact Hk.
    - exact Hs.
  Qed.
  Lemma asm_ptr k i : (k < Bn)%nat -> (i <= n)%nat -> nth (k * n + i) p 0%nat = (nth i ptr 0 + k * nnz)%nat.
  Proof.
    intros Hk Hi. destruct W as (L & P0 & _ & _ & _). destruct asm_parts as (_ & _ & ->).
    assert (T : forall k i, (k < Bn)%nat -> (i < n)%nat -> nth (k * n + i) (concat (map (fun k => map (fun q => q + k * nnz)%nat (tl ptr)) (seq 0 Bn))) 0%nat = (nth (S i) ptr 0 + k * nnz)%nat).
    { intros k' i' Hk' Hi'. assert (LT : length (tl ptr) = n) by (destruct ptr; cbn in *; lia). rewrite (nth_concat_rows n).
      - rewrite (nth_map_in _ _ 0%nat []) by (rewrite seq_length; exact Hk'). rewrite seq_nth by exact Hk'. rewrite (nth_map_in _ _ 0%nat 0%nat) by lia.
        destruct ptr as [|a t]; [cbn in L; lia|]. reflexivity.
      - intros r Hr. apply in_map_iff in Hr. destruct Hr as (x & <- & _). rewrite map_length. exact LT.
      - rewrite map_length, seq_length. exact Hk'.
      - exact Hi'. }
    destruct i as [|i].
    - destruct k as [|k].
      + cbn [Nat.mul Nat.add nth]. destruct ptr as [|a t]; [cbn in L; lia|]. cbn [hd nth]. lia.
      + destruct n as [|m] eqn:En.
        * rewrite Nat.mul_0_r. cbn [nth Nat.add]. destruct ptr as [|a t]; [cbn in L; lia|]. cbn [hd nth] in *. unfold nnz. cbn [nth]. lia.
        * replace (S k * S m + 0)%nat with (S (k * S m + m)) by lia. cbn [nth]. rewrite T by lia. rewrite P0. unfold nnz. lia.
    - replace (k * n + S i)%nat with (S (k * n + i)) by lia. cbn [nth]. apply T; lia.
  Qed.
  (** Entry (k n + i, l n + j) is entry (i, j) of matrix k when k = l and zero otherwise. *)
  Lemma asm_dense k l i j : (k < Bn)%nat -> (l < Bn)%nat -> (i < n)%nat -> (j < n)%nat ->
    dense d ix p (k * n + i) (l * n + j) = if (k =? l)%nat then dense (nth k blocks []) cols ptr i j else 0.
  Proof.
    intros Hk Hl Hi Hj. unfold dense. replace (S (k * n + i)) with (k * n + S i)%nat by lia. rewrite !asm_ptr by lia.
    pose proof (wf_le _ _ _ W i (S i) ltac:(lia) ltac:(lia)) as Mi. pose proof (wf_le _ _ _ W (S i) n ltac:(lia) ltac:(lia)) as Mn.
    replace (nth (S i) ptr 0 + k * nnz - (nth i ptr 0 + k * nnz))%nat with (nth (S i) ptr 0 - nth i ptr 0)%nat by lia.
    rewrite (Nat.add_comm (nth i ptr 0%nat) (k * nnz)).
    assert (SH : forall a len c, seq (c + a) len = map (fun s => (c + s)%nat) (seq a len)).
    { intros a len c. revert a. induction len as [|len IH]; intros a; [reflexivity|]. cbn [seq map]. f_equal. replace (S (c + a)) with (c + S a)%nat by lia. apply IH. }
    rewrite SH, sumf_map. destruct W as (_ & _ & _ & _ & CB). destruct (Nat.eqb_spec k l) as [<-|N].
    - apply sumf_ext. intros s Hs. apply in_seq in Hs. assert (s < nnz)%nat by (unfold nnz; lia). rewrite asm_cols, asm_data by assumption.
      destruct (Nat.eqb_spec (nth s cols 0%nat) j) as [E|E]; destruct (Nat.eqb_spec (nth s cols 0 + k * n)%nat (k * n + j)%nat) as [E'|E']; try reflexivity; lia.
    - apply sumf_zero. intros s Hs. apply in_seq in Hs. assert (s < nnz)%nat by (unfold nnz; lia). rewrite asm_cols by assumption. specialize (CB s ltac:(assumption)).
      destruct (Nat.eqb_spec (nth s cols 0 + k * n)%nat (l * n + j)%nat) as [E|E]; [|reflexivity]. exfalso. nia.
  Qed.
  Lemma asm_wf : wf_pat (Bn * n) ix p.
  Proof.
    destruct W as (L & P0 & M & LC & CB). destruct asm_parts as (_ & Ei & Ep).
    assert (LT : length (tl ptr) = n) by (destruct ptr; cbn in *; lia).
    assert (LP : length p = (Bn * n + 1)%nat).
    { rewrite Ep. cbn [length]. rewrite (concat_const_length (w := n)); [rewrite map_length, seq_length; lia|]. intros r Hr. apply in_map_iff in Hr. destruct Hr as (x & <- & _). rewrite map_length. exact LT. }
    assert (LI : length ix = (Bn * nnz)%nat).
    { rewrite Ei. rewrite (concat_const_length (w := nnz)); [rewrite map_length, seq_length; lia|]. intros r Hr. apply in_map_iff in Hr. destruct Hr as (x & <- & _). rewrite map_length, firstn_length. fold nnz in LC. lia. }
    split; [exact LP|]. split; [rewrite Ep; cbn; destruct ptr; [reflexivity|exact P0]|].
    assert (PN : nth (Bn * n) p 0%nat = (Bn * nnz)%nat).
    { destruct (Nat.eq_dec Bn 0) as [E|E]; [rewrite E; rewrite Ep; cbn; destruct ptr; [reflexivity|exact P0]|].
      replace (Bn * n)%nat with ((Bn - 1) * n + n)%nat by nia. rewrite asm_ptr by lia. fold nnz. nia. }
    split; [|split].
    - intros q Hq. assert (Hn : (n <> 0)%nat) by nia. pose proof (Nat.div_mod q n Hn) as D. pose proof (Nat.mod_upper_bound q n Hn) as U.
      assert (Hk : (q / n < Bn)%nat) by (apply Nat.div_lt_upper_bound; lia).
      replace q with (q / n * n + q mod n)%nat at 1 by lia. replace (S q) with (q / n * n + S (q mod n))%nat by lia. rewrite !asm_ptr by lia. specialize (M (q mod n) U). lia.
    - rewrite PN, LI. lia.
    - rewrite PN. intros s Hs. assert (Hn : (nnz <> 0)%nat) by nia. pose proof (Nat.div_mod s nnz Hn) as D. pose proof (Nat.mod_upper_bound s nnz Hn) as U.
      assert (Hk : (s / nnz < Bn)%nat) by (apply Nat.div_lt_upper_bound; lia).
      replace s with (s / nnz * nnz + s mod nnz)%nat by lia. rewrite asm_cols by assumption. specialize (CB (s mod nnz) U). nia.
  Qed.
  Lemma asm_lengths : length d = (Bn * nnz)%nat /\ length ix = (Bn * nnz)%nat /\ nth (Bn * n) p 0%nat = (Bn * nnz)%nat /\ length p = (Bn * n + 1)%nat.
  Proof.
    destruct W as (L & P0 & M & LC & CB). destruct asm_parts as (Ed & Ei & Ep).
    assert (LT : length (tl ptr) = n) by (destruct ptr; cbn in *; lia).
    split; [rewrite Ed, (concat_const_length (w := nnz)); [rewrite map_length; lia|intros r Hr; eapply in_firstn_length; [exact HB|exact Hr]]|].
    split.
    { rewrite Ei. rewrite (concat_const_length (w := nnz)); [rewrite map_length, seq_length; lia|]. intros r Hr. apply in_map_iff in Hr. destruct Hr as (x & <- & _). rewrite map_length, firstn_length. fold nnz in LC. lia. }
    split; [|exact (proj1 asm_wf)]. destruct (Nat.eq_dec Bn 0) as [E|E]; [rewrite E; rewrite Ep; cbn; destruct ptr; [reflexivity|exact P0]|].
    replace (Bn * n)%nat with ((Bn - 1) * n + n)%nat by nia. rewrite asm_ptr by lia. fold nnz. nia.
  Qed.
End Assembled.
Lemma assemble_ok (K : CRing) (blocks : list (list K)) cols ptr n : wf_pat n cols ptr -> (forall r, In r blocks -> (nth n ptr 0 <= length r)%nat) ->
  exists d ix p, assemble_batched blocks cols ptr n = Some (d, ix, p).
Proof.
  intros (L & _ & _ & LC & _) HB. unfold assemble_batched. rewrite (last_nth ptr n L). assert (X : (length cols <? nth n ptr 0)%nat = false) by (apply Nat.ltb_ge; exact LC). rewrite X.
  assert (Y : existsb (fun r : list K => (length r <? nth n ptr 0)%nat) blocks = false).
  { destruct (existsb _ blocks) eqn:E; [|reflexivity]. apply existsb_exists in E. destruct E as (r & Hr & E). apply Nat.ltb_lt in E. specialize (HB r Hr). lia. }
  rewrite Y. eauto.
Qed.

(** Systems with a block-diagonal matrix split into the systems of the blocks. *)
Section Blocks.
  Context {K : CRing}.
  Local Open Scope ring_K.
  Add Ring KRb : (cth K).
  Lemma sumf_blocks (f : nat -> K) n B : sumf f (seq 0 (B * n)) = sumf (fun l => sumf (fun j => f (l * n + j)%nat) (seq 0 n)) (seq 0 B).
  Proof.
    induction B as [|B IH]; [reflexivity|]. rewrite seq_S, sumf_app, <- IH. cbn [sumf Nat.add Nat.mul]. rewrite (Nat.add_comm n (B * n)), seq_app, sumf_app. f_equal. cbn [Nat.add].
    assert (SH : forall len a c, seq (c + a) len = map (fun s => (c + s)%nat) (seq a len)).
    { induction len as [|len IH']; intros a c; [reflexivity|]. cbn [seq map]. f_equal. replace (S (c + a)) with (c + S a)%nat by lia. apply IH'. }
    rewrite <- (Nat.add_0_r (B * n)) at 1. rewrite SH, sumf_map. ring.
  Qed.
  (** [M] is block diagonal with blocks [A k]. *)
  Definition blocks_of (B n : nat) (M : nat -> nat -> K) (A : nat -> nat -> nat -> K) : Prop :=
    forall k l i j, (k < B)%nat -> (l < B)%nat -> (i < n)%nat -> (j < n)%nat -> M (k * n + i)%nat (l * n + j)%nat = if (k =? l)%nat then A k i j else 0.
  Lemma blocks_solve B n M A (xs bs : list (list K)) : blocks_of B n M A -> length xs = B -> length bs = B ->
    (forall x, In x xs -> length x = n) -> (forall b, In b bs -> length b = n) ->
    (solves (B * n) M (concat xs) (concat bs) <-> forall k, (k < B)%nat -> solves n (A k) (nth k xs []) (nth k bs [])).
  Proof.
    intros HM LX LB HX HB. assert (LC : length (concat xs) = (B * n)%nat) by (rewrite (concat_const_length (w := n)); [rewrite LX; lia|exact HX]).
    assert (ROW : forall k i, (k < B)%nat -> (i < n)%nat -> sumf (fun j => M (k * n + i)%nat j * get (concat xs) j) (seq 0 (B * n)) = sumf (fun j => A k i j * get (nth k xs []) j) (seq 0 n)).
    { intros k i Hk Hi. rewrite sumf_blocks.
      transitivity (sumf (fun l => if (l =? k)%nat then sumf (fun j => A k i j * get (nth k xs []) j) (seq 0 n) else 0) (seq 0 B)); [apply sumf_ext|].
      - intros l Hl. apply in_seq in Hl. destruct (Nat.eqb_spec l k) as [->|N].
        + apply sumf_ext. intros j Hj. apply in_seq in Hj. rewrite HM by lia. rewrite Nat.eqb_refl. unfold get. rewrite (nth_concat_rows n); [reflexivity|exact HX|lia|lia].
        + apply sumf_zero. intros j Hj. apply in_seq in Hj. rewrite HM by lia. destruct (Nat.eqb_spec k l); [lia|]. ring.
      - apply (sumf_single_nat K (fun _ => sumf (fun j => A k i j * get (nth k xs []) j) (seq 0 n))). exact Hk. }
    split.
    - intros [_ H] k Hk. split; [apply HX, nth_In; lia|]. intros i Hi. rewrite <- ROW by assumption. rewrite H by nia. unfold get. apply (nth_concat_rows n); [exact HB|lia|exact Hi].
    - intros H. split; [exact LC|]. intros q Hq. assert (Hn : (n <> 0)%nat) by nia. pose proof (Nat.div_mod q n Hn) as D. pose proof (Nat.mod_upper_bound q n Hn) as U.
      assert (Hk : (q / n < B)%nat) by (apply Nat.div_lt_upper_bound; lia). replace q with (q / n * n + q mod n)%nat by lia. rewrite ROW by assumption.
      rewrite (proj2 (H _ Hk)) by exact U. unfold get. symmetry. apply (nth_concat_rows n); [exact HB|lia|exact U].
  Qed.
  Lemma blocks_read r B n M A : blocks_of B n M A -> blocks_of B n (read r M) (fun k => read r (A k)).
  Proof.
    intros H k l i j Hk Hl Hi Hj. destruct r; cbn [read].
    - apply H; assumption.
    - rewrite H by assumption. rewrite Nat.eqb_sym. destruct (Nat.eqb_spec k l) as [->|]; reflexivity.
    - destruct (Nat.eqb_spec k l) as [->|N].
      + replace (l * n + j <=? l * n + i)%nat with (j <=? i)%nat by (destruct (Nat.leb_spec j i), (Nat.leb_spec (l * n + j) (l * n + i)); try reflexivity; lia).
        rewrite !H by assumption. rewrite Nat.eqb_refl. reflexivity.
      + rewrite !H by assumption. destruct (Nat.eqb_spec k l); [lia|]. destruct (Nat.eqb_spec l k); [lia|]. destruct (_ <=? _)%nat; reflexivity.
    - destruct (Nat.eqb_spec k l) as [->|N].
      + replace (l * n + i <=? l * n + j)%nat with (i <=? j)%nat by (destruct (Nat.leb_spec i j), (Nat.leb_spec (l * n + i) (l * n + j)); try reflexivity; lia).
        rewrite !H by assumption. rewrite Nat.eqb_refl. reflexivity.
      + rewrite !H by assumption. destruct (Nat.eqb_spec k l); [lia|]. destruct (Nat.eqb_spec l k); [lia|]. destruct (_ <=? _)%nat; reflexivity.
  Qed.
  Lemma in_reshape_len k m (l : list K) : length l = (k * m)%nat -> forall r, In r (reshape k m l) -> length r = m.
  Proof. intros H r Hr. eapply reshape_in_length; eauto. Qed.
  Lemma blocks_regular B n M A : blocks_of B n M A -> (forall k, (k < B)%nat -> regular n (A k)) -> regular (B * n) M.
  Proof.
    intros HM R b.
    assert (X : forall m, (m <= B)%nat -> exists xs, length xs = m /\ forall k, (k < m)%nat -> solves n (A k) (nth k xs []) (map (fun i => get b (k * n + i)%nat) (seq 0 n)) /\
       forall y, solves n (A k) y (map (fun i => get b (k * n + i)%nat) (seq 0 n)) -> y = nth k xs []).
    { induction m as [|m IH]; intros Hm; [exists []; split; [reflexivity|lia]|]. destruct (IH ltac:(lia)) as (xs & L & H). destruct (R m ltac:(lia) (map (fun i => get b (m * n + i)%nat) (seq 0 n))) as (x & Hx & Ux).
      exists (xs ++ [x]). split; [rewrite app_length; cbn; lia|]. intros k Hk. destruct (Nat.eq_dec k m) as [->|N].
      - rewrite app_nth2, L, Nat.sub_diag by lia. auto.
      - rewrite app_nth1 by lia. apply H. lia. }
    destruct (X B (le_n B)) as (xs & L & H). clear X.
    set (bs := map (fun k => map (fun i => get b (k * n + i)%nat) (seq 0 n)) (seq 0 B)).
    assert (NB : forall k, (k < B)%nat -> nth k bs [] = map (fun i => get b (k * n + i)%nat) (seq 0 n)).
    { intros k Hk. unfold bs. rewrite (nth_map_in _ _ 0%nat []) by (rewrite seq_length; exact Hk). rewrite seq_nth by exact Hk. reflexivity. }
    assert (LB : length bs = B) by (unfold bs; rewrite map_length, seq_length; reflexivity).
    assert (HB : forall r, In r bs -> length r = n). { intros r Hr. apply in_map_iff in Hr. destruct Hr as (k & <- & _). rewrite map_length, seq_length. reflexivity. }
    assert (HX : forall x, In x xs -> length x = n). { intros x Hx. apply (In_nth _ _ []) in Hx. destruct Hx as (k & Hk & <-). apply H. lia. }
    assert (EQ : forall q, (q < B * n)%nat -> get (concat bs) q = get b q).
    { intros q Hq. assert (Hn : (n <> 0)%nat) by nia. pose proof (Nat.div_mod q n Hn) as D. pose proof (Nat.mod_upper_bound q n Hn) as U.
      assert (Hk : (q / n < B)%nat) by (apply Nat.div_lt_upper_bound; lia). replace q with (q / n * n + q mod n)%nat by lia. unfold get at 1. rewrite (nth_concat_rows n) by (auto; lia).
      rewrite NB by exact Hk. rewrite (nth_map_in _ _ 0%nat 0) by (rewrite seq_length; exact U). rewrite seq_nth by exact U. reflexivity. }
    assert (SB : forall y, solves (B * n) M y b <-> solves (B * n) M y (concat bs)).
    { intros y. split; intros [L' E]; (split; [exact L'|]); intros i Hi; rewrite E by exact Hi; [symmetry|]; apply EQ, Hi. }
    exists (concat xs). split.
    - apply SB. apply (blocks_solve B n M A); auto. intros k Hk. rewrite NB by exact Hk. apply H, Hk.
    - intros y Hy. apply SB in Hy. assert (Ly : length y = (B * n)%nat) by apply Hy. rewrite <- (concat_reshape B n y Ly) in Hy |- *. f_equal.
      pose proof (proj1 (blocks_solve B n M A (reshape B n y) bs HM (reshape_length _ _ _) LB (in_reshape_len B n y Ly) HB) Hy) as HH.
      apply (nth_ext _ _ [] []); [rewrite reshape_length; lia|]. intros k Hk. rewrite reshape_length in Hk. apply H; [exact Hk|]. rewrite <- NB by exact Hk. apply HH, Hk.
  Qed.
End Blocks.

(** ** C40 *)
(** The assembled system is block diagonal with the individual matrices, whichever way the
    backend reads it. *)
Theorem C40_block_diagonal :
  forall (K : CRing) (vals : list (list K)) cols ptr n, wf_pat n cols ptr -> (forall r, In r vals -> (nth n ptr 0 <= length r)%nat) ->
    exists d ix p, assemble_batched vals cols ptr n = Some (d, ix, p) /\ wf_pat (length vals * n) ix p /\
      forall rd k l i j, (k < length vals)%nat -> (l < length vals)%nat -> (i < n)%nat -> (j < n)%nat ->
        read rd (dense d ix p) (k * n + i)%nat (l * n + j)%nat = if (k =? l)%nat then read rd (dense (nth k vals []) cols ptr) i j else c0.
Proof.
  intros K vals cols ptr n W HB. destruct (assemble_ok K vals cols ptr n W HB) as (d & ix & p & E). exists d, ix, p. split; [exact E|]. split; [eapply asm_wf; eassumption|].
  intros rd. apply (blocks_read rd (length vals) n (dense d ix p) (fun k => dense (nth k vals []) cols ptr)). intros k l i j Hk Hl Hi Hj. eapply asm_dense; eassumption.
Qed.
Print Assumptions C40_block_diagonal.

(** System k of a batch. *)
Definition row {K : CRing} (w : nat) (t : tensor K) (k : nat) : list K := firstn w (skipn (k * w) (t_data t)).
Definition sized {K : CRing} (t : tensor K) : Prop := length (t_data t) = prod (t_shape t).
Definition vals_of {K : CRing} (vals : tensor K) (cols : list nat) (k : nat) : list K :=
  if (ndim vals =? 1)%nat then t_data vals else row (length cols) vals k.
(** A request the batched entry points accept: right-hand sides of shape batch x n, values shared
    or one row per system. *)
Definition batch_shape_ok {K : CRing} (b vals : tensor K) (cols ptr : list nat) (bshape : list nat) (n : nat) : Prop :=
  t_shape b = bshape ++ [n] /\ bshape <> [] /\ sized b /\ sized vals /\ length ptr = (n + 1)%nat /\
  (t_shape vals = [length cols] \/ t_shape vals = bshape ++ [length cols]).

Lemma skipn_add {A} a b (l : list A) : skipn (a + b) l = skipn b (skipn a l).
Proof. revert l. induction a as [|a IH]; intros l; [reflexivity|]. destruct l; [cbn; rewrite skipn_nil; reflexivity|]. cbn. apply IH. Qed.
Lemma prod_app l1 l2 : prod (l1 ++ l2) = (prod l1 * prod l2)%nat.
Proof. unfold prod. induction l1 as [|a l IH]; cbn [app fold_right] in *; [lia|]. rewrite IH. lia. Qed.
Lemma last_snoc {A} (l : list A) x d : last (l ++ [x]) d = x.
Proof. induction l as [|a l IH]; [reflexivity|]. cbn. destruct l; [reflexivity|exact IH]. Qed.
Lemma leqb_eq a b : nat_list_eqb a b = true <-> a = b.
Proof.
  unfold nat_list_eqb. rewrite andb_true_iff, Nat.eqb_eq. split.
  - intros [L F]. revert b L F. induction a as [|x a IH]; intros [|y b] L F; try discriminate L; [reflexivity|]. cbn in *. apply andb_true_iff in F. destruct F as [E F]. apply Nat.eqb_eq in E. f_equal; [exact E|apply IH; [lia|exact F]].
  - intros <-. split; [reflexivity|]. apply forallb_forall. intros [x y] H. cbn. apply Nat.eqb_eq. revert H. induction a as [|z a IH]; [contradiction|]. cbn. intros [E|E]; [congruence|auto].
Qed.
Section Batched.
  Context {K : CRing}.
  Local Open Scope ring_K.
  Add Ring KRc : (cth K).
  Lemma nth_reshape_row w m (t : tensor K) k : (k < m)%nat -> nth k (reshape m w (t_data t)) [] = row w t k.
  Proof.
    unfold row. generalize (t_data t). clear t. revert k. induction m as [|m IH]; intros k l H; [lia|]. cbn [reshape]. destruct k as [|k]; [reflexivity|]. cbn [nth]. rewrite IH by lia. f_equal.
    cbn [Nat.mul]. rewrite (skipn_add w (k * w)). reflexivity.
  Qed.
  Lemma dense_trim (v : list K) cols ptr n i j : wf_pat n cols ptr -> (i < n)%nat -> dense (firstn (nth n ptr 0%nat) v) (firstn (nth n ptr 0%nat) cols) ptr i j = dense v cols ptr i j.
  Proof.
    intros W Hi. unfold dense. apply sumf_ext. intros s Hs. apply in_seq in Hs. pose proof (wf_le _ _ _ W (S i) n ltac:(lia) ltac:(lia)). unfold get. rewrite !nth_firstn by lia. reflexivity.
  Qed.
  Lemma read_ext rd n (A A' : nat -> nat -> K) : (forall i j, (i < n)%nat -> (j < n)%nat -> A i j = A' i j) -> forall i j, (i < n)%nat -> (j < n)%nat -> read rd A i j = read rd A' i j.
  Proof. intros H i j Hi Hj. destruct rd; cbn; try (destruct (_ <=? _)%nat); apply H; assumption. Qed.
  Lemma solves_ext n (A A' : nat -> nat -> K) x b : (forall i j, (i < n)%nat -> (j < n)%nat -> A i j = A' i j) -> solves n A x b -> solves n A' x b.
  Proof.
    intros H [L E]. split; [exact L|]. intros i Hi. rewrite <- (E i Hi). apply sumf_ext. intros j Hj. apply in_seq in Hj. rewrite H by lia. reflexivity.
  Qed.
  Lemma regular_ext n (A A' : nat -> nat -> K) : (forall i j, (i < n)%nat -> (j < n)%nat -> A i j = A' i j) -> regular n A -> regular n A'.
  Proof.
    intros H R b. destruct (R b) as (x & Hx & U). exists x. split; [eapply solves_ext; eauto|]. intros y Hy. apply U. eapply solves_ext; [|exact Hy]. intros. symmetry. apply H; assumption.
  Qed.
  Lemma wf_trim n cols ptr : wf_pat n cols ptr -> wf_pat n (firstn (nth n ptr 0%nat) cols) ptr.
  Proof.
    intros (L & P0 & M & LC & CB). split; [exact L|]. split; [exact P0|]. split; [exact M|]. split; [rewrite firstn_length; lia|]. intros s Hs. rewrite nth_firstn by exact Hs. apply CB, Hs.
  Qed.
  Lemma transp_transp r c (M : list (list K)) : length M = r -> (forall x, In x M -> length x = c) -> transp c r (transp r c M) = M.
  Proof.
    intros L H. unfold transp at 1. transitivity (map (fun j => nth j M []) (seq 0 r)); [|rewrite <- L; apply map_nth_seq]. apply map_ext_in. intros i Hi. apply in_seq in Hi.
    transitivity (map (fun j => get (nth i M []) j) (seq 0 c)).
    - apply map_ext_in. intros j Hj. apply in_seq in Hj. unfold transp. rewrite (nth_map_in _ _ 0%nat []) by (rewrite seq_length; lia). rewrite seq_nth by lia. unfold get at 1. rewrite (nth_map_in _ _ 0%nat 0) by (rewrite seq_length; lia). rewrite seq_nth by lia. reflexivity.
    - assert (Li : length (nth i M []) = c) by (apply H, nth_In; lia). rewrite <- Li. apply map_nth_seq.
  Qed.
  Lemma prepare_ok b vals cols ptr bshape n bc : @batch_shape_ok K b vals cols ptr bshape n ->
    prepare_batched b vals cols ptr bc = Some (bshape, prod bshape, n, if (ndim vals =? 1)%nat then (if bc then Rows (repeat (t_data vals) (prod bshape)) else Shared (t_data vals)) else Rows (reshape (prod bshape) (length cols) (t_data vals))).
  Proof.
    intros (Sb & NE & SB & SV & LP & V). unfold prepare_batched. assert (ND : (ndim b <? 2)%nat = false). { apply Nat.ltb_ge. unfold ndim. rewrite Sb, app_length. destruct bshape; [congruence|]. cbn. lia. }
    rewrite ND. rewrite Sb, removelast_last, last_snoc, LP, Nat.eqb_refl. cbn [negb]. destruct V as [V|V].
    - assert (N1 : (ndim vals =? 1)%nat = true) by (unfold ndim; rewrite V; reflexivity). rewrite N1. unfold sized in SV. rewrite V in SV. cbn in SV. rewrite SV. replace (length cols * 1)%nat with (length cols) by lia. rewrite Nat.eqb_refl. cbn [negb]. reflexivity.
    - assert (N2 : (ndim vals =? 1)%nat = false /\ (2 <=? ndim vals)%nat = true). { unfold ndim. rewrite V, app_length. destruct bshape; [congruence|]. cbn. split; [apply Nat.eqb_neq; lia|]. destruct bshape; reflexivity. }
      destruct N2 as [-> ->]. rewrite (proj2 (leqb_eq _ _) V). reflexivity.
  Qed.
  (** What both batched entry points compute. *)
  Definition batch_correct (rd : reading) (B : tensor K -> tensor K -> list nat -> list nat -> option (tensor K)) : Prop :=
    forall b vals cols ptr bshape n, batch_shape_ok b vals cols ptr bshape n -> wf_pat n cols ptr ->
      (forall X, B b vals cols ptr = Some X ->
         t_shape X = t_shape b /\ sized X /\
         forall k, (k < prod bshape)%nat -> solves n (read rd (dense (vals_of vals cols k) cols ptr)) (row n X k) (row n b k)).
  Definition batch_total (rd : reading) (B : tensor K -> tensor K -> list nat -> list nat -> option (tensor K)) : Prop :=
    forall b vals cols ptr bshape n, batch_shape_ok b vals cols ptr bshape n -> wf_pat n cols ptr -> (0 < prod bshape)%nat ->
      (forall k, (k < prod bshape)%nat -> regular n (read rd (dense (vals_of vals cols k) cols ptr))) -> exists X, B b vals cols ptr = Some X.

  Lemma row_flat w m (xs : list (list K)) sh k : length xs = m -> (forall x, In x xs -> length x = w) -> (k < m)%nat -> row w {| t_shape := sh; t_data := concat xs |} k = nth k xs [].
  Proof. intros L H Hk. rewrite <- (nth_reshape_row w m) by exact Hk. cbn [t_data]. rewrite <- L, (reshape_concat xs H). reflexivity. Qed.
  (** The block-diagonal solve used by both. *)
  Lemma block_solve rd S (rows : list (list K)) cols ptr n total bs : wf_pat n cols ptr -> length rows = total -> (forall r, In r rows -> (nth n ptr 0 <= length r)%nat) ->
    length bs = total -> (forall b, In b bs -> length b = n) ->
    (correct rd S -> forall d ix p x, assemble_batched rows cols ptr n = Some (d, ix, p) -> host_solve S (total * n) d ix p [concat bs] = Some [x] ->
       length x = (total * n)%nat /\ forall k, (k < total)%nat -> solves n (read rd (dense (nth k rows []) cols ptr)) (nth k (reshape total n x) []) (nth k bs [])) /\
    (correct rd S -> complete rd S -> (forall k, (k < total)%nat -> regular n (read rd (dense (nth k rows []) cols ptr))) ->
       exists d ix p x, assemble_batched rows cols ptr n = Some (d, ix, p) /\ host_solve S (total * n) d ix p [concat bs] = Some [x]).
  Proof.
    intros W LR HR LB HB.
    assert (HS : forall d ix p, assemble_batched rows cols ptr n = Some (d, ix, p) -> host_solve S (total * n) d ix p [concat bs] = S (total * n)%nat d ix p [concat bs]).
    { intros d ix p E. destruct (asm_lengths rows cols ptr n W HR d ix p E) as (L1 & L2 & L3 & L4). rewrite LR in *. unfold host_solve. rewrite (last_nth p (total * n) L4), L3, <- L1, firstn_all, L1, <- L2, firstn_all, Nat.eqb_refl. reflexivity. }
    assert (BL : forall d ix p, assemble_batched rows cols ptr n = Some (d, ix, p) -> blocks_of total n (read rd (dense d ix p)) (fun k => read rd (dense (nth k rows []) cols ptr))).
    { intros d ix p E. apply blocks_read. intros k l i j Hk Hl Hi Hj. rewrite <- LR in Hk, Hl. eapply asm_dense; eassumption. }
    split.
    - intros C d ix p x E H. rewrite (HS d ix p E) in H. pose proof (asm_wf rows cols ptr n W HR d ix p E) as WW. rewrite LR in WW.
      destruct (C _ _ _ _ _ _ WW H) as [_ Q]. specialize (Q 0%nat ltac:(cbn; lia)). cbn [nth] in Q. pose proof (proj1 Q) as Lx. split; [exact Lx|].
      rewrite <- (concat_reshape total n x Lx) in Q. apply (blocks_solve total n _ _ _ _ (BL d ix p E) (reshape_length _ _ _) LB (in_reshape_len total n x Lx) HB). exact Q.
    - intros C CO R. destruct (assemble_ok K rows cols ptr n W HR) as (d & ix & p & E). exists d, ix, p.
      pose proof (asm_wf rows cols ptr n W HR d ix p E) as WW. rewrite LR in WW. destruct (CO _ d _ _ [concat bs] WW) as [xs Hx]. { eapply blocks_regular; [apply BL, E|exact R]. }
      destruct (C _ _ _ _ _ _ WW Hx) as [Lx _]. destruct xs as [|x [|y t]]; cbn in Lx; try lia. exists x. split; [exact E|]. rewrite (HS d ix p E). exact Hx.
  Qed.
  Lemma rows_facts (b vals : tensor K) cols ptr bshape n : batch_shape_ok b vals cols ptr bshape n -> wf_pat n cols ptr ->
    let rows := if (ndim vals =? 1)%nat then repeat (t_data vals) (prod bshape) else reshape (prod bshape) (length cols) (t_data vals) in
    length rows = prod bshape /\ (forall r, In r rows -> (nth n ptr 0 <= length r)%nat) /\ (forall k, (k < prod bshape)%nat -> nth k rows [] = vals_of vals cols k) /\
    length (t_data b) = (prod bshape * n)%nat.
  Proof.
    intros (Sb & NE & SB & SV & LP & V) W rows. destruct W as (_ & _ & _ & LC & _).
    assert (LBB : length (t_data b) = (prod bshape * n)%nat) by (unfold sized in SB; rewrite Sb, prod_app in SB; cbn in SB; lia).
    unfold rows, vals_of. destruct (Nat.eqb_spec (ndim vals) 1) as [N1|N1].
    - destruct V as [V|V]; [|exfalso; unfold ndim in N1; rewrite V, app_length in N1; destruct bshape; [congruence|cbn in N1; lia]].
      unfold sized in SV. rewrite V in SV. cbn in SV. split; [apply repeat_length|]. split; [intros r Hr; apply repeat_spec in Hr; subst r; lia|]. split; [|exact LBB].
      intros k Hk. rewrite (nth_indep _ [] (t_data vals)) by (rewrite repeat_length; exact Hk). apply nth_repeat.
    - destruct V as [V|V]; [unfold ndim in N1; rewrite V in N1; cbn in N1; lia|]. unfold sized in SV. rewrite V, prod_app in SV. cbn in SV.
      split; [apply reshape_length|]. split; [intros r Hr; apply in_reshape_len in Hr; lia|]. split; [|exact LBB]. intros k Hk. apply nth_reshape_row. exact Hk.
  Qed.
  Lemma block_batched_ok rd S : correct rd S -> batch_correct rd (solve_batched S) /\ (complete rd S -> batch_total rd (solve_batched S)).
  Proof.
    intros C. split; [|intros CO]; intros b vals cols ptr bshape n OK W.
    - intros X. unfold solve_batched. rewrite (prepare_ok b vals cols ptr bshape n true OK). destruct (rows_facts b vals cols ptr bshape n OK W) as (L1 & L2 & L3 & LBB). cbv zeta in *.
      set (rows := if (ndim vals =? 1)%nat then repeat (t_data vals) (prod bshape) else reshape (prod bshape) (length cols) (t_data vals)) in *.
      replace (if (ndim vals =? 1)%nat then Rows (repeat (t_data vals) (prod bshape)) else Rows (reshape (prod bshape) (length cols) (t_data vals))) with (Rows rows) by (unfold rows; destruct (_ =? 1)%nat; reflexivity).
      destruct (assemble_batched rows cols ptr n) as [[[d ix] p]|] eqn:E; [|discriminate].
      destruct (host_solve S (prod bshape * n) d ix p [concat (reshape (prod bshape) n (t_data b))]) as [[|x [|y t]]|] eqn:H; try discriminate. intros EX. injection EX as <-.
      destruct (block_solve rd S rows cols ptr n (prod bshape) (reshape (prod bshape) n (t_data b)) W L1 L2 (reshape_length _ _ _) (in_reshape_len _ _ _ LBB)) as [A _].
      destruct (A C d ix p x E H) as [Lx Q]. cbn [t_shape t_data]. destruct OK as (Sb & _). split; [symmetry; exact Sb|]. split; [unfold sized; cbn [t_shape t_data]; rewrite prod_app; cbn; lia|].
      intros k Hk. specialize (Q k Hk). rewrite L3 in Q by exact Hk. rewrite nth_reshape_row in Q by exact Hk. rewrite <- (nth_reshape_row n (prod bshape)) by exact Hk. exact Q.
    - intros PB R. unfold solve_batched. rewrite (prepare_ok b vals cols ptr bshape n true OK). destruct (rows_facts b vals cols ptr bshape n OK W) as (L1 & L2 & L3 & LBB). cbv zeta in *.
      set (rows := if (ndim vals =? 1)%nat then repeat (t_data vals) (prod bshape) else reshape (prod bshape) (length cols) (t_data vals)) in *.
      replace (if (ndim vals =? 1)%nat then Rows (repeat (t_data vals) (prod bshape)) else Rows (reshape (prod bshape) (length cols) (t_data vals))) with (Rows rows) by (unfold rows; destruct (_ =? 1)%nat; reflexivity).
      destruct (block_solve rd S rows cols ptr n (prod bshape) (reshape (prod bshape) n (t_data b)) W L1 L2 (reshape_length _ _ _) (in_reshape_len _ _ _ LBB)) as [_ A].
      destruct (A C CO) as (d & ix & p & x & E & H). { intros k Hk. rewrite L3 by exact Hk. apply R, Hk. } rewrite E, H. eauto.
  Qed.
  Lemma umf_batched_ok rd S : correct rd S -> batch_correct rd (umf_batched S) /\ (complete rd S -> batch_total rd (umf_batched S)).
  Proof.
    intros C. split; [|intros CO]; intros b vals cols ptr bshape n OK W.
    - intros X. unfold umf_batched. rewrite (prepare_ok b vals cols ptr bshape n false OK). destruct (rows_facts b vals cols ptr bshape n OK W) as (L1 & L2 & L3 & LBB). cbv zeta in *.
      set (bs := reshape (prod bshape) n (t_data b)) in *. assert (HBS : forall r, In r bs -> length r = n) by (apply in_reshape_len; exact LBB). assert (LBS : length bs = prod bshape) by apply reshape_length.
      rewrite (transp_transp (prod bshape) n bs LBS HBS). destruct OK as (Sb & NE & SB & SV & LP & V). unfold vals_of in *.
      destruct (ndim vals =? 1)%nat eqn:N1.
      + destruct (host_solve S n (t_data vals) cols ptr bs) as [xs|] eqn:H; [|discriminate]. intros EX. injection EX as <-. cbn [t_shape].
        unfold host_solve in H. rewrite (last_nth ptr n LP) in H. destruct (_ =? _)%nat in H; [|discriminate]. destruct (C _ _ _ _ _ _ (wf_trim n cols ptr W) H) as [Lx Q].
        rewrite LBS in *. assert (HX : forall x, In x xs -> length x = n). { intros x Hx. apply (In_nth _ _ []) in Hx. destruct Hx as (k & Hk & <-). apply Q. lia. }
        rewrite transp_transp by assumption. split; [symmetry; exact Sb|]. split; [unfold sized; cbn [t_shape t_data]; rewrite prod_app, (concat_const_length (w := n)) by exact HX; cbn; lia|].
        intros k Hk. rewrite (row_flat n (prod bshape)) by assumption. specialize (Q k Hk). unfold bs in Q. rewrite nth_reshape_row in Q by exact Hk.
        eapply solves_ext; [|exact Q]. apply read_ext. intros i j Hi Hj. apply (dense_trim (t_data vals) cols ptr n i j W Hi).
      + set (rows := reshape (prod bshape) (length cols) (t_data vals)) in *.
        destruct (assemble_batched rows cols ptr n) as [[[d ix] p]|] eqn:E; [|discriminate]. rewrite (Nat.mul_comm n).
        destruct (host_solve S (prod bshape * n) d ix p [concat bs]) as [[|x [|y t]]|] eqn:H; try discriminate. intros EX. injection EX as <-.
        destruct (block_solve rd S rows cols ptr n (prod bshape) bs W L1 L2 LBS HBS) as [A _]. destruct (A C d ix p x E H) as [Lx Q].
        rewrite transp_transp by (try apply reshape_length; apply in_reshape_len; exact Lx). cbn [t_shape]. split; [symmetry; exact Sb|].
        split; [unfold sized; cbn [t_shape t_data]; rewrite prod_app, (concat_reshape (prod bshape) n x Lx); cbn; lia|].
        intros k Hk. rewrite (row_flat n (prod bshape)) by (try apply reshape_length; try (apply in_reshape_len; exact Lx); exact Hk). specialize (Q k Hk). rewrite L3 in Q by exact Hk.
        unfold bs in Q. rewrite (nth_reshape_row n (prod bshape) b) in Q by exact Hk. exact Q.
    - intros PB R. unfold umf_batched. rewrite (prepare_ok b vals cols ptr bshape n false OK). destruct (rows_facts b vals cols ptr bshape n OK W) as (L1 & L2 & L3 & LBB). cbv zeta in *.
      set (bs := reshape (prod bshape) n (t_data b)) in *. assert (HBS : forall r, In r bs -> length r = n) by (apply in_reshape_len; exact LBB). assert (LBS : length bs = prod bshape) by apply reshape_length.
      rewrite (transp_transp (prod bshape) n bs LBS HBS). destruct OK as (Sb & NE & SB & SV & LP & V). unfold vals_of in *.
      destruct (ndim vals =? 1)%nat eqn:N1.
      + assert (LV : length (t_data vals) = length cols).
        { destruct V as [V|V]; [unfold sized in SV; rewrite V in SV; cbn in SV; lia|]. apply Nat.eqb_eq in N1. unfold ndim in N1. rewrite V, app_length in N1. destruct bshape; [congruence|cbn in N1; lia]. }
        unfold host_solve. rewrite (last_nth ptr n LP), !firstn_length, LV, Nat.eqb_refl.
        destruct (CO n (firstn (nth n ptr 0%nat) (t_data vals)) _ _ bs (wf_trim n cols ptr W)) as [xs ->]; [|eauto].
        eapply regular_ext; [|exact (R 0%nat PB)]. apply read_ext. intros i j Hi Hj. symmetry. apply (dense_trim (t_data vals) cols ptr n i j W Hi).
      + set (rows := reshape (prod bshape) (length cols) (t_data vals)) in *.
        destruct (block_solve rd S rows cols ptr n (prod bshape) bs W L1 L2 LBS HBS) as [_ A]. destruct (A C CO) as (d & ix & p & x & E & H). { intros k Hk. rewrite L3 by exact Hk. apply R, Hk. }
        rewrite E, (Nat.mul_comm n), H. eauto.
  Qed.
End Batched.

(** The batched entry points of every backend (SciPy and CHOLMOD: one block-diagonal system;
    UMFPACK: columns, or a shared factor) return the solution of each system. *)
Theorem C40_batched :
  forall (K : CRing) rd (S : host_solver K), correct rd S ->
    forall B, B = solve_batched S \/ B = umf_batched S ->
    forall b vals cols ptr bshape n, batch_shape_ok b vals cols ptr bshape n -> wf_pat n cols ptr ->
      (forall X, B b vals cols ptr = Some X -> t_shape X = t_shape b /\ sized X /\
         forall k, (k < prod bshape)%nat -> solves n (read rd (dense (vals_of vals cols k) cols ptr)) (row n X k) (row n b k)) /\
      (complete rd S -> (0 < prod bshape)%nat -> (forall k, (k < prod bshape)%nat -> regular n (read rd (dense (vals_of vals cols k) cols ptr))) ->
         exists X, B b vals cols ptr = Some X).
Proof.
  intros K rd S C B HB b vals cols ptr bshape n OK W. assert (X : batch_correct rd B /\ (complete rd S -> batch_total rd B)).
  { destruct HB as [-> | ->]; [apply block_batched_ok; exact C|apply umf_batched_ok; exact C]. }
  destruct X as [X Y]. split; [apply (X b vals cols ptr bshape n OK W)|]. intros CO P R. apply (Y CO b vals cols ptr bshape n OK W P R).
Qed.
Print Assumptions C40_batched.

(** The k-th slice of an argument: itself when it is not mapped. *)
Definition slice {K : CRing} (mapd : bool) (w : nat) (t : tensor K) (k : nat) : tensor K :=
  {| t_shape := [w]; t_data := if mapd then row w t k else t_data t |}.
Definition slice_idx (m : mapped) (k : nat) : list nat := match m with One l => l | Many ls => nth k ls [] end.
(** Arguments of a mapped call over [axis] systems with one common pattern. *)
Definition vmap_args {K : CRing} (axis n : nat) (bb vb : bool) (b vals : tensor K) (ptr cols : mapped) (p c : list nat) : Prop :=
  (0 < axis)%nat /\ (bb || vb = true) /\ sized b /\ sized vals /\
  t_shape b = (if bb then [axis; n] else [n]) /\ t_shape vals = (if vb then [axis; length c] else [length c]) /\
  (forall l, (ptr = Many l -> length l = axis)) /\ (forall l, cols = Many l -> length l = axis) /\
  (forall k, (k < axis)%nat -> slice_idx ptr k = p) /\ (forall k, (k < axis)%nat -> slice_idx cols k = c).

Lemma slice_first m axis p : (0 < axis)%nat -> (forall l, m = Many l -> length l = axis) -> (forall k, (k < axis)%nat -> slice_idx m k = p) -> first_of m = Some p.
Proof.
  intros H L E. destruct m as [l|ls]; cbn in *; [f_equal; apply (E 0%nat H)|]. specialize (E 0%nat H). specialize (L ls eq_refl). destruct ls; cbn in *; [lia|]. f_equal. exact E.
Qed.
Lemma skipn_repeat_concat {A} (l : list A) m k : (k < m)%nat -> firstn (length l) (skipn (k * length l) (concat (repeat l m))) = l.
Proof.
  revert k. induction m as [|m IH]; intros k H; [lia|]. cbn [repeat concat]. destruct k as [|k].
  - cbn [Nat.mul skipn]. rewrite firstn_app, Nat.sub_diag, firstn_all, firstn_O, app_nil_r. reflexivity.
  - cbn [Nat.mul]. rewrite skipn_app. rewrite skipn_all2 by lia. cbn [app]. replace (length l + k * length l - length l)%nat with (k * length l)%nat by lia. apply IH. lia.
Qed.
Lemma concat_repeat_length {A} (l : list A) m : length (concat (repeat l m)) = (m * length l)%nat.
Proof. induction m as [|m IH]; [reflexivity|]. cbn. rewrite app_length, IH. lia. Qed.
(** A mapped call is the loop of single calls: each slice of the result solves its system, a
    result exists when every system is regular, and it is then the result of the single call. *)
Theorem C40_vmap :
  forall (K : CRing) rd (S : host_solver K), correct rd S ->
    forall B, B = solve_batched S \/ B = umf_batched S ->
    forall axis n bb vb b vals ptr cols p c, vmap_args axis n bb vb b vals ptr cols p c -> wf_pat n c p ->
      (forall X, vmap_rule B axis bb vb b vals ptr cols = Some X -> t_shape X = [axis; n] /\ sized X /\
         forall k, (k < axis)%nat ->
           solves n (read rd (dense (t_data (slice vb (length c) vals k)) c p)) (row n X k) (t_data (slice bb n b k)) /\
           (regular n (read rd (dense (t_data (slice vb (length c) vals k)) c p)) ->
              forall x, solve_single S (slice bb n b k) (slice vb (length c) vals k) (slice_idx cols k) (slice_idx ptr k) = Some x -> x = slice true n X k)) /\
      (complete rd S -> (forall k, (k < axis)%nat -> regular n (read rd (dense (t_data (slice vb (length c) vals k)) c p))) ->
         exists X, vmap_rule B axis bb vb b vals ptr cols = Some X).
Proof.
  intros K rd S C B HB axis n bb vb b vals ptr cols p c (P & BV & SB & SV & HS & HV & LP & LC & EP & EC) W.
  unfold vmap_rule. rewrite (slice_first ptr axis p P LP EP), (slice_first cols axis c P LC EC).
  set (b' := if bb then b else bcast axis b). set (vals' := if vb then vals else bcast axis vals).
  replace (if Bool.eqb bb vb then B b vals c p else if bb then B b (bcast axis vals) c p else B (bcast axis b) vals c p) with (B b' vals' c p) by (unfold b', vals'; destruct bb, vb; try discriminate BV; reflexivity).
  assert (PP : prod [axis] = axis) by (unfold prod; cbn; lia).
  assert (OK : batch_shape_ok b' vals' c p [axis] n).
  { unfold sized in SB, SV. split; [unfold b'; destruct bb; [exact HS|cbn [bcast t_shape]; rewrite HS; reflexivity]|]. split; [discriminate|].
    split; [unfold b'; destruct bb; [exact SB|unfold sized; cbn [bcast t_shape t_data]; rewrite concat_repeat_length, SB, HS; reflexivity]|].
    split; [unfold vals'; destruct vb; [exact SV|unfold sized; cbn [bcast t_shape t_data]; rewrite concat_repeat_length, SV, HV; reflexivity]|].
    split; [exact (proj1 W)|]. right. unfold vals'. destruct vb; [exact HV|]. cbn [bcast t_shape]. rewrite HV. reflexivity. }
  assert (RB : forall k, (k < axis)%nat -> row n b' k = t_data (slice bb n b k)).
  { intros k Hk. unfold b', slice. destruct bb; [reflexivity|]. cbn [t_data]. unfold row, bcast. cbn [t_data]. assert (L : length (t_data b) = n) by (unfold sized in SB; rewrite HS in SB; cbn in SB; lia). rewrite <- L. apply skipn_repeat_concat, Hk. }
  assert (RV : forall k, (k < axis)%nat -> vals_of vals' c k = t_data (slice vb (length c) vals k)).
  { intros k Hk. unfold vals', vals_of, slice. destruct vb.
    - unfold ndim. rewrite HV. reflexivity.
    - unfold ndim. cbn [bcast t_shape]. rewrite HV. cbn [length Nat.eqb]. unfold row. cbn [t_data]. assert (L : length (t_data vals) = length c) by (unfold sized in SV; rewrite HV in SV; cbn in SV; lia). rewrite <- L. apply skipn_repeat_concat, Hk. }
  destruct (C40_batched K rd S C B HB b' vals' c p [axis] n OK W) as [X1 X2]. rewrite PP in *. split.
  - intros X HX. destruct (X1 X HX) as (A1 & A2 & A3). destruct OK as (Sb & _). split; [rewrite A1, Sb; reflexivity|]. split; [exact A2|]. intros k Hk. specialize (A3 k Hk). rewrite RB, RV in A3 by exact Hk. split; [exact A3|].
    intros R x. unfold solve_single. cbn [slice t_shape]. rewrite EP, EC by exact Hk. destruct (negb _); [discriminate|]. destruct (negb _); [discriminate|]. destruct (negb _); [discriminate|].
    destruct (host_solve S n _ c p _) as [[|y [|z t]]|] eqn:H; try discriminate. intros E. injection E as <-. unfold slice at 1. f_equal.
    unfold host_solve in H. rewrite (last_nth p n (proj1 W)) in H. destruct (_ =? _)%nat in H; [|discriminate]. destruct (C _ _ _ _ _ _ (wf_trim n c p W) H) as [_ Q]. specialize (Q 0%nat ltac:(cbn; lia)). cbn [nth] in Q.
    destruct (R (t_data (slice bb n b k))) as (x0 & _ & U). rewrite (U _ A3). apply U. eapply solves_ext; [|exact Q]. apply read_ext. intros i j Hi Hj. apply (dense_trim _ c p n i j W Hi).
  - intros CO R. apply (X2 CO P). intros k Hk. rewrite RV by exact Hk. apply R, Hk.
Qed.
Print Assumptions C40_vmap.

(** Requests of any other shape are rejected. *)
Theorem C40_rejects :
  forall (K : CRing) (S : host_solver K) B, B = solve_batched S \/ B = umf_batched S ->
    forall b vals cols ptr, sized b -> sized vals ->
      (~ exists bshape n, batch_shape_ok b vals cols ptr bshape n) -> B b vals cols ptr = None.
Proof.
  intros K S B HB b vals cols ptr SB SV N.
  assert (E : forall bc, prepare_batched b vals cols ptr bc = None).
  { intros bc. unfold prepare_batched. destruct (Nat.ltb_spec (ndim b) 2) as [L|L]; [reflexivity|]. destruct (Nat.eqb_spec (length ptr) (last (t_shape b) 0 + 1)%nat) as [E|E]; [|reflexivity]. cbn [negb].
    assert (SH : t_shape b = removelast (t_shape b) ++ [last (t_shape b) 0%nat]) by (apply app_removelast_last; unfold ndim in L; destruct (t_shape b); [cbn in L; lia|discriminate]).
    assert (NE : removelast (t_shape b) <> []). { intros X. rewrite X in SH. unfold ndim in L. rewrite SH in L. cbn in L. lia. }
    destruct (Nat.eqb_spec (ndim vals) 1) as [N1|N1].
    - destruct (Nat.eqb_spec (length (t_data vals)) (length cols)) as [E2|E2]; [|reflexivity]. exfalso. apply N. exists (removelast (t_shape b)), (last (t_shape b) 0%nat). repeat (split; [assumption|]).
      left. unfold sized in SV. unfold ndim in N1. destruct (t_shape vals) as [|x [|y t]]; cbn in N1; try lia. cbn in SV. f_equal. lia.
    - destruct (2 <=? ndim vals)%nat; [|reflexivity]. destruct (nat_list_eqb _ _) eqn:E2; [|reflexivity]. apply leqb_eq in E2. exfalso. apply N. exists (removelast (t_shape b)), (last (t_shape b) 0%nat). repeat (split; [assumption|]). right. exact E2. }
  destruct HB as [-> | ->]; [unfold solve_batched|unfold umf_batched]; rewrite E; reflexivity.
Qed.
Print Assumptions C40_rejects.

(** Systems with different patterns are not rejected: the first pattern is used for all of them
    and the answers of the others are wrong. *)
Theorem C40_heterogeneous_refuted :
  exists (b vals : tensor ZK) ptr cols, t_shape b = [2; 2]%nat /\ t_shape vals = [2; 2]%nat /\ wf_pat 2 (slice_idx cols 1) (slice_idx ptr 1) /\
    forall (S : host_solver ZK), correct RPlain S ->
    forall X, vmap_rule (solve_batched S) 2 true true b vals ptr cols = Some X ->
      ~ solves 2 (dense (t_data (slice true 2 vals 1)) (slice_idx cols 1) (slice_idx ptr 1)) (row 2 X 1) (t_data (slice true 2 b 1)).
Proof.
  exists {| t_shape := [2; 2]%nat; t_data := ([1; 2; 1; 2]%Z : list ZK) |}, {| t_shape := [2; 2]%nat; t_data := ([1; 1; 1; 1]%Z : list ZK) |}, (One [0; 1; 2]%nat), (Many [[0; 1]; [1; 0]]%nat).
  assert (W0 : wf_pat 2 [0; 1]%nat [0; 1; 2]%nat) by (repeat split; [intros [|[|i]] H; cbn; lia|cbn; lia|intros [|[|s]] H; cbn in *; lia]).
  split; [reflexivity|]. split; [reflexivity|]. split; [repeat split; [intros [|[|i]] H; cbn; lia|cbn; lia|intros [|[|s]] H; cbn in *; lia]|].
  intros S C X HX. unfold vmap_rule in HX. cbn [first_of Bool.eqb] in HX.
  match type of HX with solve_batched S ?b ?v ?c ?p = _ =>
    assert (OK : batch_shape_ok b v c p [2]%nat 2%nat) by (unfold batch_shape_ok; split; [reflexivity|]; split; [discriminate|]; split; [reflexivity|]; split; [reflexivity|]; split; [reflexivity|]; right; reflexivity)
  end.
  destruct (C40_batched ZK RPlain S C (solve_batched S) (or_introl eq_refl) _ _ _ _ _ _ OK W0) as [A _].
  destruct (A X HX) as (_ & _ & A3). specialize (A3 1%nat ltac:(cbn; lia)). destruct A3 as [L A3]. intros [_ Q].
  pose proof (A3 0%nat ltac:(lia)) as E0. pose proof (Q 0%nat ltac:(lia)) as Q0. pose proof (A3 1%nat ltac:(lia)) as E1. pose proof (Q 1%nat ltac:(lia)) as Q1.
  destruct (row 2 X 1) as [|x0 [|x1 [|x2 t]]]; cbn [length] in L; try lia. cbn in E0, E1, Q0, Q1. lia.
Qed.
Print Assumptions C40_heterogeneous_refuted.

(** The hypotheses hold: over the two-element field an exhaustive search is a correct and complete
    library solver. *)
Definition BK : CRing.
Proof.
  refine {| carrier := bool; c0 := false; c1 := true; cadd := xorb; cmul := andb; csub := xorb; copp := fun x => x; cth := _ |}.
  constructor; intros; repeat match goal with x : bool |- _ => destruct x end; reflexivity.
Defined.
Fixpoint all_vecs (n : nat) : list (list BK) := match n with O => [[]] | S m => map (cons (false : BK)) (all_vecs m) ++ map (cons (true : BK)) (all_vecs m) end.
Definition solves_b (n : nat) (A : nat -> nat -> BK) (x b : list BK) : bool :=
  (length x =? n)%nat && forallb (fun i => Bool.eqb (sumf (fun j => cmul (A i j) (get x j)) (seq 0 n)) (get b i)) (seq 0 n).
Lemma solves_b_ok n A x b : solves_b n A x b = true <-> solves n A x b.
Proof.
  unfold solves_b, solves. rewrite andb_true_iff, Nat.eqb_eq, forallb_forall. split; intros [L H]; (split; [exact L|]); intros i Hi.
  - apply eqb_prop. apply H. apply in_seq. lia.
  - apply in_seq in Hi. rewrite H by lia. apply eqb_reflx.
Qed.
Lemma all_vecs_in n (x : list BK) : length x = n -> In x (all_vecs n).
Proof.
  revert x. induction n as [|n IH]; intros [|a x] L; try discriminate L; [left; reflexivity|]. cbn. apply in_or_app. injection L as L. destruct a; [right|left]; apply in_map, IH, L.
Qed.
Fixpoint sequence {A} (l : list (option A)) : option (list A) :=
  match l with [] => Some [] | Some a :: t => match sequence t with Some r => Some (a :: r) | None => None end | None :: _ => None end.
Definition search (rd : reading) : host_solver BK := fun n vals cols ptr bs => sequence (map (fun b => find (fun x => solves_b n (read rd (dense vals cols ptr)) x b) (all_vecs n)) bs).
Lemma search_correct rd : correct rd (search rd).
Proof.
  intros n vals cols ptr bs xs _. unfold search. revert xs. induction bs as [|b bs IH]; intros xs H; cbn [map sequence] in H; [injection H as <-; split; [reflexivity|cbn; lia]|].
  destruct (find _ _) as [x|] eqn:E; [|discriminate]. destruct (sequence _) as [r|]; [|discriminate]. injection H as <-. destruct (IH r eq_refl) as [L Q]. split; [cbn [length]; f_equal; exact L|].
  intros [|k] Hk; cbn [nth].
  - apply find_some in E. apply solves_b_ok, (proj2 E).
  - apply Q. apply Nat.succ_lt_mono. exact Hk.
Qed.
Lemma search_complete rd : complete rd (search rd).
Proof.
  intros n vals cols ptr bs _ R. unfold search. induction bs as [|b bs [xs IH]]; [eexists; reflexivity|]. cbn [map sequence]. destruct (find _ _) as [x|] eqn:E.
  - rewrite IH. eexists. reflexivity.
  - exfalso. destruct (R b) as (x & Hx & _). pose proof (find_none _ _ E x (all_vecs_in n x (proj1 Hx))) as F. cbv beta in F. rewrite (proj2 (solves_b_ok _ _ _ _) Hx) in F. discriminate F.
Qed.
Example C40_example :
  let b := {| t_shape := [2; 2]%nat; t_data := ([true; false; false; true] : list BK) |} in
  let vals := {| t_shape := [2; 3]%nat; t_data := ([true; true; true; true; false; true] : list BK) |} in
  let cols := [0; 1; 1]%nat in let ptr := [0; 2; 3]%nat in
  wf_pat 2 cols ptr /\ vmap_args 2 2 true true b vals (One ptr) (One cols) ptr cols /\
  vmap_rule (solve_batched (search RTrans)) 2 true true b vals (One ptr) (One cols) = Some {| t_shape := [2; 2]%nat; t_data := [true; true; false; true] : list BK |} /\
  vmap_rule (umf_batched (search RTrans)) 2 true true b vals (One ptr) (One cols) = Some {| t_shape := [2; 2]%nat; t_data := [true; true; false; true] : list BK |}.
Proof.
  cbv zeta. split; [repeat split; [intros [|[|i]] H; cbn; lia|cbn; lia|intros [|[|[|s]]] H; cbn in *; lia]|]. split; [|split; vm_compute; reflexivity].
  unfold vmap_args. split; [lia|]. do 5 (split; [reflexivity|]). do 2 (split; [intros; discriminate|]). split; reflexivity.
Qed.

(** ** C41 *)
Section CacheSpec.
  Variables (K : CRing) (cfg F : Type).
  (** The contract of the factorisation library: an object remembers the configuration and pattern
      it was analysed for; refilling it with a matrix of that pattern gives the factor of that
      matrix, and fails exactly when factorising it afresh fails. *)
  Definition contract (fac : cfg -> csc K -> option F) (refac : F -> csc K -> F * bool) (sol : F -> list K -> list K)
      (cfg_of : F -> cfg) (sym : F -> nat * list (nat * nat)) : Prop :=
    (forall c A f, fac c A = Some f -> cfg_of f = c /\ sym f = cs_pat A) /\
    (forall f A, cfg_of (fst (refac f A)) = cfg_of f /\ sym (fst (refac f A)) = sym f) /\
    (forall f A, sym f = cs_pat A ->
       match fac (cfg_of f) A with
       | Some f0 => snd (refac f A) = true /\ forall b, sol (fst (refac f A)) b = sol f0 b
       | None => snd (refac f A) = false
       end).
End CacheSpec.
Arguments contract {K cfg F}.

Lemma leqb_eq' a b : leqb a b = true <-> a = b.
Proof. exact (leqb_eq a b). Qed.
Lemma sort_key_fst {A B} (l : list (A * B)) (key : A -> nat) : map fst (sort_key (fun e => key (fst e)) l) = sort_key key (map fst l).
Proof.
  assert (I : forall x l, map fst (insert_key (fun e : A * B => key (fst e)) x l) = insert_key key (fst x) (map fst l)).
  { intros x l0. induction l0 as [|y t IH]; [reflexivity|]. cbn. destruct (_ <=? _)%nat; cbn; [reflexivity|]. rewrite IH. reflexivity. }
  induction l as [|x t IH]; [reflexivity|]. cbn. rewrite I, IH. reflexivity.
Qed.
(** The pattern of the converted matrix does not depend on the values. *)
Lemma csc_pattern (K : CRing) n (v v' : list K) cols ptr A A' : to_csc n v cols ptr = Some A -> to_csc n v' cols ptr = Some A' -> cs_pat A = cs_pat A'.
Proof.
  unfold to_csc. set (nnz := last ptr 0%nat). destruct (Nat.eqb_spec (length (firstn nnz v)) (length (firstn nnz cols))) as [E|E]; [|discriminate].
  destruct (Nat.eqb_spec (length (firstn nnz v')) (length (firstn nnz cols))) as [E'|E']; [|discriminate]. intros H H'. injection H as <-. injection H' as <-.
  unfold cs_pat. cbn [cs_n cs_ents]. f_equal. rewrite !(sort_key_fst _ (fun e => snd e)). f_equal.
  assert (X : forall (w : list K), length w = length (firstn nnz cols) -> map fst (combine (combine (rows_of 0 ptr) (firstn nnz cols)) w) = combine (rows_of 0 ptr) (firstn nnz cols)).
  { intros w L. generalize dependent w. generalize (firstn nnz cols) as c. generalize (rows_of 0 ptr) as r. induction r as [|x r IH]; intros c w L; [reflexivity|]. destruct c as [|y c]; [reflexivity|]. destruct w as [|z w]; [discriminate L|]. cbn. f_equal. apply IH. cbn in L. lia. }
  rewrite !X by assumption. reflexivity.
Qed.
Section CacheProof.
  Variables (K : CRing) (cfg F : Type) (fac : cfg -> csc K -> option F) (refac : F -> csc K -> F * bool) (sol : F -> list K -> list K) (cfg_eqb : cfg -> cfg -> bool)
            (cfg_of : F -> cfg) (sym : F -> nat * list (nat * nat)).
  Hypothesis C : contract fac refac sol cfg_of sym.
  Hypothesis EQ : forall a b, cfg_eqb a b = true <-> a = b.
  (** A cached factor was analysed for the stored pattern with the callback's configuration. *)
  Definition st_ok (c : cfg) (st : option (state F)) : Prop :=
    match st with
    | None => True
    | Some s => cfg_of (st_factor s) = c /\ exists (v : list K) A, to_csc (st_n s) v (st_cols s) (st_ptr s) = Some A /\ sym (st_factor s) = cs_pat A
    end.
  Lemma cached_ok c st n vals cols ptr bs : st_ok c st ->
    st_ok c (fst (cached_solve fac refac sol c st n vals cols ptr bs)) /\
    snd (cached_solve fac refac sol c st n vals cols ptr bs) =
      match to_csc n vals cols ptr with Some A => match fac c A with Some f => Some (map (sol f) bs) | None => None end | None => None end.
  Proof.
    destruct C as (C1 & C2 & C3). intros H. unfold cached_solve. destruct (to_csc n vals cols ptr) as [A|] eqn:EA; [|auto].
    destruct st as [s|]; cbn [st_ok] in H.
    - destruct H as (HC & v & A0 & E0 & S0). destruct (negb (st_n s =? n)%nat || negb (leqb (st_cols s) cols) || negb (leqb (st_ptr s) ptr)) eqn:CH.
      + destruct (fac c A) as [f|] eqn:EF; cbn [fst snd]; [|split; [cbn; eauto 6|reflexivity]]. split; [|reflexivity]. destruct (C1 c A f EF) as [D1 D2]. cbn. split; [exact D1|]. exists vals, A. auto.
      + apply orb_false_iff in CH. destruct CH as [CH K3]. apply orb_false_iff in CH. destruct CH as [K1 K2]. apply negb_false_iff in K1, K2, K3. apply Nat.eqb_eq in K1. apply leqb_eq' in K2, K3.
        assert (SP : sym (st_factor s) = cs_pat A). { rewrite S0. eapply csc_pattern; [exact E0|]. rewrite K1, K2, K3. exact EA. }
        pose proof (C2 (st_factor s) A) as [R1 R2]. pose proof (C3 (st_factor s) A SP) as R3. rewrite HC in R3.
        destruct (refac (st_factor s) A) as [f ok]. cbn [fst snd] in *. split.
        * cbn. split; [congruence|]. exists v, A0. split; [exact E0|congruence].
        * destruct (fac c A) as [f0|]; [|rewrite R3; reflexivity]. destruct R3 as [-> R3]. f_equal. apply map_ext. exact R3.
    - destruct (fac c A) as [f|] eqn:EF; cbn [fst snd]; [|auto]. split; [|reflexivity]. destruct (C1 c A f EF) as [D1 D2]. cbn. split; [exact D1|]. exists vals, A. auto.
  Qed.
  Lemma key_eqb_eq (a b : key cfg) : key_eqb cfg_eqb a b = true <-> a = b.
  Proof.
    destruct a as [[[c ns] ba] sh], b as [[[c' ns'] ba'] sh']. cbn. rewrite !andb_true_iff, EQ, Nat.eqb_eq, !eqb_true_iff. split; [intros [[[-> ->] ->] ->]; reflexivity|]. intros H. injection H as -> -> -> ->. auto.
  Qed.
  Definition reg_ok (r : registry cfg F) : Prop := forall k e, find_cb cfg_eqb r k = Some e -> fst e = key_cfg k /\ st_ok (fst e) (snd e).
  Lemma find_set r k e k' : find_cb (F := F) cfg_eqb (set_cb cfg_eqb r k e) k' = if key_eqb cfg_eqb k' k then Some e else find_cb cfg_eqb r k'.
  Proof.
    induction r as [|[k0 e0] t IH]; cbn [set_cb find_cb]; [reflexivity|].
    destruct (key_eqb cfg_eqb k k0) eqn:E; cbn [find_cb].
    - apply key_eqb_eq in E. subst k0. destruct (key_eqb cfg_eqb k' k); reflexivity.
    - destruct (key_eqb cfg_eqb k' k0) eqn:E'; [|exact IH]. destruct (key_eqb cfg_eqb k' k) eqn:E2; [|reflexivity]. apply key_eqb_eq in E', E2. subst. rewrite (proj2 (key_eqb_eq _ _) eq_refl) in E. discriminate.
  Qed.
  Lemma serve_ok r q : reg_ok r -> reg_ok (fst (serve fac refac sol cfg_eqb r q)) /\ snd (serve fac refac sol cfg_eqb r q) = fresh fac sol q.
  Proof.
    intros R. unfold serve. set (e := match find_cb cfg_eqb r (q_key q) with Some e => e | None => (key_cfg (q_key q), None) end).
    assert (E : fst e = key_cfg (q_key q) /\ st_ok (fst e) (snd e)). { unfold e. destruct (find_cb cfg_eqb r (q_key q)) eqn:X; [apply R, X|]. cbn. auto. }
    destruct e as [c st]. cbn [fst snd] in E. destruct E as [-> E]. destruct (cached_ok (key_cfg (q_key q)) st (q_n q) (q_vals q) (q_cols q) (q_ptr q) (q_rhs q) E) as [S1 S2].
    destruct (cached_solve fac refac sol (key_cfg (q_key q)) st (q_n q) (q_vals q) (q_cols q) (q_ptr q) (q_rhs q)) as [st' a]. cbn [fst snd] in *. split; [|rewrite S2; reflexivity].
    intros k e'. rewrite find_set. destruct (key_eqb cfg_eqb k (q_key q)) eqn:X; [|apply R]. apply key_eqb_eq in X. subst k. intros H. injection H as <-. auto.
  Qed.
End CacheProof.
(** Whatever was solved before, with any mixture of configurations, namespaces, patterns, values
    and failures, every answer is that of a fresh factorisation of the request's own matrix. *)
Theorem C41_cache :
  forall (K : CRing) (cfg F : Type) fac refac sol (cfg_eqb : cfg -> cfg -> bool) (cfg_of : F -> cfg) sym,
    contract (K := K) fac refac sol cfg_of sym -> (forall a b, cfg_eqb a b = true <-> a = b) ->
    forall qs : list (request K cfg), serve_all fac refac sol cfg_eqb [] qs = map (fresh fac sol) qs.
Proof.
  intros K cfg F fac refac sol cfg_eqb cfg_of sym C EQ qs.
  assert (G : forall qs r, reg_ok K cfg F cfg_eqb cfg_of sym r -> serve_all fac refac sol cfg_eqb r qs = map (fresh fac sol) qs).
  { induction qs0 as [|q t IH]; intros r R; [reflexivity|]. cbn [serve_all map]. destruct (serve_ok K cfg F fac refac sol cfg_eqb cfg_of sym C EQ r q R) as [S1 S2].
    destruct (serve fac refac sol cfg_eqb r q) as [r' a]. cbn [fst snd] in *. rewrite S2, (IH r' S1). reflexivity. }
  apply G. intros k e H. discriminate H.
Qed.
Print Assumptions C41_cache.

(** The contract is satisfiable: a library whose factor object keeps the matrix itself; and a
    history that re-uses, changes and fails. *)
Definition toy_fac (c : bool) (A : csc ZK) : option (bool * (nat * list (nat * nat)) * list Z) :=
  if forallb (fun e => negb (snd e =? 0)%Z) (cs_ents A) then Some (c, cs_pat A, map snd (cs_ents A)) else None.
Definition toy_refac (f : bool * (nat * list (nat * nat)) * list Z) (A : csc ZK) : (bool * (nat * list (nat * nat)) * list Z) * bool :=
  ((fst f, map snd (cs_ents A)), forallb (fun e => negb (snd e =? 0)%Z) (cs_ents A)).
Definition toy_sol (f : bool * (nat * list (nat * nat)) * list Z) (b : list Z) : list Z := map (fun p => (fst p * snd p)%Z) (combine (snd f) b).
Lemma toy_contract : contract (K := ZK) toy_fac toy_refac toy_sol (fun f => fst (fst f)) (fun f => snd (fst f)).
Proof.
  split; [|split].
  - intros c A f. unfold toy_fac. destruct (forallb _ _); [|discriminate]. intros H. injection H as <-. auto.
  - intros f A. auto.
  - intros [[c s] v] A H. cbn in H. unfold toy_fac, toy_refac. cbn [fst snd]. destruct (forallb _ _); [|reflexivity]. split; [reflexivity|]. intros b. reflexivity.
Qed.
Example C41_example :
  let q := fun ns (v : list ZK) cols => {| q_key := (true, ns, false, true); q_n := 2; q_vals := v; q_cols := cols; q_ptr := [0; 1; 2]%nat; q_rhs := [[1; 1]%Z : list ZK] |} in
  serve_all toy_fac toy_refac toy_sol Bool.eqb [] [q 0%nat [2; 3]%Z [0; 1]%nat; q 0%nat [0; 3]%Z [0; 1]%nat; q 0%nat [5; 7]%Z [0; 1]%nat; q 1%nat [5; 7]%Z [1; 0]%nat; q 0%nat [5; 7]%Z [1; 0]%nat] =
  [Some [[2; 3]%Z]; None; Some [[5; 7]%Z]; Some [[7; 5]%Z]; Some [[7; 5]%Z]].
Proof. reflexivity. Qed.
