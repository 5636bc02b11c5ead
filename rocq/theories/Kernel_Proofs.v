(** Proofs about the element kernels. *)
From Verif Require Import Base Csr_Model Assembly_Model Assembly_Spec Assembly_Proofs AssemblyMain_Proofs Dof_Model Dof_Spec
     Dof_Proofs Dof_Props Kernel_Model Kernel_Spec.
From Coq Require Import ZifyBool ZifyNat.

(** ** Nested flat arrays *)

Lemma flat_map_app_block A B (f : A -> list B) (l : list A) i j (da : A) (db : B) :
  i < length l -> j < length (f (nth i l da)) ->
  nth (sum_nat (firstn i (map (fun x => length (f x)) l)) + j) (flat_map f l) db = nth j (f (nth i l da)) db.
Proof.
  revert i; induction l as [|x t IH]; intros i Hi Hj; [cbn in Hi; lia|].
  destruct i as [|i]; cbn [firstn map sum_nat flat_map nth] in *.
  - rewrite app_nth1 by (cbn in *; lia). reflexivity.
  - rewrite app_nth2 by lia.
    replace (length (f x) + sum_nat (firstn i (map (fun x0 => length (f x0)) t)) + j - length (f x))
      with (sum_nat (firstn i (map (fun x0 => length (f x0)) t)) + j) by lia.
    apply IH; [cbn in Hi; lia | exact Hj].
Qed.

Lemma sum_nat_const A (w : nat) (l : list A) n : n <= length l -> sum_nat (firstn n (map (fun _ => w) l)) = n * w.
Proof. revert n; induction l as [|x t IH]; intros [|n] H; cbn in *; try lia. rewrite IH by lia. lia. Qed.

Lemma flat_map_const_block A B (f : A -> list B) (l : list A) w n k (da : A) (db : B) :
  (forall x, In x l -> length (f x) = w) -> n < length l -> k < w ->
  nth (n * w + k) (flat_map f l) db = nth k (f (nth n l da)) db.
Proof.
  intros Hw Hn Hk.
  rewrite <- (flat_map_app_block _ _ f l n k da db Hn) by (rewrite Hw by (apply nth_In; exact Hn); exact Hk).
  f_equal. f_equal. rewrite (map_ext_in _ (fun _ => w)) by exact Hw. rewrite sum_nat_const by lia. reflexivity.
Qed.

Lemma combine_app_eq A B (a a' : list A) (b b' : list B) :
  length a = length b -> combine (a ++ a') (b ++ b') = combine a b ++ combine a' b'.
Proof. revert b; induction a as [|x t IH]; intros [|y s] H; cbn in *; try discriminate; [reflexivity|]. rewrite IH by lia. reflexivity. Qed.

Lemma combine_flat_map A B C (f : A -> list B) (g : A -> list C) l :
  (forall x, In x l -> length (f x) = length (g x)) ->
  combine (flat_map f l) (flat_map g l) = flat_map (fun x => combine (f x) (g x)) l.
Proof.
  induction l as [|x t IH]; cbn; intros H; [reflexivity|].
  rewrite combine_app_eq by (apply H; left; reflexivity). rewrite IH by (intros; apply H; right; assumption). reflexivity.
Qed.

Lemma flat_map_length_sum A B (f : A -> list B) l : length (flat_map f l) = sum_nat (map (fun x => length (f x)) l).
Proof. induction l as [|x t IH]; cbn; [reflexivity|]. rewrite app_length, IH. reflexivity. Qed.

Lemma nth_tab A n (f : nat -> A) i d : i < n -> nth i (tab n f) d = f i.
Proof. intros H. unfold tab. rewrite nth_map_in with (d := 0) by (rewrite seq_length; exact H). rewrite seq_nth by exact H. reflexivity. Qed.
Lemma tab_length A n (f : nat -> A) : length (tab n f) = n.
Proof. unfold tab. rewrite map_length, seq_length. reflexivity. Qed.
Lemma tab_ext A n (f g : nat -> A) : (forall i, i < n -> f i = g i) -> tab n f = tab n g.
Proof. intros H. unfold tab. apply map_ext_in. intros i Hi. apply in_seq in Hi. apply H. lia. Qed.

Section Proofs.
  Variable K : CRing.
  Local Open Scope ring_K.
  Add Ring Kring : (cth K).

  Lemma Sum_ext n (f g : nat -> K) : (forall i, i < n -> f i = g i) -> Sum n f = Sum n g.
  Proof. intros H. unfold Sum. apply sumf_ext. intros i Hi. apply in_seq in Hi. apply H. lia. Qed.
  Lemma Sum_zero n (f : nat -> K) : (forall i, i < n -> f i = 0) -> Sum n f = 0.
  Proof. intros H. unfold Sum. apply sumf_zero. intros i Hi. apply in_seq in Hi. apply H. lia. Qed.
  Lemma Sum_add n (f g : nat -> K) : Sum n (fun i => f i + g i) = Sum n f + Sum n g.
  Proof. apply sumf_add. Qed.
  Lemma Sum_sub n (f g : nat -> K) : Sum n (fun i => f i - g i) = Sum n f - Sum n g.
  Proof. apply sumf_sub. Qed.
  Lemma Sum_mul_l n c (f : nat -> K) : Sum n (fun i => c * f i) = c * Sum n f.
  Proof. apply sumf_mul_l. Qed.
  Lemma Sum_mul_r n c (f : nat -> K) : Sum n (fun i => f i * c) = Sum n f * c.
  Proof. apply sumf_mul_r. Qed.
  Lemma Sum_swap n m (f : nat -> nat -> K) : Sum n (fun i => Sum m (f i)) = Sum m (fun j => Sum n (fun i => f i j)).
  Proof. apply sumf_swap. Qed.
  Lemma Sum_S n (f : nat -> K) : Sum (S n) f = Sum n f + f n.
  Proof. unfold Sum. rewrite seq_S, sumf_app. cbn. ring. Qed.
  Lemma Sum_single n a (f : nat -> K) : a < n -> Sum n (fun i => if Nat.eqb i a then f i else 0) = f a.
  Proof. intros H. apply sumf_single_nat. exact H. Qed.

  Lemma get_tab n (f : nat -> K) i : i < n -> get (tab n f) i = f i.
  Proof. intros H. unfold get. apply nth_tab. exact H. Qed.
  Lemma get2_tab n m (f : nat -> nat -> K) i j : i < n -> j < m -> get2 (tab n (fun i => tab m (f i))) i j = f i j.
  Proof. intros Hi Hj. unfold get2. rewrite nth_tab by exact Hi. apply get_tab. exact Hj. Qed.

  (** ** Element vectors against test vectors *)

  (** Testing an element contribution with a global vector reads the vector at the
      element's DOFs. *)
  Lemma test_elem N nd d (r : list K) (g : nat -> K) :
    length d = nd -> (forall x, In x d -> x < N) ->
    Sum N (fun i => g i * elem_res nd d r i) = Sum nd (fun a => g (nth a d 0%nat) * get r a).
  Proof.
    intros Hl Hr. unfold elem_res.
    transitivity (Sum N (fun i => Sum nd (fun a => if Nat.eqb i (nth a d 0%nat) then g i * get r a else 0))).
    { apply Sum_ext. intros i Hi. rewrite <- sumf_mul_l. unfold Sum. apply sumf_ext. intros a Ha.
      rewrite (Nat.eqb_sym i). destruct (Nat.eqb (nth a d 0%nat) i); [reflexivity | ring]. }
    rewrite Sum_swap. apply Sum_ext. intros a Ha.
    rewrite (Sum_single N (nth a d 0%nat) (fun i => g i * get r a)); [reflexivity|].
    apply Hr. apply nth_In. lia.
  Qed.

  Section Elem.
    Variable fes : list (fe K).
    Hypothesis WF : wf_fes fes.
    Let L := layout_of fes.
    Let N := total_dofs L.

    Lemma fe_at_In i : i < length fes -> In (fe_at fes i) fes.
    Proof. intros H. unfold fe_at. apply nth_In. exact H. Qed.

    Lemma layout_length : length L = length fes.
    Proof. apply map_length. Qed.
    Lemma layout_nth i : i < length fes -> nth i L (0, 0)%nat = (length (fe_points (fe_at fes i)), fe_vec (fe_at fes i)).
    Proof.
      intros H. unfold L, layout_of. rewrite nth_map_in with (d := fe0 K) by exact H. reflexivity.
    Qed.

    Lemma cells_of_nth c i : i < length fes -> nth i (cells_of fes c) [] = nth c (fe_cells (fe_at fes i)) [].
    Proof. intros H. unfold cells_of. rewrite nth_map_in with (d := fe0 K) by exact H. reflexivity. Qed.

    Lemma cell_shape c i : c < num_cells fes -> i < length fes ->
      length (nth c (fe_cells (fe_at fes i)) []) = fe_nn (fe_at fes i) /\
      forall n, In n (nth c (fe_cells (fe_at fes i)) []) -> n < length (fe_points (fe_at fes i)).
    Proof.
      intros Hc Hi. destruct (WF _ (fe_at_In i Hi)) as [E H]. apply H. apply nth_In. lia.
    Qed.

    (** The element's DOFs, variable by variable, node by node, component by component. *)
    Lemma cell_dofs_eq c : c < num_cells fes ->
      cell_dofs L (cells_of fes c) =
      flat_map (fun i => flat_map (fun n => tab (fe_vec (fe_at fes i)) (fun k => dof L i (node_of (fe_at fes i) c n) k))
                                  (seq 0 (fe_nn (fe_at fes i)))) (seq 0 (length fes)).
    Proof.
      intros Hc.
      destruct (C21_assembly_gather K L (zeros (total_dofs L)) (cells_of fes c)) as (_ & E & _).
      - apply repeat_length.
      - unfold cells_of. rewrite map_length, layout_length. reflexivity.
      - intros i nd Hi Hnd. rewrite layout_length in Hi. rewrite layout_nth by exact Hi. cbn [fst].
        rewrite cells_of_nth in Hnd by exact Hi. apply (cell_shape c i Hc Hi). exact Hnd.
      - rewrite E, layout_length. rewrite !flat_map_concat_map. f_equal. apply map_ext_in. intros i Hi. apply in_seq in Hi.
        rewrite layout_nth by lia. cbn [snd]. rewrite cells_of_nth by lia.
        destruct (cell_shape c i Hc ltac:(lia)) as [Hl _].
        rewrite !flat_map_concat_map. f_equal.
        rewrite <- (map_nth_seq 0%nat (nth c (fe_cells (fe_at fes i)) [])) at 1. rewrite Hl, map_map. reflexivity.
    Qed.

    Lemma cell_dofs_lt c x : c < num_cells fes -> In x (cell_dofs L (cells_of fes c)) -> x < N.
    Proof.
      intros Hc Hx.
      destruct (C21_assembly_gather K L (zeros (total_dofs L)) (cells_of fes c)) as (_ & _ & E).
      - apply repeat_length.
      - unfold cells_of. rewrite map_length, layout_length. reflexivity.
      - intros i nd Hi Hnd. rewrite layout_length in Hi. rewrite layout_nth by exact Hi. cbn [fst].
        rewrite cells_of_nth in Hnd by exact Hi. apply (cell_shape c i Hc Hi). exact Hnd.
      - apply E. exact Hx.
    Qed.

    Lemma block_length (B : Type) f (g : nat -> nat -> B) :
      length (flat_map (fun n => tab (fe_vec f) (g n)) (seq 0 (fe_nn (K := K) f))) = (fe_nn f * fe_vec f)%nat.
    Proof.
      rewrite flat_map_length_sum.
      rewrite (map_ext _ (fun _ => fe_vec f)) by (intros; apply tab_length).
      rewrite <- (firstn_all (map _ _)), map_length, seq_length.
      rewrite sum_nat_const by (rewrite seq_length; lia). reflexivity.
    Qed.

    Lemma blocks_length (B : Type) (g : nat -> nat -> nat -> B) :
      length (flat_map (fun i => flat_map (fun n => tab (fe_vec (fe_at fes i)) (g i n)) (seq 0 (fe_nn (fe_at fes i))))
                       (seq 0 (length fes))) = num_local fes.
    Proof.
      rewrite flat_map_length_sum. unfold num_local. f_equal.
      rewrite (map_ext _ (fun i => (fe_nn (fe_at fes i) * fe_vec (fe_at fes i))%nat)) by (intros; apply block_length).
      unfold fe_at. rewrite <- (map_map (fun i => nth i fes (fe0 K)) (fun f => (fe_nn f * fe_vec f)%nat)).
      rewrite map_nth_seq. reflexivity.
    Qed.

    Lemma cell_dofs_length c : c < num_cells fes -> length (cell_dofs L (cells_of fes c)) = num_local fes.
    Proof. intros Hc. rewrite cell_dofs_eq by exact Hc. apply blocks_length with (g := fun i n k => dof L i (node_of (fe_at fes i) c n) k). Qed.

    Lemma blocks_nth (B : Type) (g : nat -> nat -> nat -> B) i n k d :
      i < length fes -> n < fe_nn (fe_at fes i) -> k < fe_vec (fe_at fes i) ->
      nth (local_off fes i + n * fe_vec (fe_at fes i) + k)
          (flat_map (fun i => flat_map (fun n => tab (fe_vec (fe_at fes i)) (g i n)) (seq 0 (fe_nn (fe_at fes i))))
                    (seq 0 (length fes))) d = g i n k.
    Proof.
      intros Hi Hn Hk.
      set (F := fun i => flat_map (fun n => tab (fe_vec (fe_at fes i)) (g i n)) (seq 0 (fe_nn (fe_at fes i)))).
      assert (LF : forall i, length (F i) = (fe_nn (fe_at fes i) * fe_vec (fe_at fes i))%nat) by (intros; apply block_length).
      assert (Off : local_off fes i = sum_nat (firstn i (map (fun i => length (F i)) (seq 0 (length fes))))).
      { unfold local_off. f_equal. f_equal.
        rewrite (map_ext (fun i => length (F i)) _ LF). unfold fe_at.
        rewrite <- (map_map (fun i => nth i fes (fe0 K)) (fun f => (fe_nn f * fe_vec f)%nat)), map_nth_seq. reflexivity. }
      rewrite Off, <- Nat.add_assoc.
      rewrite (flat_map_app_block _ _ F (seq 0 (length fes)) i (n * fe_vec (fe_at fes i) + k) 0%nat d).
      - rewrite seq_nth by exact Hi. rewrite Nat.add_0_l. unfold F.
        rewrite (flat_map_const_block _ _ (fun n => tab (fe_vec (fe_at fes i)) (g i n)) _ (fe_vec (fe_at fes i)) n k 0%nat d).
        + rewrite seq_nth by exact Hn. apply nth_tab. exact Hk.
        + intros. apply tab_length.
        + rewrite seq_length. exact Hn.
        + exact Hk.
      - rewrite seq_length. exact Hi.
      - rewrite seq_nth by exact Hi. rewrite LF. cbn. nia.
    Qed.

    (** The unflattened element solution holds the nodal values of the solution vector. *)
    Lemma cell_sol_nodal u c i n k :
      c < num_cells fes -> i < length fes -> n < fe_nn (fe_at fes i) -> k < fe_vec (fe_at fes i) ->
      cell_sol fes (local_sol u (cell_dofs L (cells_of fes c))) i n k = nodal fes i u c n k.
    Proof.
      intros Hc Hi Hn Hk. unfold cell_sol, local_sol, get.
      rewrite nth_map_in with (d := 0%nat).
      - rewrite cell_dofs_eq by exact Hc. rewrite blocks_nth by assumption. reflexivity.
      - rewrite cell_dofs_length by exact Hc. rewrite <- (blocks_length nat (fun _ _ _ => 0%nat)).
        destruct (Nat.lt_ge_cases (local_off fes i + n * fe_vec (fe_at fes i) + k)
          (length (flat_map (fun i => flat_map (fun n => tab (fe_vec (fe_at fes i)) (fun _ => 1%nat)) (seq 0 (fe_nn (fe_at fes i)))) (seq 0 (length fes)))))
          as [H|H]; [rewrite blocks_length in *; exact H|].
        exfalso. pose proof (blocks_nth nat (fun _ _ _ => 1%nat) i n k 0%nat Hi Hn Hk) as E.
        rewrite nth_overflow in E by exact H. discriminate.
    Qed.

    (** Testing a raveled element residual. *)
    Lemma test_blocks v c (r : nat -> nat -> nat -> K) :
      c < num_cells fes ->
      Sum N (fun j => get v j * elem_res (num_local fes) (cell_dofs L (cells_of fes c))
               (flat_map (fun i => ravel (fe_at fes i) (r i)) (seq 0 (length fes))) j) =
      Sum (length fes) (fun i => Sum (fe_nn (fe_at fes i)) (fun n => Sum (fe_vec (fe_at fes i)) (fun k =>
        nodal fes i v c n k * r i n k))).
    Proof.
      intros Hc.
      rewrite test_elem; [| apply cell_dofs_length; exact Hc | intros x; apply cell_dofs_lt; exact Hc].
      set (R := flat_map _ _).
      assert (LR : length (cell_dofs L (cells_of fes c)) = length R)
        by (rewrite cell_dofs_length by exact Hc; symmetry; apply blocks_length).
      transitivity (sumf (fun p => get v (fst p) * snd p) (combine (cell_dofs L (cells_of fes c)) R)).
      { rewrite (sumf_combine K (fun (a : nat) (b : K) => get v a * b) _ R 0%nat 0 LR).
        rewrite cell_dofs_length by exact Hc. reflexivity. }
      rewrite cell_dofs_eq by exact Hc. unfold R, ravel.
      rewrite combine_flat_map by (intros; rewrite !block_length; reflexivity).
      rewrite sumf_flat_map. unfold Sum. apply sumf_ext. intros i Hi.
      rewrite combine_flat_map by (intros; rewrite !tab_length; reflexivity).
      rewrite sumf_flat_map. apply sumf_ext. intros n Hn.
      unfold tab. rewrite combine_map_both, sumf_map. reflexivity.
    Qed.

    Lemma cat_nth (g : fe K -> nat -> K) : forall l i n, i < length l -> n < fe_nn (nth i l (fe0 K)) ->
      cat l g (node_off l i + n) = g (nth i l (fe0 K)) n.
    Proof.
      induction l as [|f t IH]; intros i n Hi Hn; [cbn in Hi; lia|].
      destruct i as [|i]; cbn [cat nth] in *.
      - unfold node_off. cbn. destruct (Nat.ltb_spec n (fe_nn f)); [reflexivity | lia].
      - unfold node_off. cbn [map firstn sum_nat].
        destruct (Nat.ltb_spec (fe_nn f + sum_nat (firstn i (map fe_nn t)) + n) (fe_nn f)); [lia|].
        replace (fe_nn f + sum_nat (firstn i (map fe_nn t)) + n - fe_nn f)%nat with (node_off t i + n)%nat
          by (unfold node_off; lia).
        apply IH; [cbn in Hi; lia | exact Hn].
    Qed.
  End Elem.

  (** ** Quadrature algebra *)
  Lemma weak_algebra nn vec dim nq (nod : nat -> nat -> K) (m : nat -> nat -> K) (g : nat -> nat -> nat -> K)
        (sv : nat -> nat -> K) (sg : nat -> nat -> nat -> K) (w : nat -> K) :
    Sum nn (fun n => Sum vec (fun k => nod n k *
      (Sum nq (fun q => m q k * sv q n * w q) + Sum nq (fun q => Sum dim (fun d => g q k d * (sg q n d * w q)))))) =
    Sum nq (fun q => w q *
      (Sum vec (fun k => m q k * Sum nn (fun n => sv q n * nod n k)) +
       Sum vec (fun k => Sum dim (fun d => g q k d * Sum nn (fun n => sg q n d * nod n k))))).
  Proof.
    transitivity (Sum nn (fun n => Sum nq (fun q => Sum vec (fun k =>
      nod n k * (m q k * sv q n * w q + Sum dim (fun d => g q k d * (sg q n d * w q))))))).
    { apply Sum_ext. intros n Hn. rewrite <- Sum_swap. apply Sum_ext. intros k Hk.
      rewrite Sum_mul_l, Sum_add. reflexivity. }
    rewrite Sum_swap. apply Sum_ext. intros q Hq.
    rewrite Sum_swap.
    transitivity (w q * Sum vec (fun k => m q k * Sum nn (fun n => sv q n * nod n k) +
                                          Sum dim (fun d => g q k d * Sum nn (fun n => sg q n d * nod n k))));
      [|rewrite Sum_add; reflexivity].
    rewrite <- Sum_mul_l. apply Sum_ext. intros k Hk.
    transitivity (Sum nn (fun n => w q * m q k * (sv q n * nod n k)) +
                  Sum nn (fun n => Sum dim (fun d => w q * g q k d * (sg q n d * nod n k)))).
    { rewrite <- Sum_add. apply Sum_ext. intros n Hn.
      transitivity (w q * m q k * (sv q n * nod n k) + nod n k * Sum dim (fun d => g q k d * (sg q n d * w q))); [ring|].
      f_equal. rewrite <- Sum_mul_l. apply Sum_ext. intros d Hd. ring. }
    rewrite Sum_mul_l, Sum_swap.
    transitivity (w q * m q k * Sum nn (fun n => sv q n * nod n k) +
                  Sum dim (fun d => w q * (g q k d * Sum nn (fun n => sg q n d * nod n k)))).
    { f_equal. apply Sum_ext. intros d Hd. rewrite Sum_mul_l. ring. }
    rewrite Sum_mul_l. ring.
  Qed.

  Lemma surface_algebra nn vec nq (nod : nat -> nat -> K) (m : nat -> nat -> K) (sv : nat -> nat -> K) (w : nat -> K) :
    Sum nn (fun n => Sum vec (fun k => nod n k * Sum nq (fun q => m q k * sv q n * w q))) =
    Sum nq (fun q => w q * Sum vec (fun k => m q k * Sum nn (fun n => sv q n * nod n k))).
  Proof.
    pose proof (weak_algebra nn vec 0 nq nod m (fun _ _ _ => 0) sv (fun _ _ _ => 0) w) as E.
    transitivity (Sum nn (fun n => Sum vec (fun k => nod n k *
      (Sum nq (fun q => m q k * sv q n * w q) + Sum nq (fun q => Sum 0 (fun d => 0 * (0 * w q))))))).
    { apply Sum_ext; intros n Hn; apply Sum_ext; intros k Hk. f_equal.
      rewrite (Sum_zero nq (fun q => Sum 0 (fun d => 0 * (0 * w q)))) by (intros; reflexivity). ring. }
    rewrite E. apply Sum_ext. intros q Hq. f_equal.
    rewrite (Sum_zero vec (fun k => Sum 0 (fun d => 0 * Sum nn (fun n => 0 * nod n k)))) by (intros; reflexivity). ring.
  Qed.

  Section Kern.
    Variables (dim nq nfq : nat).
    Variable det : list (list K) -> K.
    Variable inv : list (list K) -> list (list K).
    Variable norm : list K -> K.
    Variables (V W : Type).
    Variable fes : list (fe K).
    Hypothesis WF : wf_fes fes.
    Let L := layout_of fes.
    Let N := total_dofs L.
    Let cd c := cell_dofs L (cells_of fes c).

    Lemma eval_field u c q i :
      c < num_cells fes -> i < length fes ->
      op_eval (fe_at fes i) (cell_sol fes (local_sol u (cd c)) i) (fe_sv (fe_at fes i) q) = field_at fes i u c q.
    Proof using WF.
      intros Hc Hi. unfold op_eval, field_at. apply tab_ext. intros k Hk. apply Sum_ext. intros n Hn.
      unfold cd, L. rewrite cell_sol_nodal by assumption. ring.
    Qed.

    Lemma grad_field u (vars : nat -> nat -> V) c q i :
      c < num_cells fes -> i < length fes ->
      op_grad dim (fe_at fes i) (cell_sol fes (local_sol u (cd c)) i)
        (fun n d => vi_sg (vinp_of dim det inv fes vars c) q (node_off fes i + n) d) = grad_at dim inv fes i u c q.
    Proof using WF.
      intros Hc Hi. unfold op_grad, grad_at. apply tab_ext. intros k Hk. apply tab_ext. intros d Hd.
      apply Sum_ext. intros n Hn. unfold cd, L. rewrite cell_sol_nodal by assumption.
      cbn [vinp_of vi_sg]. rewrite (cat_nth fes (fun f n => shape_grad dim inv f c q n d)) by assumption. fold (fe_at fes i). ring.
    Qed.

    Lemma weak_form_kernel_test (wf : weak_form K V) vars u v c :
      c < num_cells fes ->
      Sum N (fun j => get v j * elem_res (num_local fes) (cd c)
               (weak_form_kernel dim nq fes wf (local_sol u (cd c)) (vinp_of dim det inv fes vars c)) j) =
      Sum nq (fun q =>
        let out := wf (tab (length fes) (fun i => field_at fes i u c q))
                      (tab (length fes) (fun i => grad_at dim inv fes i u c q))
                      (quad_point dim (fe_at fes 0) c q) (vars c q) in
        Sum (length fes) (fun i =>
          JxW dim det (fe_at fes i) c q *
          (dot1 (fe_vec (fe_at fes i)) (nth i (fst out) []) (field_at fes i v c q) +
           dot2 (fe_vec (fe_at fes i)) dim (nth i (snd out) []) (grad_at dim inv fes i v c q)))).
    Proof using WF.
      intros Hc. cbv zeta.
      set (out := fun q => wf (tab (length fes) (fun i => field_at fes i u c q))
                      (tab (length fes) (fun i => grad_at dim inv fes i u c q))
                      (quad_point dim (fe_at fes 0) c q) (vars c q)).
      set (x := vinp_of dim det inv fes vars c).
      set (r := fun i n k =>
             integrate_val nq (fun q => nth i (fst (out q)) []) (vi_jxw x i) (fe_sv (fe_at fes i)) n k +
             integrate_grad dim nq (fun q => nth i (snd (out q)) []) (fun q n d => vi_vg x q (node_off fes i + n) d) n k).
      assert (EO : forall q, wf (tab (length fes) (fun i0 => op_eval (fe_at fes i0) (cell_sol fes (local_sol u (cd c)) i0) (fe_sv (fe_at fes i0) q)))
                            (tab (length fes) (fun i0 => op_grad dim (fe_at fes i0) (cell_sol fes (local_sol u (cd c)) i0)
                               (fun n0 d => vi_sg x q (node_off fes i0 + n0) d)))
                            (vi_x x q) (vi_vars x q) = out q).
      { intros q. unfold out. f_equal; apply tab_ext; intros i0 Hi0; [apply eval_field | apply grad_field]; assumption. }
      assert (EK : weak_form_kernel dim nq fes wf (local_sol u (cd c)) x =
                   flat_map (fun i => ravel (fe_at fes i) (r i)) (seq 0 (length fes))).
      { unfold weak_form_kernel. cbv zeta. apply flat_map_ext. intros i.
        unfold ravel. apply flat_map_ext. intros n. apply tab_ext. intros k Hk. unfold r, integrate_val, integrate_grad.
        f_equal; apply Sum_ext; intros q Hq; rewrite EO; reflexivity. }
      rewrite EK. etransitivity; [exact (test_blocks fes WF v c r Hc)|].
      etransitivity; [|apply Sum_swap]. apply Sum_ext. intros i Hi.
      etransitivity; [|etransitivity; [apply (weak_algebra (fe_nn (fe_at fes i)) (fe_vec (fe_at fes i)) dim nq (nodal fes i v c)
                   (fun q k => get (nth i (fst (out q)) []) k) (fun q k d => get2 (nth i (snd (out q)) []) k d)
                   (fe_sv (fe_at fes i)) (fun q n d => shape_grad dim inv (fe_at fes i) c q n d)
                   (fun q => JxW dim det (fe_at fes i) c q))|]].
      - apply Sum_ext. intros n Hn. apply Sum_ext. intros k Hk. f_equal. unfold r, integrate_val, integrate_grad, x.
        cbn [vinp_of vi_jxw vi_vg]. f_equal. apply Sum_ext. intros q Hq. apply Sum_ext. intros d Hd.
        rewrite (cat_nth fes (fun f n => v_grad_JxW dim det inv f c q n d)) by assumption. reflexivity.
      - apply Sum_ext. intros q Hq. f_equal. f_equal.
        + unfold dot1. apply Sum_ext. intros k Hk. f_equal. unfold field_at. rewrite get_tab by exact Hk. reflexivity.
        + unfold dot2. apply Sum_ext. intros k Hk. apply Sum_ext. intros d Hd. f_equal. unfold grad_at.
          rewrite (get2_tab _ dim) by assumption. reflexivity.
    Qed.

    Lemma face_field u (w : nat -> W) cg q i :
      fst cg < num_cells fes -> i < length fes ->
      op_eval (fe_at fes i) (cell_sol fes (local_sol u (cd (fst cg))) i)
        (fun n => fi_sv (finp_of dim det inv norm fes w cg) q (node_off fes i + n)) = face_field_at fes i u (fst cg) (snd cg) q.
    Proof using WF.
      intros Hc Hi. unfold op_eval, face_field_at. apply tab_ext. intros k Hk. apply Sum_ext. intros n Hn.
      unfold cd, L. rewrite cell_sol_nodal by assumption. cbn [finp_of fi_sv].
      rewrite (cat_nth fes (fun f n => fe_fsv f (snd cg) q n)) by assumption. fold (fe_at fes i). ring.
    Qed.

    Lemma surface_weak_form_kernel_test (sw : surface_weak_form K W) w u v cg :
      fst cg < num_cells fes ->
      Sum N (fun j => get v j * elem_res (num_local fes) (cd (fst cg))
               (surface_weak_form_kernel nfq fes sw (local_sol u (cd (fst cg))) (finp_of dim det inv norm fes w cg)) j) =
      Sum nfq (fun q =>
        let out := sw (tab (length fes) (fun i => face_field_at fes i u (fst cg) (snd cg) q))
                      (face_point dim (fe_at fes 0) (fst cg) (snd cg) q) (w q) in
        Sum (length fes) (fun i =>
          nanson dim det inv norm (fe_at fes i) (fst cg) (snd cg) q *
          dot1 (fe_vec (fe_at fes i)) (nth i out []) (face_field_at fes i v (fst cg) (snd cg) q))).
    Proof using WF.
      intros Hc. cbv zeta.
      set (out := fun q => sw (tab (length fes) (fun i => face_field_at fes i u (fst cg) (snd cg) q))
                      (face_point dim (fe_at fes 0) (fst cg) (snd cg) q) (w q)).
      set (x := finp_of dim det inv norm fes w cg).
      set (r := fun i n k =>
             integrate_val nfq (fun q => nth i (out q) []) (fi_nanson x i) (fun q n => fi_sv x q (node_off fes i + n)) n k).
      assert (EO : forall q, sw (tab (length fes) (fun i0 => op_eval (fe_at fes i0) (cell_sol fes (local_sol u (cd (fst cg))) i0)
                               (fun n0 => fi_sv x q (node_off fes i0 + n0))))
                            (fi_x x q) (fi_vars x q) = out q).
      { intros q. unfold out. f_equal; apply tab_ext; intros i0 Hi0; apply face_field; assumption. }
      assert (EK : surface_weak_form_kernel nfq fes sw (local_sol u (cd (fst cg))) x =
                   flat_map (fun i => ravel (fe_at fes i) (r i)) (seq 0 (length fes))).
      { unfold surface_weak_form_kernel. cbv zeta. apply flat_map_ext. intros i.
        unfold ravel. apply flat_map_ext. intros n. apply tab_ext. intros k Hk. unfold r, integrate_val.
        apply Sum_ext; intros q Hq; rewrite EO; reflexivity. }
      rewrite EK. etransitivity; [exact (test_blocks fes WF v (fst cg) r Hc)|].
      etransitivity; [|apply Sum_swap]. apply Sum_ext. intros i Hi.
      etransitivity; [|etransitivity; [apply (surface_algebra (fe_nn (fe_at fes i)) (fe_vec (fe_at fes i)) nfq (nodal fes i v (fst cg))
                   (fun q k => get (nth i (out q) []) k) (fun q n => fe_fsv (fe_at fes i) (snd cg) q n)
                   (fun q => nanson dim det inv norm (fe_at fes i) (fst cg) (snd cg) q))|]].
      - apply Sum_ext. intros n Hn. apply Sum_ext. intros k Hk. f_equal. unfold r, integrate_val, x.
        cbn [finp_of fi_nanson fi_sv]. apply Sum_ext. intros q Hq.
        rewrite (cat_nth fes (fun f n => fe_fsv f (snd cg) q n)) by assumption. reflexivity.
      - apply Sum_ext. intros q Hq. f_equal.
        unfold dot1. apply Sum_ext. intros k Hk. f_equal. unfold face_field_at. rewrite get_tab by exact Hk. reflexivity.
    Qed.

    (** *** Single-variable kernels are instances of the multi-variable ones *)
    Definition wf_tensor (tm : tensor_map K V) : weak_form K V := fun _ g _ y => ([], [tm (nth 0 g []) y]).
    Definition wf_mass (mm : mass_map K V) : weak_form K V := fun l _ x y => ([mm (nth 0 l []) x y], []).
    Definition sw_map (sm : surface_map K W) : surface_weak_form K W := fun l x y => [sm (nth 0 l []) x y].

    Lemma get_nil k : get (@nil K) k = 0.
    Proof. destruct k; reflexivity. Qed.

    Lemma get2_nil k d : get2 (@nil (list K)) k d = 0.
    Proof. unfold get2. destruct k; cbn [nth]; apply get_nil. Qed.

    Lemma laplace_as_weak tm u x : length fes = 1%nat ->
      laplace_kernel dim nq fes tm u x = weak_form_kernel dim nq fes (wf_tensor tm) u x.
    Proof.
      clear. intros H1. unfold laplace_kernel, weak_form_kernel. cbv zeta. rewrite H1. cbn [seq flat_map]. rewrite app_nil_r.
      unfold ravel. apply flat_map_ext. intros n. apply tab_ext. intros k Hk.
      unfold integrate_val, integrate_grad, wf_tensor. cbn [fst snd nth tab seq map].
      match goal with |- _ = ?z + _ =>
        assert (Z : z = 0) by (apply Sum_zero; intros q _; cbn [nth]; rewrite get_nil; ring); rewrite Z end.
      symmetry. etransitivity; [apply (Radd_0_l (cth K)) | reflexivity].
    Qed.
    Lemma mass_as_weak mm u x : length fes = 1%nat ->
      mass_kernel nq fes mm u x = weak_form_kernel dim nq fes (wf_mass mm) u x.
    Proof.
      clear. intros H1. unfold mass_kernel, weak_form_kernel. cbv zeta. rewrite H1. cbn [seq flat_map]. rewrite app_nil_r.
      unfold ravel. apply flat_map_ext. intros n. apply tab_ext. intros k Hk.
      unfold integrate_val, integrate_grad, wf_mass. cbn [fst snd nth tab seq map].
      match goal with |- _ = _ + ?z => assert (Z : z = 0); [|rewrite Z; symmetry; etransitivity; [etransitivity; [apply (Radd_comm (cth K)) | apply (Radd_0_l (cth K))] | reflexivity]] end.
      apply Sum_zero. intros q _. apply Sum_zero. intros d _. change (nth 0 (@nil (list (list K))) []) with (@nil (list K)). rewrite get2_nil. ring.
    Qed.
    Lemma map_as_weak sm u x : length fes = 1%nat ->
      surface_kernel nfq fes sm u x = surface_weak_form_kernel nfq fes (sw_map sm) u x.
    Proof.
      clear. intros H1. unfold surface_kernel, surface_weak_form_kernel. cbv zeta. rewrite H1. cbn [seq flat_map]. rewrite app_nil_r.
      reflexivity.
    Qed.

    (** *** Lengths *)
    Lemma weak_form_kernel_length (wf : weak_form K V) u x : length (weak_form_kernel dim nq fes wf u x) = num_local fes.
    Proof. clear. unfold weak_form_kernel. cbv zeta. apply (blocks_length fes). Qed.
    Lemma surface_weak_form_kernel_length (sw : surface_weak_form K W) u x : length (surface_weak_form_kernel nfq fes sw u x) = num_local fes.
    Proof. clear. unfold surface_weak_form_kernel. cbv zeta. apply (blocks_length fes). Qed.

    (** Element residuals add. *)
    Lemma elem_res_vadd nd d (a b : list K) j : length a = nd -> length b = nd ->
      elem_res nd d (vadd a b) j = elem_res nd d a j + elem_res nd d b j.
    Proof.
      clear. intros La Lb. unfold elem_res. rewrite <- sumf_add. apply sumf_ext. intros i Hi. apply in_seq in Hi.
      rewrite get_vadd by lia. destruct (Nat.eqb (nth i d 0%nat) j); ring.
    Qed.
    Lemma elem_res_zeros nd d j : elem_res nd d (zeros nd : list K) j = 0.
    Proof.
      clear. unfold elem_res. apply sumf_zero. intros i Hi. rewrite get_zeros. destruct (Nat.eqb (nth i d 0%nat) j); reflexivity.
    Qed.

    (** ** The whole problem *)
    Variable view : view.
    Variable ph : physics K V.
    Variable vars : nat -> nat -> V.
    Variable bnd : list (bdata K W).
    Variable vj : list K -> vinp K V -> list K.
    Variable sj : list K -> finp K W -> list K.
    Variable xv : vinp K V.
    Variable xs : finp K W.
    Hypothesis WB : forall b, In b bnd -> wf_bdata fes b.
    Hypothesis TJ : forall u x, length (vj u x) = (num_local fes * num_local fes)%nat.
    Hypothesis TS : forall u x, length (sj u x) = (num_local fes * num_local fes)%nat.

    (** What a user-supplied kernel must satisfy: one number per element DOF. *)
    Definition kern_shape (k : vkernel K V) : Prop := forall u x, length (k u x) = num_local fes.
    Definition skern_shape (k : skernel K W) : Prop := forall u x, length (k u x) = num_local fes.

    Variable kv : vkernel K V.
    Hypothesis EV : volume_kernel dim nq fes ph = Some kv.
    Hypothesis SV : kern_shape kv.
    Hypothesis SB : forall b k, In b bnd -> surface_kernel_of nfq fes (bd_ph b) = Some k -> skern_shape k.

    Variable pb : problem K (vinp K V) (finp K W).
    Hypothesis EB : build dim nq nfq det inv norm fes view ph vars bnd vj sj xv xs = Some pb.

    Lemma all_opt_Forall2 A B (f : A -> option B) : forall l r, all_opt (map f l) = Some r ->
      Forall2 (fun a b => f a = Some b) l r.
    Proof.
      clear. induction l as [|a t IH]; cbn; intros r E; [injection E as <-; constructor|].
      destruct (f a) eqn:Ea; [|discriminate]. destruct (all_opt (map f t)) eqn:Et; [|discriminate].
      injection E as <-. constructor; [exact Ea | apply IH; reflexivity].
    Qed.
    Lemma Forall2_In_r A B (R : A -> B -> Prop) : forall l l' b, Forall2 R l l' -> In b l' -> exists a, In a l /\ R a b.
    Proof.
      clear. intros l l' b F. induction F as [|x y l l' H F IH]; cbn; [tauto|].
      intros [<-|Hb]; [exists x; auto|]. destruct (IH Hb) as (a & Ha & Hr). exists a; auto.
    Qed.
    Lemma sumf_Forall2 A B (R : A -> B -> Prop) (f : A -> K) (g : B -> K) : forall l l',
      Forall2 R l l' -> (forall a b, In a l -> R a b -> f a = g b) -> sumf f l = sumf g l'.
    Proof.
      clear. intros l l' F. induction F as [|x y l l' H F IH]; cbn; intros E; [reflexivity|].
      rewrite (E x y) by auto. f_equal. apply IH. intros; apply E; auto.
    Qed.

    Lemma build_parts : exists bs,
      Forall2 (fun b r => build_boundary dim nfq det inv norm fes sj xs b = Some r) bnd bs /\
      pb = {| pr_n := total_dofs (layout_of fes); pr_view := view; pr_nd := num_local fes;
              pr_cells := tab (num_cells fes) (fun c => cell_dofs (layout_of fes) (cells_of fes c));
              pr_inp := tab (num_cells fes) (vinp_of dim det inv fes vars); pr_inp0 := xv;
              pr_kern := fun u x => (kv u x, vj u x); pr_bnd := bs; pr_surface_jac_zero := false |}.
    Proof using EV EB.
      unfold build in EB. rewrite EV in EB.
      destruct (all_opt _) eqn:E; [|discriminate]. injection EB as <-.
      eexists. split; [apply all_opt_Forall2; exact E | reflexivity].
    Qed.

    Lemma build_wf : wf_problem pb.
    Proof using EV EB SV SB WB TJ TS WF.
      destruct build_parts as (bs & F & ->).
      assert (IN : forall d, In d (tab (num_cells fes) (fun c => cell_dofs (layout_of fes) (cells_of fes c))) ->
                   exists c, c < num_cells fes /\ d = cell_dofs (layout_of fes) (cells_of fes c)).
      { intros d Hd. unfold tab in Hd. apply in_map_iff in Hd. destruct Hd as (c & <- & Hc). apply in_seq in Hc. exists c. split; [lia|reflexivity]. }
      constructor; cbn [pr_cells pr_nd pr_n pr_inp pr_kern pr_bnd fst snd].
      - intros d Hd. destruct (IN d Hd) as (c & Hc & ->). apply cell_dofs_length; assumption.
      - intros d x Hd Hx. destruct (IN d Hd) as (c & Hc & ->). eapply cell_dofs_lt; eassumption.
      - rewrite !tab_length. reflexivity.
      - intros u x _. split; [apply SV | apply TJ].
      - intros b c Hb Hc. destruct (Forall2_In_r _ _ _ _ _ _ F Hb) as (b0 & Hb0 & E).
        unfold build_boundary in E. destruct (surface_kernel_of _ _ _); [|discriminate]. injection E as <-.
        cbn [b_cells] in Hc. apply in_map_iff in Hc. destruct Hc as (cg & <- & Hcg).
        rewrite tab_length. apply (proj2 (WB b0 Hb0)). exact Hcg.
      - intros b Hb. destruct (Forall2_In_r _ _ _ _ _ _ F Hb) as (b0 & Hb0 & E).
        unfold build_boundary in E. destruct (surface_kernel_of _ _ _); [|discriminate]. injection E as <-.
        cbn [b_cells b_inp]. rewrite !map_length, combine_length. pose proof (proj1 (WB b0 Hb0)). lia.
      - intros b u x Hb _. destruct (Forall2_In_r _ _ _ _ _ _ F Hb) as (b0 & Hb0 & E).
        unfold build_boundary in E. destruct (surface_kernel_of _ _ _) eqn:Ek; [|discriminate]. injection E as <-.
        cbn [b_kern fst snd]. split; [apply (SB b0 _ Hb0 Ek) | apply TS].
    Qed.

    (** Virtual work of one element's residual. *)
    Definition cell_work (k : vkernel K V) (u v : list K) (c : nat) : K :=
      Sum N (fun j => get v j * elem_res (num_local fes) (cd c)
               (k (local_sol u (cd c)) (vinp_of dim det inv fes vars c)) j).
    Definition face_work (k : skernel K W) (u v : list K) (p : nat * nat * (nat -> W)) : K :=
      Sum N (fun j => get v j * elem_res (num_local fes) (cd (fst (fst p)))
               (k (local_sol u (cd (fst (fst p)))) (finp_of dim det inv norm fes (snd p) (fst p))) j).

    Lemma Sum_sumf A n (f : nat -> A -> K) l : Sum n (fun j => sumf (f j) l) = sumf (fun a => Sum n (fun j => f j a)) l.
    Proof. clear. unfold Sum. apply sumf_swap. Qed.

    Lemma build_work bs0 u v : 0 < bs0 ->
      virtual_work (pr_n pb) v (get_res pb bs0 u) =
      Sum (num_cells fes) (cell_work kv u v) +
      sumf (fun b => match surface_kernel_of nfq fes (bd_ph b) with
                     | Some k => sumf (face_work k u v) (combine (bd_inds b) (bd_vars b))
                     | None => 0
                     end) bnd.
    Proof using EV EB SV SB WB TJ TS WF.
      intros Hbs. pose proof build_wf as WP.
      unfold virtual_work.
      rewrite (Sum_ext _ _ (fun i => get v i * spec_res pb u i)).
      2:{ intros i Hi. rewrite get_res_spec by assumption. reflexivity. }
      destruct build_parts as (bs & F & ->). cbn [pr_n].
      fold L. fold N. unfold spec_res. cbn [pr_nd pr_cells pr_inp pr_kern pr_bnd fst snd].
      rewrite (Sum_ext _ _ (fun j =>
         Sum (num_cells fes) (fun c => get v j * elem_res (num_local fes) (cd c) (kv (local_sol u (cd c)) (vinp_of dim det inv fes vars c)) j) +
         sumf (fun b => sumf (fun q => get v j * (let d := nth (fst q) (tab (num_cells fes) cd) [] in
              elem_res (num_local fes) d (fst (b_kern b (local_sol u d) (snd q))) j)) (combine (b_cells b) (b_inp b))) bs)).
      2:{ intros j Hj.
          assert (EC : forall f : list nat * vinp K V -> K,
            sumf f (combine (tab (num_cells fes) cd) (tab (num_cells fes) (vinp_of dim det inv fes vars))) =
            Sum (num_cells fes) (fun c => f (cd c, vinp_of dim det inv fes vars c))).
          { intros f. unfold tab. rewrite combine_map_both, sumf_map. reflexivity. }
          change (tab (num_cells fes) (fun c => cell_dofs (layout_of fes) (cells_of fes c))) with (tab (num_cells fes) cd).
          rewrite EC. cbn [fst snd]. rewrite Sum_mul_l.
          transitivity (get v j * Sum (num_cells fes) (fun c => elem_res (num_local fes) (cd c) (kv (local_sol u (cd c)) (vinp_of dim det inv fes vars c)) j) +
             get v j * sumf (fun b => sumf (fun q => (let d := nth (fst q) (tab (num_cells fes) cd) [] in
              elem_res (num_local fes) d (fst (b_kern b (local_sol u d) (snd q))) j)) (combine (b_cells b) (b_inp b))) bs);
            [assert (D : forall a b c : K, a * (b + c) = a * b + a * c) by (intros; ring); apply D|].
          f_equal. rewrite <- sumf_mul_l. apply sumf_ext. intros b Hb. rewrite <- sumf_mul_l. reflexivity. }
      rewrite Sum_add. f_equal.
      - rewrite Sum_swap. reflexivity.
      - rewrite Sum_sumf. symmetry. eapply sumf_Forall2; [exact F|].
        intros b r Hb E. unfold build_boundary in E. destruct (surface_kernel_of _ _ _) as [k|]; [|discriminate].
        injection E as <-. cbn [b_cells b_inp b_kern fst snd].
        assert (EF : forall f : nat * finp K W -> K,
          sumf f (combine (map fst (bd_inds b)) (map (fun p => finp_of dim det inv norm fes (snd p) (fst p)) (combine (bd_inds b) (bd_vars b)))) =
          sumf (fun p => f (fst (fst p), finp_of dim det inv norm fes (snd p) (fst p))) (combine (bd_inds b) (bd_vars b))).
        { intros f. pose proof (proj1 (WB b Hb)) as EL. revert EL. generalize (bd_vars b) as lv. generalize (bd_inds b) as li.
          clear. induction li as [|i li IH]; intros [|w lv] EL; try discriminate; cbn; [reflexivity|].
          f_equal. apply IH. cbn in EL. lia. }
        rewrite (Sum_ext _ _ (fun j => sumf (fun p => get v j * elem_res (num_local fes) (cd (fst (fst p)))
               (k (local_sol u (cd (fst (fst p)))) (finp_of dim det inv norm fes (snd p) (fst p))) j) (combine (bd_inds b) (bd_vars b)))).
        2:{ intros j Hj. rewrite EF. apply sumf_ext. intros [cg w] Hp. cbn [fst snd].
            rewrite nth_tab by (apply (proj2 (WB b Hb)); apply in_combine_l in Hp; exact Hp). reflexivity. }
        rewrite Sum_sumf. reflexivity.
    Qed.
  End Kern.
End Proofs.
